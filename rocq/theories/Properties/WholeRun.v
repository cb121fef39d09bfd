(** C56: what is returned for any source at all, also after errors. *)
From Coq Require Import List NArith Arith.
From Verif.Model Require Import Prelude Parser Iter Utf8 Chunk TextIter PosStr PosStrish
  TextVec TextDatumList CharIter StrishIter Alloc DefaultClassifier TextMethods DatumMethods Bindings Premade.
From Verif.Spec Require Import Contract ChunkContract AbsStream Grammar Balance Fails Unclosed Lawful Run.
From Verif.Proofs Require Import Sim Refine AbsParse AbsIter Instances RunFacts FormRuns ClassifierFacts Transfer UnclosedFacts.
From Verif.Tests Require Import Str AbsCases.
Import ListNotations.
Local Notation N_len r := (N.of_nat (length r)).

(** Every source has exactly one run, for any bindings of combiners. *)
Section Declarative.
Context {W ET Pos CE : Type} (cc : classifier) (bnd : bindings W (list (item Pos)) ET Pos CE) (DC : disjoint_classes cc).

Theorem C56_total w s : exists items w', run cc bnd w s items w'.
Proof.
  destruct (i_collect_total (umax:=N_len s) cc bnd s w (N.le_refl _) (n:=S (length s)) (f:=3 * length s + 3)) as (items & s' & E); auto.
  destruct (iterates_run DC (umax:=N_len s) (bnd:=bnd) (w:=w) (s:=s) (items:=items) (s':=s')) as (p & w' & _ & H); [eexists _, _; exact E|].
  eauto.
Qed.

Theorem C56_unique w s items1 w1 items2 w2 : run cc bnd w s items1 w1 -> run cc bnd w s items2 w2 ->
  items1 = items2 /\ w1 = w2.
Proof.
  intros H1 H2. destruct (run_iterates (umax:=N_len s) DC H1 (N.le_refl _)) as (p1 & E1).
  destruct (run_iterates (umax:=N_len s) DC H2 (N.le_refl _)) as (p2 & E2).
  destruct (iterates_det E1 E2) as [-> E]. split; [reflexivity|]. injection E as _ ->. reflexivity.
Qed.
End Declarative.
Print Assumptions C56_total.
Print Assumptions C56_unique.

(** Any lawful parser: its items until [next] returns [None] are those of the run, and the
    combiners' state ends where the run says. *)
Section Lawful.
Context {S A TT ET Pos CE W AE AC : Type}.
Context (umax : N) (cc : classifier) (so : stream_ops S A TT Pos) (co : concat_ops A TT)
        (ao : alloc_ops A TT ET) (bnd : bindings A TT ET Pos CE).
Local Notation text := (list (item Pos)).
Context (view : A -> W) (abnd : bindings W text AE Pos AC).
Context (Rs : S -> text -> text -> Prop) (Rt : TT -> text -> Prop)
        (Rx : ET -> AE -> Prop) (Rc : CE -> AC -> Prop).
Local Notation iterates := (iterates umax cc so co ao bnd).
Local Notation Ri := (pitem_rel Rt Rx (@eq Pos) Rc).
Context (LW : lawful False view so co ao bnd abnd Rs Rt Rx Rc) (DC : disjoint_classes cc).

Theorem C56_sound st s w items st' : starts_on Rs view st s w -> iterates st items st' ->
  exists aitems, run cc abnd w s aitems (view (ps_alloc st')) /\ Forall2 Ri items aitems.
Proof.
  intros Hs H. destruct (iterates_abs LW Hs H) as (aitems & a' & Ha & Hi & (_ & _ & V)).
  destruct (iterates_run DC Ha) as (p & w' & -> & G). exists aitems. unfold Ra_view in V. cbn in V. rewrite V. auto.
Qed.

Theorem C56_complete st s w aitems w' : starts_on Rs view st s w -> (N_len s <= umax)%N ->
  run cc abnd w s aitems w' ->
  exists items st', iterates st items st' /\ Forall2 Ri items aitems /\ view (ps_alloc st') = w'.
Proof.
  intros Hs Hu H. destruct (run_iterates DC H Hu) as (p & Ha).
  destruct (iterates_conc LW Hs Ha) as (items & st' & E & Hi & (_ & _ & V)). exists items, st'. auto.
Qed.
End Lawful.
Print Assumptions C56_sound.
Print Assumptions C56_complete.

(** The convenience functions stop after the first error. *)
Section ParseStr.
Context {W ET CE : Type} (ET_eq : ET -> ET -> bool) (ET_hash : ET -> list hash_word)
        (hasher : list hash_word -> N) (XH : forall a b, ET_eq a b = true -> ET_hash a = ET_hash b).
Local Notation Ri := (pitem_rel (text_items (im_ops (W:=W)) posstr_any) (@eq ET) (@eq strpos) (@eq CE)).

Theorem C56_parse_str_with (m : im_bindings (W:=W) (ET:=ET) (CE:=CE)) am input w aitems w' : str_bindings m am -> (N_len input <= usize_max)%N ->
  run default_classifier (abs_lookup ET_eq am) w (str_source input) aitems w' ->
  exists items st, parse_str_with ET_eq ET_hash hasher input m w = (Ok items, Some st) /\
    Forall2 Ri items (upto_err aitems).
Proof.
  intros Hm Hu H. destruct (str_starts input w) as (s & Es & Hs).
  destruct (parse_str_iterates ET_eq ET_hash hasher m w Hu Es) as ((all & st1 & Ha & st & Ep) & _).
  destruct (C56_sound _ _ _ _ _ _ _ _ _ _ _ _ (str_lawful ET_eq ET_hash hasher XH Hm) default_disjoint _ _ _ _ _ Hs Ha) as (aall & Hr & Hi).
  destruct (C56_unique _ _ default_disjoint _ _ _ _ _ _ H Hr) as [-> _].
  exists (upto_err all), st. split; [exact Ep|]. apply upto_err_rel; auto; intros ? ? [].
Qed.
End ParseStr.
Print Assumptions C56_parse_str_with.

(** Cases. *)

(** An unmatched end delimiter, which loses the text before it; a failing combiner; and a nest
    form that is never closed, in which two combinations are complete. *)
Example C56_case :
  exists items st', im_iterates im_map (im_start "{n }a}{err {n x}}b{n {n {q }}{n {rm }} c" 5%N) items st' /\
    map im_show items = [inl (DExtra 5%N); inr (UnbalancedEndChar (StrPos (lit "{n }a}{err {n x}}b{n {n {q }}{n {rm }} c") 5 5));
      inr (FailedCombiner 7%N); inl (DText (lit "b")); inr MissingEndChar] /\
    ps_alloc st' = 9%N.
Proof. eexists _, _. split; [exists 20, 200; vm_compute; reflexivity|]. split; vm_compute; reflexivity. Qed.

Example C56_case_run : exists aitems,
  run default_classifier (abs_lookup num_eq abs_map) 5%N (str_source (lit "{n }a}{err {n x}}b{n {n {q }}{n {rm }} c")) aitems 9%N /\
  length aitems = 5.
Proof.
  destruct C56_case as (items & st' & H & E & V).
  destruct (C56_sound _ _ _ _ _ _ _ _ _ _ _ _ im_map_lawful default_disjoint _ _ _ _ _ (im_start_on _ 5%N) H) as (aitems & Hr & Hi).
  cbv beta in Hr. rewrite V in Hr. exists aitems. split; [exact Hr|].
  assert (L : length items = length aitems) by (clear -Hi; induction Hi; cbn; auto).
  rewrite <- L, <- (map_length im_show), E. reflexivity.
Qed.
