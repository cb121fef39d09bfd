(** C44: parsing two sources one after the other is parsing their concatenation. *)
From Coq Require Import List NArith Arith.
From Verif.Model Require Import Prelude Parser Iter Utf8 Chunk TextIter PosStr PosStrish
  TextVec TextDatumList CharIter StrishIter Alloc DefaultClassifier TextMethods DatumMethods Bindings Premade.
From Verif.Spec Require Import Contract ChunkContract AbsStream Grammar Balance Lawful Run Outcome Append.
From Verif.Proofs Require Import Sim Refine ChunkFacts TextFacts Instances RunFacts GrammarRuns ClassifierFacts TwoRuns
  Transfer PremadeFacts AppendFacts.
From Verif.Tests Require Import AbsCases.
Import ListNotations.
Local Notation N_len r := (N.of_nat (length r)).

(** Any two lawful runs, the first without errors, the second started with the
    combiners' state where the first left it. *)
Section Append.
Context {S A TT ET Pos CE W AE AC : Type}.
Context (umax : N) (cc : classifier) (so : stream_ops S A TT Pos) (co : concat_ops A TT)
        (ao : alloc_ops A TT ET) (bnd : bindings A TT ET Pos CE).
Local Notation text := (list (item Pos)).
Context (view : A -> W) (abnd : bindings W text AE Pos AC).
Context (Rs : S -> text -> text -> Prop) (Rt : TT -> text -> Prop)
        (Rx : ET -> AE -> Prop) (Rc : CE -> AC -> Prop).
Local Notation iterates := (iterates umax cc so co ao bnd).
Context (LW : lawful False view so co ao bnd abnd Rs Rt Rx Rc) (DC : disjoint_classes cc).

Theorem C44_append st1 u w ds st1' st2 v items st2' st : separate cc u v -> (N_len u <= umax)%N ->
  starts_on Rs view st1 u w -> iterates st1 (map inl ds) st1' ->
  starts_on Rs view st2 v (view (ps_alloc st1')) -> iterates st2 items st2' ->
  starts_on Rs view st (u ++ v) w ->
  exists all st', iterates st all st' /\ agree Rt Rx Rc all (map inl ds ++ items) /\
    view (ps_alloc st') = view (ps_alloc st2').
Proof. exact (append_iterates LW DC (st1:=st1) (u:=u) (w:=w) ds (st1':=st1') (st2:=st2) (v:=v) (items:=items) (st2':=st2') (st:=st)). Qed.
End Append.
Print Assumptions C44_append.

(** [parse_str_with]: the datums of the first string, at the same positions, and then
    the items of the second, at positions moved by the length of the first. *)
Section ParseStr.
Context {W ET CE : Type} (ET_eq : ET -> ET -> bool) (ET_hash : ET -> list hash_word)
        (hasher : list hash_word -> N) (XH : forall a b, ET_eq a b = true -> ET_hash a = ET_hash b).
Local Notation im_ops := (im_ops (W:=W)).
Local Notation run_with := (parse_str_with (W:=W) (CE:=CE) ET_eq ET_hash hasher).
Local Notation run := (parse_str (W:=W) (CE:=CE) ET_eq ET_hash hasher).
Local Notation same k b := (same_text posstr_ops im_ops posstr_ops im_ops (moved k b)).

Theorem C44_parse_str_with m am i1 i2 w ds1 st1 items2 st2 : str_bindings m am -> position_blind (abs_lookup ET_eq am) ->
  separate default_classifier (str_source i1) (str_source i2) -> (N_len (i1 ++ i2) <= usize_max)%N ->
  run_with i1 m w = (Ok (map inl ds1), Some st1) -> run_with i2 m (ps_alloc st1) = (Ok items2, Some st2) ->
  exists a b st, run_with (i1 ++ i2) m w = (Ok (map inl a ++ b), Some st) /\
    Forall2 (datum_rel (same 0 0) eq) a ds1 /\
    Forall2 (pitem_rel (same (N_len i1) (byte_len i1)) eq (moved (N_len i1) (byte_len i1)) eq) b items2 /\
    ps_alloc st = ps_alloc st2.
Proof. intros. eapply parse_str_append; eauto. Qed.

Theorem C44_parse_str i1 i2 w ds1 st1 items2 st2 :
  separate default_classifier (str_source i1) (str_source i2) -> (N_len (i1 ++ i2) <= usize_max)%N ->
  run i1 w = (Ok (map inl ds1), Some st1) -> run i2 (ps_alloc st1) = (Ok items2, Some st2) ->
  exists a b st, run (i1 ++ i2) w = (Ok (map inl a ++ b), Some st) /\
    Forall2 (datum_rel (same 0 0) eq) a ds1 /\
    Forall2 (pitem_rel (same (N_len i1) (byte_len i1)) eq (moved (N_len i1) (byte_len i1)) eq) b items2 /\
    ps_alloc st = ps_alloc st2.
Proof.
  intros. eapply parse_str_append; eauto using str_bindings_nil. intros k b d1 d2 _. exact I.
Qed.
End ParseStr.
Print Assumptions C44_parse_str_with.
Print Assumptions C44_parse_str.

(** Cases. *)
Lemma abs_map_positions : position_blind (abs_lookup num_eq abs_map).
Proof.
  intros k b d1 d2 H. destruct d1, d2; cbn in H; try contradiction; try exact I.
  assert (E : map it_ch t = map it_ch t0) by (induction H as [|x y l l' [K _] _ IH]; cbn; congruence).
  unfold abs_lookup, abs_map. unfold datum_eq. cbn [pair_lookup datum_eq_run fst]. unfold chars_eqb. rewrite E.
  repeat match goal with |- context [list_eq_dec N.eq_dec (map it_ch t0) ?k] => destruct (list_eq_dec N.eq_dec (map it_ch t0) k);
    [cbn; intros; subst; unfold cres_rel; cbn; auto|] end.
  exact I.
Qed.

Definition pos_of (x : datum im_text N + error strpos N) : option (N * N) :=
  match x with inr (UnbalancedEndChar p) => Some (sp_char p, sp_byte p) | _ => None end.

(** A count kept by a combiner goes on in the second string, and the error at its end
    is at the moved position (the first string has five bytes more than it has
    characters). *)
Example C44_case_parse_str :
  let i1 := lit "a" ++ [233%N] ++ lit "\{{n }" ++ [26085; 26412]%N ++ lit "{q \}}" in let i2 := lit "b{n x}}" in
  str_bindings im_map abs_map /\ position_blind (abs_lookup num_eq abs_map) /\
  separate default_classifier (str_source i1) (str_source i2) /\
  (exists ds1 st1 items2 st2,
    parse_str_with num_eq num_hash sum_hasher i1 im_map 0%N = (Ok (map inl ds1), Some st1) /\ ps_alloc st1 = 1%N /\
    parse_str_with num_eq num_hash sum_hasher i2 im_map 1%N = (Ok items2, Some st2) /\
    map pos_of items2 = [None; None; Some (6, 6)]%N /\ ps_alloc st2 = 2%N) /\
  option_map ps_alloc (snd (parse_str_with num_eq num_hash sum_hasher (i1 ++ i2) im_map 0%N)) = Some 2%N /\
  let whole := fst (parse_str_with num_eq num_hash sum_hasher (i1 ++ i2) im_map 0%N) in
  res_map (map pos_of) whole = Ok [None; None; None; None; None; None; Some (22, 27)]%N /\
  res_map (map im_show) (res_map (firstn 6) whole) =
    Ok [inl (DText (lit "a" ++ [233%N] ++ lit "{")); inl (DExtra 0%N); inl (DText [26085; 26412]%N); inl (DText (lit "}"));
        inl (DText (lit "b")); inl (DExtra 1%N)].
Proof.
  intros i1 i2. split; [exact abs_map_related|]. split; [exact abs_map_positions|]. split.
  { split; [reflexivity|]. right. right. left. exists (removelast (str_source i1)), (last (str_source i1) (Item 0%N (StrPos [] 0 0))).
    split; [vm_compute; reflexivity|]. split; vm_compute; reflexivity. }
  split; [|repeat split; vm_compute; reflexivity].
  eexists [_; _; _; _], _, _, _. split; [vm_compute; reflexivity|]. split; [vm_compute; reflexivity|].
  split; [vm_compute; reflexivity|]. split; vm_compute; reflexivity.
Qed.

(** The conditions are needed.  Texts that touch are one text; an escape reaches over
    the boundary; and a text directly before an unmatched end is not returned. *)
Example C44_needed :
  let show i := res_map (map im_show) (fst (parse_str_with num_eq num_hash sum_hasher i im_map 0%N)) in
  show (lit "a") = Ok [inl (DText (lit "a"))] /\ show (lit "b") = Ok [inl (DText (lit "b"))] /\
  show (lit "ab") = Ok [inl (DText (lit "ab"))] /\
  show (lit "{}\") = Ok [inl DEmptyNest; inl (DText [])] /\ show (lit "{}") = Ok [inl DEmptyNest] /\
  res_map (map pos_of) (fst (parse_str_with num_eq num_hash sum_hasher (lit "{}\{}") im_map 0%N)) = Ok [None; Some (4, 4)]%N /\
  res_map (@length _) (show (lit "}")) = Ok 1 /\ res_map (@length _) (show (lit "a}")) = Ok 1.
Proof. repeat split; vm_compute; reflexivity. Qed.

Example C44_case_append :
  let u := str_source (lit "{n a}") in let v := str_source (lit "{n b}c") in
  separate default_classifier u v /\
  (exists ds st1', im_iterates im_map (im_start "{n a}" 5%N) (map inl ds) st1' /\ ps_alloc st1' = 6%N) /\
  starts_on (titer_rep posstr_any posstr_any_state (im_ops (W:=N))) (fun w : N => w) (im_start "{n b}c" 6%N) v 6%N /\
  lawful False (fun w : N => w) im_stream (text_concat_ops (im_ops (W:=N))) box_alloc
    (im_lookup num_eq num_hash sum_hasher im_map) (abs_lookup num_eq abs_map)
    (titer_rep posstr_any posstr_any_state (im_ops (W:=N))) (text_items (im_ops (W:=N)) posstr_any) eq eq.
Proof.
  split; [|split; [|split; [apply im_start_on|exact im_map_lawful]]].
  - split; [reflexivity|]. do 3 right. do 2 eexists. split; [vm_compute; reflexivity|reflexivity].
  - eexists [_], _. split; [exists 10, 50; vm_compute; reflexivity|reflexivity].
Qed.
