(** What the ready-made parsers return, in terms of the abstract instance. *)
From Coq Require Import List Arith NArith Bool Lia.
From Verif.Model Require Import Prelude Parser Iter Utf8 Chunk TextIter PosStr PosStrish
  TextVec TextDatumList CharIter StrishIter Alloc DefaultClassifier TextMethods DatumMethods Bindings Premade.
From Verif.Spec Require Import Contract ChunkContract Grammar AbsStream Lawful.
From Verif.Proofs Require Import Sim Refine Compose Transfer ChunkFacts TextFacts MethodFacts DatumFacts
  BindingFacts AllocFacts AbsParse AbsIter Instances.
Import ListNotations.
Set Implicit Arguments.
Local Notation N_len r := (N.of_nat (length r)).
(** Rewriting up to unfolding of type synonyms. *)
Local Ltac run E := match type of E with ?l = _ =>
  match goal with |- context [let (_, _) := ?t in _] => change t with l end; rewrite E end.

(** All items of parsing [s] with the abstract instance. *)
Definition spec_items {W AE Pos AC} (cc : classifier) (abnd : bindings W (list (item Pos)) AE Pos AC)
    (w : W) (s : list (item Pos)) : list (datum (list (item Pos)) AE + error Pos AC) :=
  match iter_collect usize_max cc (@abs_stream W Pos) abs_concat abs_alloc abnd
          (parse_calls (length s)) (parse_fuel (length s)) (ast s [] 0 w) with
  | (Ok items, _) => items
  | _ => []
  end.

Section Spec.
Context {W AE Pos AC : Type} (cc : classifier) (abnd : bindings W (list (item Pos)) AE Pos AC).
Local Notation acollect := (iter_collect usize_max cc (@abs_stream W Pos) abs_concat abs_alloc abnd).

Lemma spec_items_eq w s : (N_len s <= usize_max)%N ->
  exists st', acollect (parse_calls (length s)) (parse_fuel (length s)) (ast s [] 0 w) = (Ok (spec_items cc abnd w s), st').
Proof.
  intros Hu. unfold spec_items.
  destruct (i_collect_total cc abnd s w Hu (n:=parse_calls (length s)) (f:=parse_fuel (length s))) as (items & st' & E).
  - unfold parse_calls. lia.
  - unfold parse_fuel. lia.
  - rewrite E. eauto.
Qed.
End Spec.

(** Running a lawful configuration with the standard bounds. *)
Section Run.
Context {S A TT ET Pos CE W AE AC : Type}.
Context (cc : classifier) (so : stream_ops S A TT Pos) (co : concat_ops A TT)
        (ao : alloc_ops A TT ET) (bnd : bindings A TT ET Pos CE).
Local Notation text := (list (item Pos)).
Context (view : A -> W) (abnd : bindings W text AE Pos AC).
Context (Rs : S -> text -> text -> Prop) (Rt : TT -> text -> Prop)
        (Rx : ET -> AE -> Prop) (Rc : CE -> AC -> Prop).
Local Notation Ri := (pitem_rel Rt Rx (@eq Pos) Rc).

Lemma pitem_rel_inl_inr (d : datum TT ET) (e : error Pos AC) : ~ Ri (inl d) (inr e).
Proof. intros []. Qed.
Lemma pitem_rel_inr_inl (d : datum text AE) (e : error Pos CE) : ~ Ri (inr e) (inl d).
Proof. intros []. Qed.

Lemma lw_collect (LW : lawful False view so co ao bnd abnd Rs Rt Rx Rc) st s w n :
  starts_on Rs view st s w -> (N_len s <= usize_max)%N -> n = length s ->
  exists items st', iter_collect usize_max cc so co ao bnd (parse_calls n) (parse_fuel n) st = (Ok items, st') /\
    Forall2 Ri items (spec_items cc abnd w s).
Proof.
  intros H Hu ->. destruct (lw_run cc LW H Hu (n:=parse_calls (length s)) (fuel:=parse_fuel (length s)))
    as (items & st' & aitems & ast' & E & Ea & Hi & _); try (unfold parse_calls, parse_fuel; lia).
  exists items, st'. split; [exact E|]. destruct (spec_items_eq cc abnd w s Hu) as (x & Ex).
  rewrite Ex in Ea. injection Ea as -> _. exact Hi.
Qed.

Lemma lw_upto (LW : lawful False view so co ao bnd abnd Rs Rt Rx Rc) st s w n :
  starts_on Rs view st s w -> (N_len s <= usize_max)%N -> n = length s ->
  exists items st', collect_up_to_first_err usize_max cc so co ao bnd (parse_calls n) (parse_fuel n) st = (Ok items, st') /\
    Forall2 Ri items (upto_err (spec_items cc abnd w s)).
Proof.
  intros H Hu Hn. destruct (lw_collect LW H Hu Hn) as (items & st' & E & Hi).
  destruct (take_while_upto _ _ _ _ _ _ _ _ _ E) as (st'' & E'). exists (upto_err items), st''.
  split; [exact E'|]. apply upto_err_rel; auto using pitem_rel_inl_inr, pitem_rel_inr_inl.
Qed.

(** With failing allocation. *)
Lemma prefix_upto (F : Prop) l1 l2 : prefix_rel F Rt Rx (@eq Pos) Rc l1 l2 ->
  Forall2 Ri (upto_err l1) (upto_err l2) \/
  (F /\ exists p1 e p2 q2, upto_err l1 = map inl p1 ++ [inr e] /\ is_alloc_fail e /\
        upto_err l2 = map inl p2 ++ q2 /\ Forall2 (datum_rel Rt Rx) p1 p2).
Proof.
  intros [H|(HF & p1 & e & q1 & p2 & q2 & -> & He & -> & Hp)].
  - left. apply upto_err_rel; auto using pitem_rel_inl_inr, pitem_rel_inr_inl.
  - induction Hp as [|[d1|e1] [d2|e2] p1 p2 Hx Hp IH]; cbn in *; try contradiction.
    + right. split; auto. exists [], e, [], (upto_err q2). auto.
    + destruct IH as [IH|(_ & p1' & e' & p2' & q2' & E1 & He' & E2 & Hp')].
      * left. constructor; auto.
      * right. split; auto. exists (d1 :: p1'), e', (d2 :: p2'), q2'. cbn. rewrite E1, E2. auto.
    + left. constructor; auto.
Qed.

Lemma lw_upto_fail (F : Prop) (LW : lawful F view so co ao bnd abnd Rs Rt Rx Rc) st s w n :
  starts_on Rs view st s w -> (N_len s <= usize_max)%N -> n = length s ->
  exists items st', collect_up_to_first_err usize_max cc so co ao bnd (parse_calls n) (parse_fuel n) st = (Ok items, st') /\
    (Forall2 Ri items (upto_err (spec_items cc abnd w s)) \/
     (F /\ exists p1 e p2 q2, items = map inl p1 ++ [inr e] /\ is_alloc_fail e /\
        upto_err (spec_items cc abnd w s) = map inl p2 ++ q2 /\ Forall2 (datum_rel Rt Rx) p1 p2)).
Proof.
  intros H Hu ->.
  destruct (lw_total cc LW H Hu (n:=parse_calls (length s)) (fuel:=parse_fuel (length s))) as (items & st' & E & _);
    try (unfold parse_calls, parse_fuel; lia).
  destruct (take_while_upto _ _ _ _ _ _ _ _ _ E) as (st'' & E'). exists (upto_err items), st''.
  split; [exact E'|]. destruct (spec_items_eq cc abnd w s Hu) as (x & Ex).
  apply prefix_upto. eapply lw_prefix; eauto.
Qed.
End Run.

Section InMem.
Context {W ET CE AE AC : Type} (ET_eq : ET -> ET -> bool) (ET_hash : ET -> list hash_word)
        (hasher : list hash_word -> N) (AE_eq : AE -> AE -> bool).
Context (Rx : ET -> AE -> Prop) (Rc : CE -> AC -> Prop).
Context (XH : forall a b, ET_eq a b = true -> ET_hash a = ET_hash b)
        (HX : forall x1 x2 y1 y2, Rx x1 x2 -> Rx y1 y2 -> ET_eq x1 y1 = AE_eq x2 y2).
Context (Rk : posstr -> list (item strpos) -> Prop) (Rks : posstr_iter -> list (item strpos) -> list (item strpos) -> Prop)
        (KC : chunk_contract posstr_ops Rk Rks) (Hsize : forall c l, Rk c l -> length l <= posstr_size c).
Local Notation text := (list (item strpos)).
Local Notation Rt := (text_items (im_ops (W:=W)) Rk).

(** Bindings and what they stand for. *)
Definition im_related (m : im_bindings (W:=W) (ET:=ET) (CE:=CE))
    (am : list (datum text AE * combiner W text AE strpos AC)) : Prop :=
  pairs_rel (datum_rel Rt Rx) (combiner_rel False (Ra_view (fun w => w)) Rt Rx eq Rc) m am.

Lemma im_lawful m am : im_related m am ->
  lawful False (fun w => w) im_stream (text_concat_ops im_ops) box_alloc (im_lookup ET_eq ET_hash hasher m)
    (abs_lookup AE_eq am) (titer_rep Rk Rks (im_ops (W:=W))) Rt Rx Rc.
Proof.
  intros H. pose proof (tvec_contract KC False (fun w : W => w)) as XC. split.
  - apply (titer_contract KC XC).
  - apply XC.
  - apply box_alloc_contract.
  - reflexivity.
  - unfold im_lookup, im_datum_eq, im_datum_hash, abs_lookup.
    eapply hm_bindings_sim with (Rt2:=eq); eauto.
    all: try exact chars_eqb_spec; try (intros t1 t2 Ht; exists t2, t2; auto).
Qed.

Lemma parse_str_with_run m am input w : im_related m am -> (N_len input <= usize_max)%N ->
  Rk (posstr_from input) (str_items input [] input) ->
  exists items st, parse_str_with ET_eq ET_hash hasher input m w = (Ok items, Some st) /\
    Forall2 (pitem_rel Rt Rx eq Rc) items
      (upto_err (spec_items default_classifier (abs_lookup AE_eq am) w (str_items input [] input))).
Proof.
  intros H Hu Hi. pose proof (tvec_contract KC False (fun w : W => w)) as XC. unfold parse_str_with.
  destruct (titer_new_rep KC (xc_from XC _ _ Hi)) as (s & Es & Hs). 
  assert (Es' : titer_new posstr_ops (im_ops (W:=W)) (tx_from im_ops (posstr_from input)) = Ok s) by exact Es.
  rewrite Es'.
  assert (Hlen : length input = length (str_items input [] input))
    by (unfold str_items; rewrite indexed_length; reflexivity).
  destruct (lw_upto default_classifier (im_lawful H) (st:=parse_iter_new s w) (s:=str_items input [] input) (w:=w)
    (n:=length input)) as (items & st' & E & Hit).
  - repeat split; auto.
  - rewrite <- Hlen. exact Hu.
  - exact Hlen.
  - run E. eauto.
Qed.
End InMem.

Section Streams.
Context {W ET CE AE AC : Type} (ET_eq : ET -> ET -> bool) (ET_hash : ET -> list hash_word)
        (hasher : list hash_word -> N) (AE_eq : AE -> AE -> bool).
Context (Rx : ET -> AE -> Prop) (Rc : CE -> AC -> Prop).
Context (XH : forall a b, ET_eq a b = true -> ET_hash a = ET_hash b)
        (HX : forall x1 x2 y1 y2, Rx x1 x2 -> Rx y1 y2 -> ET_eq x1 y1 = AE_eq x2 y2).
(** Which whole strings chunks come from, and the position of their begin. *)
Context (ok : str -> N -> Prop).
Local Notation text := (list (item charpos)).
Local Notation Rt := (text_items (st_ops (W:=W)) (posstrish_rep ok)).

Definition st_related (m : st_bindings (W:=W) (ET:=ET) (CE:=CE))
    (am : list (datum text AE * combiner W text AE charpos AC)) : Prop :=
  pairs_rel (datum_rel Rt Rx) (combiner_rel False (Ra_view (fun w => w)) Rt Rx eq Rc) m am.

Lemma st_bindings_sim m am : st_related m am ->
  bindings_sim (st_lookup ET_eq ET_hash hasher m) (abs_lookup AE_eq am) False (Ra_view (fun w => w)) Rt Rx eq Rc.
Proof.
  intros H. unfold st_lookup, st_datum_eq, st_datum_hash, abs_lookup.
  pose proof (tvec_contract (posstrish_contract ok) False (fun w : W => w)) as XC.
  eapply hm_bindings_sim with (Rt2:=eq); eauto.
  all: try apply posstrish_contract; try apply posstrish_size_ok; try exact chars_eqb_spec; try (intros t1 t2 Ht; exists t2, t2; auto).
Qed.

Section Chunks.
Context (strs : list str)
        (Hok : forall l1 s l2, strs = l1 ++ s :: l2 -> ok s (N_len (List.concat l1))).

Lemma st_lawful m am : st_related m am ->
  lawful False (fun w => w) st_stream (text_concat_ops st_ops) box_alloc (st_lookup ET_eq ET_hash hasher m)
    (abs_lookup AE_eq am) (strishiter_rep ok (st_ops (W:=W)) strs) Rt Rx Rc.
Proof.
  intros H. pose proof (tvec_contract (posstrish_contract ok) False (fun w : W => w)) as XC. split.
  - apply (strishiter_contract XC Hok).
  - apply XC.
  - apply box_alloc_contract.
  - reflexivity.
  - apply st_bindings_sim. exact H.
Qed.

Lemma parse_stream_with_run m am w : st_related m am -> (N_len (List.concat strs) <= usize_max)%N ->
  exists items st, parse_stream_with ET_eq ET_hash hasher strs m w = (Ok items, Some st) /\
    Forall2 (pitem_rel Rt Rx eq Rc) items
      (upto_err (spec_items default_classifier (abs_lookup AE_eq am) w (enumerate 0 (List.concat strs)))).
Proof.
  intros H Hu. unfold parse_stream_with.
  destruct (strishiter_new_rep ok (st_ops (W:=W)) Hok) as (s & Es & Hs). rewrite Es.
  destruct (lw_upto default_classifier (st_lawful H) (st:=parse_iter_new s w) (s:=enumerate 0 (List.concat strs)) (w:=w)
    (n:=length (List.concat strs))) as (items & st' & E & Hit).
  - repeat split; auto.
  - rewrite enumerate_length. exact Hu.
  - rewrite enumerate_length. reflexivity.
  - run E. eauto.
Qed.
End Chunks.

Section Chars.
Context (input : str)
        (Hok : forall pre v post, input = pre ++ v ++ post -> ok v (N_len pre)).

Lemma cs_lawful m am : st_related m am ->
  lawful False (fun w => w) cs_stream (text_concat_ops st_ops) box_alloc (st_lookup ET_eq ET_hash hasher m)
    (abs_lookup AE_eq am) (chariter_rep input) Rt Rx Rc.
Proof.
  intros H. pose proof (tvec_contract (posstrish_contract ok) False (fun w : W => w)) as XC. split.
  - apply (chariter_contract XC Hok).
  - apply XC.
  - apply box_alloc_contract.
  - reflexivity.
  - apply st_bindings_sim. exact H.
Qed.

Lemma parse_chars_with_run m am w : st_related m am -> (N_len input <= usize_max)%N ->
  exists items st, parse_chars_with ET_eq ET_hash hasher input m w = (Ok items, st) /\
    Forall2 (pitem_rel Rt Rx eq Rc) items
      (upto_err (spec_items default_classifier (abs_lookup AE_eq am) w (enumerate 0 input))).
Proof.
  intros H Hu. unfold parse_chars_with.
  destruct (lw_upto default_classifier (cs_lawful H) (st:=parse_iter_new (chariter_new input) w)
    (s:=enumerate 0 input) (w:=w) (n:=length input)) as (items & st' & E & Hit).
  - repeat split; auto. apply chariter_new_rep.
  - rewrite enumerate_length. exact Hu.
  - rewrite enumerate_length. reflexivity.
  - rewrite E. eauto.
Qed.
End Chars.
End Streams.

Section NoHeap.
Context {W ET CE AE AC : Type} (ET_eq : ET -> ET -> bool) (AE_eq : AE -> AE -> bool).
Context (Rx : ET -> AE -> Prop) (Rc : CE -> AC -> Prop).
Context (HX : forall x1 x2 y1 y2, Rx x1 x2 -> Rx y1 y2 -> ET_eq x1 y1 = AE_eq x2 y2).
Context (Rk : posstr -> list (item strpos) -> Prop) (Rks : posstr_iter -> list (item strpos) -> list (item strpos) -> Prop)
        (KC : chunk_contract posstr_ops Rk Rks) (Hsize : forall c l, Rk c l -> length l = posstr_size c).
Local Notation text := (list (item strpos)).
Local Notation nh_ops := (nh_ops (W:=W) (ET:=ET)).
Local Notation Rt := (text_items nh_ops Rk).

Definition nh_related (m : nh_bindings (W:=W) (ET:=ET) (CE:=CE))
    (am : list (datum text AE * combiner W text AE strpos AC)) : Prop :=
  pairs_rel (datum_rel Rt Rx) (combiner_rel True (Ra_view snd) Rt Rx eq Rc) m am.

Lemma nh_lawful m am : nh_related m am ->
  lawful True snd (nh_stream (W:=W) (ET:=ET)) (text_concat_ops nh_ops) slice_alloc (nh_lookup ET_eq m)
    (abs_lookup AE_eq am) (titer_rep Rk Rks nh_ops) Rt Rx Rc.
Proof.
  intros H. pose proof (tdl_contract KC (@slice_alloc_contract W (nh_text (ET:=ET)) ET)) as XC. split.
  - apply (titer_contract KC XC).
  - apply XC.
  - apply slice_alloc_contract.
  - reflexivity.
  - unfold nh_lookup, nh_datum_eq, abs_lookup.
    eapply pair_bindings_sim with (Rt2:=eq); eauto.
    all: try (intros c l Hc; rewrite (Hsize Hc); lia); try exact chars_eqb_spec; try (intros t1 t2 Ht; exists t2, t2; auto).
Qed.

Lemma text_size t l : Rt t l -> seq_size posstr_size (tx_chunks nh_ops t) = length l.
Proof.
  intros (cs & ls & -> & H & ->). induction H as [|c l cs ls Hc _ IH]; [reflexivity|].
  cbn. rewrite IH, app_length, (Hsize Hc). reflexivity.
Qed.

Lemma parse_text_with_run m am input l slots w : nh_related m am -> (N_len l <= usize_max)%N ->
  Rt input l ->
  exists items st, parse_text_with ET_eq input m (nh_parser slots w) = (Ok items, Some st) /\
    (Forall2 (pitem_rel Rt Rx eq Rc) items
      (upto_err (spec_items default_classifier (abs_lookup AE_eq am) w l)) \/
     exists p1 e p2 q2, items = map inl p1 ++ [inr e] /\ is_alloc_fail e /\
        upto_err (spec_items default_classifier (abs_lookup AE_eq am) w l) = map inl p2 ++ q2 /\
        Forall2 (datum_rel Rt Rx) p1 p2).
Proof.
  intros H Hu Hi. pose proof (tdl_contract KC (@slice_alloc_contract W (nh_text (ET:=ET)) ET)) as XC.
  unfold parse_text_with.
  destruct (titer_new_rep KC Hi) as (s & Es & Hs). rewrite Es.
  destruct (lw_upto_fail default_classifier (nh_lawful H) (st:=parse_iter_new s (nh_parser slots w)) (s:=l) (w:=w)
    (n:=seq_size posstr_size (tx_chunks nh_ops input))) as (items & st' & E & Hit).
  - repeat split; auto.
  - exact Hu.
  - apply text_size. exact Hi.
  - unfold collect_up_to_first_err in E. run E. exists items, st'. split; [reflexivity|]. tauto.
Qed.
End NoHeap.
