(** Two parsers over sources with the same characters at related positions, with
    bindings that treat related texts alike, give related results. *)
From Coq Require Import List Arith NArith Bool Lia.
From Verif.Model Require Import Prelude Parser Iter Utf8 Chunk TextIter PosStr PosStrish
  TextVec CharIter StrishIter Alloc DefaultClassifier DatumMethods TextMethods Bindings Premade.
From Verif.Spec Require Import Contract ChunkContract Run.
From Verif.Proofs Require Import Sim Refine Compose ChunkFacts TextFacts  MethodFacts BindingFacts DatumFacts Transfer AbsIter AllocFacts Instances RunFacts PremadeFacts Concrete.
Import ListNotations.
Set Implicit Arguments.
Local Notation N_len r := (N.of_nat (length r)).

Section TakeWhile.
Context {S1 A1 T1 E1 P1 C1 S2 A2 T2 E2 P2 C2 : Type}.
Context (umax : N) (cc : classifier).
Context (so1 : stream_ops S1 A1 T1 P1) (co1 : concat_ops A1 T1)
        (ao1 : alloc_ops A1 T1 E1) (bnd1 : bindings A1 T1 E1 P1 C1).
Context (so2 : stream_ops S2 A2 T2 P2) (co2 : concat_ops A2 T2)
        (ao2 : alloc_ops A2 T2 E2) (bnd2 : bindings A2 T2 E2 P2 C2).
Context (Rs : S1 -> S2 -> Prop) (Ra : A1 -> A2 -> Prop) (Rt : T1 -> T2 -> Prop)
        (Rx : E1 -> E2 -> Prop) (Rp : P1 -> P2 -> Prop) (Rc : C1 -> C2 -> Prop).
Context (SS : stream_sim so1 so2 False Rs Ra Rt Rp) (CS : concat_sim co1 co2 False Ra Rt)
        (AS : alloc_sim ao1 ao2 False Ra Rt Rx) (BS : bindings_sim bnd1 bnd2 False Ra Rt Rx Rp Rc).

Lemma sim_take_while n fuel : forall ae st1 st2, st_rel Rs Ra st1 st2 ->
  coll_rel Rs Ra Rt Rx Rp Rc (take_while_collect umax cc so1 co1 ao1 bnd1 n fuel ae st1)
    (take_while_collect umax cc so2 co2 ao2 bnd2 n fuel ae st2).
Proof.
  induction n as [|n IH]; intros ae st1 st2 H; cbn [take_while_collect]; [exact I|].
  pose proof (sim_iter_next umax cc SS CS AS BS fuel H) as G. unfold next_rel in G.
  destruct (iter_next umax cc so1 co1 ao1 bnd1 fuel st1) as [[[x1|]|[]| |] s1],
           (iter_next umax cc so2 co2 ao2 bnd2 fuel st2) as [[[x2|]|[]| |] s2]; cbn in *; try tauto.
  - destruct G as [[Hx Hs]|[HL _]]; [|tauto].
    assert (E : is_err x1 = is_err x2) by (destruct x1, x2; cbn in *; tauto).
    unfold keep_until_err. rewrite E. destruct ae.
    + cbn. split; [constructor|exact Hs].
    + specialize (IH (if is_err x2 then true else false) _ _ Hs). unfold coll_rel in *.
      destruct (take_while_collect umax cc so1 co1 ao1 bnd1 n fuel (if is_err x2 then true else false) s1) as [[l1|[]| |] t1],
        (take_while_collect umax cc so2 co2 ao2 bnd2 n fuel (if is_err x2 then true else false) s2) as [[l2|[]| |] t2];
      cbn in *; try tauto. destruct IH as [Hl Ht]. split; [constructor; auto|exact Ht].
  - destruct G as [[_ Hs]|[HL _]]; [|tauto]. split; [constructor|exact Hs].
Qed.
End TakeWhile.

(** Hash-map bindings on both sides. *)
Section Both.
Context {T1 C1 CS1 P1 T2 C2 CS2 P2 W ET CE : Type}.
Context (k1 : chunk_ops C1 CS1 P1) (Rc1 : C1 -> list (item P1) -> Prop) (Rcs1 : CS1 -> list (item P1) -> list (item P1) -> Prop)
        (KC1 : chunk_contract k1 Rc1 Rcs1) (size1 : C1 -> nat) (Hsize1 : forall c l, Rc1 c l -> length l <= size1 c)
        (x1 : text_ops T1 C1 W) (XC1 : text_contract False (fun w : W => w) x1 Rc1).
Context (k2 : chunk_ops C2 CS2 P2) (Rc2 : C2 -> list (item P2) -> Prop) (Rcs2 : CS2 -> list (item P2) -> list (item P2) -> Prop)
        (KC2 : chunk_contract k2 Rc2 Rcs2) (size2 : C2 -> nat) (Hsize2 : forall c l, Rc2 c l -> length l <= size2 c)
        (x2 : text_ops T2 C2 W) (XC2 : text_contract False (fun w : W => w) x2 Rc2).
Context (ET_eq : ET -> ET -> bool) (ET_hash : ET -> list hash_word)
        (XH : forall a b, ET_eq a b = true -> ET_hash a = ET_hash b).
Context (Rp : P1 -> P2 -> Prop).
Local Notation Rt1 := (text_items x1 Rc1).
Local Notation Rt2 := (text_items x2 Rc2).
Local Notation R := (Rt12 Rt1 Rt2 Rp).
Local Notation lookup1 hasher := (hm_lookup (datum_eq (text_eqb k1 x1 size1) ET_eq) (datum_hash (text_words k1 x1 size1) ET_hash) hasher).
Local Notation lookup2 hasher := (hm_lookup (datum_eq (text_eqb k2 x2 size2) ET_eq) (datum_hash (text_words k2 x2 size2) ET_hash) hasher).

Lemma item_rel_chars l1 l2 : Forall2 (item_rel Rp) l1 l2 -> chars l1 = chars l2.
Proof. intros H. induction H as [|i j l1 l2 [E _] _ IH]; [reflexivity|]. cbn. f_equal; auto. Qed.

Lemma datum_rel_wf2 d1 d2 : datum_rel R (@eq ET) d1 d2 ->
  datum_all (fun t => exists l, Rt2 t l) (fun _ : ET => True) d2.
Proof.
  revert d2. induction d1; intros [] H; cbn in *; try tauto; eauto.
  - destruct H as (l1 & l2 & _ & H2 & _). eauto.
  - destruct H as [A B]. split; eauto.
  - destruct H as [A B]. split; eauto.
Qed.

Lemma hm_both_sim h1 h2 (m1 : list (datum T1 ET * combiner W T1 ET P1 CE)) m2 :
  pairs_rel (datum_rel R eq) (combiner_rel False eq R eq Rp eq) m1 m2 ->
  bindings_sim (lookup1 h1 m1) (lookup2 h2 m2) False eq R eq Rp eq.
Proof.
  intros H d1 d2 Hd.
  assert (E : lookup2 h2 m2 d2 = pair_lookup (datum_eq (text_eqb k2 x2 size2) ET_eq) m2 d2).
  { apply (hm_lookup_pairs _ _ h2 (datum_all (fun t => exists l, Rt2 t l) (fun _ : ET => True))).
    - intros a b Wa Wb. apply (key_hash_consistent KC2 XC2 _ Hsize2 _ _ XH _ _ Wa Wb).
    - clear -H. induction H as [|kv1 kv2 m1 m2 [Hk _] _ IH]; constructor; auto. eapply datum_rel_wf2; eauto.
    - eapply datum_rel_wf2; eauto. }
  rewrite E. revert d1 d2 Hd E. intros d1 d2 Hd _.
  eapply hm_bindings_sim with (Rt2:=Rt2) (R:=R); eauto.
  - exact (teqb_spec KC2 XC2 _ Hsize2).
  - intros t1 t2 (l1 & l2 & A & B & C). exists l1, l2. eauto using item_rel_chars.
  - intros a b c d -> ->. reflexivity.
Qed.
End Both.

(** Texts with the same characters at related positions. *)
Definition same_text {T1 C1 CS1 A1 P1 T2 C2 CS2 A2 P2} (k1 : chunk_ops C1 CS1 P1) (x1 : text_ops T1 C1 A1)
    (k2 : chunk_ops C2 CS2 P2) (x2 : text_ops T2 C2 A2) (Rp : P1 -> P2 -> Prop) (t1 : T1) (t2 : T2) : Prop :=
  exists l1 l2, reads k1 x1 t1 l1 /\ reads k2 x2 t2 l2 /\ Forall2 (item_rel Rp) l1 l2.

Section Upto.
Context {S1 T1 P1 S2 T2 P2 W ET CE : Type} (cc : classifier).
Context (so1 : stream_ops S1 W T1 P1) (co1 : concat_ops W T1) (bnd1 : bindings W T1 ET P1 CE).
Context (so2 : stream_ops S2 W T2 P2) (co2 : concat_ops W T2) (bnd2 : bindings W T2 ET P2 CE).
Context (Rs1 : S1 -> list (item P1) -> list (item P1) -> Prop) (Rt1 : T1 -> list (item P1) -> Prop).
Context (Rs2 : S2 -> list (item P2) -> list (item P2) -> Prop) (Rt2 : T2 -> list (item P2) -> Prop).
Context (Rp : P1 -> P2 -> Prop).
Local Notation id := (fun w : W => w).
Local Notation R := (Rt12 Rt1 Rt2 Rp).

Lemma two_upto s1 s2 l1 l2 w n :
  stream_contract False id so1 Rs1 Rt1 -> stream_contract False id so2 Rs2 Rt2 ->
  concat_contract False id co1 Rt1 -> concat_contract False id co2 Rt2 ->
  bindings_sim bnd1 bnd2 False eq R eq Rp eq ->
  Rs1 s1 l1 [] -> Rs2 s2 l2 [] -> Forall2 (item_rel Rp) l1 l2 -> (N_len l1 <= usize_max)%N -> n = length l1 ->
  exists items1 st1 items2 st2,
    collect_up_to_first_err usize_max cc so1 co1 box_alloc bnd1 (parse_calls n) (parse_fuel n) (parse_iter_new s1 w) = (Ok items1, st1) /\
    collect_up_to_first_err usize_max cc so2 co2 box_alloc bnd2 (parse_calls n) (parse_fuel n) (parse_iter_new s2 w) = (Ok items2, st2) /\
    Forall2 (pitem_rel R eq Rp eq) items1 items2 /\ ps_alloc st1 = ps_alloc st2.
Proof.
  intros SC1 SC2 TC1 TC2 BS H1 H2 Hl Hu Hn.
  destruct (upto_safe cc bnd1 SC1 TC1 (@box_alloc_contract W T1 ET) (st:=parse_iter_new s1 w) (s:=l1) (n:=n))
    as (all & st1 & st1' & _ & E1 & _); auto.
  { split; [reflexivity|]. exists []. auto. }
  assert (G : coll_rel (Rs12 Rs1 Rs2 Rp) (Ra12 id id eq) R eq Rp eq
     (collect_up_to_first_err usize_max cc so1 co1 box_alloc bnd1 (parse_calls n) (parse_fuel n) (parse_iter_new s1 w))
     (collect_up_to_first_err usize_max cc so2 co2 box_alloc bnd2 (parse_calls n) (parse_fuel n) (parse_iter_new s2 w))).
  { unfold collect_up_to_first_err. apply sim_take_while.
    - apply compose_stream; auto.
    - apply compose_concat; auto.
    - apply compose_alloc; auto; apply box_alloc_contract.
    - exact BS.
    - repeat split; cbn; auto. exists l1, [], l2, []. auto. }
  unfold coll_rel in G. rewrite E1 in G. cbn [fst snd] in G.
  destruct (collect_up_to_first_err usize_max cc so2 co2 box_alloc bnd2 (parse_calls n) (parse_fuel n) (parse_iter_new s2 w))
    as [[items2| | |] st2] eqn:E2; cbn [fst snd] in G; try contradiction.
  unfold st_rel in G. destruct G as (G & _ & _ & Ga). exists (upto_err all), st1, items2, st2. auto.
Qed.
End Upto.

(** The premade parsers, pairwise. *)
Section Premade.
Context {W ET CE : Type} (ET_eq : ET -> ET -> bool) (ET_hash : ET -> list hash_word)
        (XH : forall a b, ET_eq a b = true -> ET_hash a = ET_hash b).
Local Notation imx := (im_ops (W:=W)).
Local Notation stx := (st_ops (W:=W)).
Local Notation id := (fun w : W => w).
Local Notation any := (fun (_ : str) (_ : N) => True).

(** Character positions of in-memory parsing and of streams. *)
Definition same_pos (p : strpos) (c : charpos) : Prop := sp_char p = c.

(** Well-formed texts with the same characters at the same positions. *)
Definition st_same : st_text -> st_text -> Prop := Rt12 (text_items stx posstrish_any) (text_items stx posstrish_any) eq.
Definition im_st_same : im_text -> st_text -> Prop := Rt12 (text_items imx posstr_any) (text_items stx posstrish_any) same_pos.
(** Bindings that treat such texts alike. *)
Definition st_alike (m1 m2 : st_bindings (W:=W) (ET:=ET) (CE:=CE)) : Prop :=
  pairs_rel (datum_rel st_same eq) (combiner_rel False eq st_same eq eq eq) m1 m2.
Definition im_st_alike (m1 : im_bindings (W:=W) (ET:=ET) (CE:=CE)) (m2 : st_bindings (W:=W) (ET:=ET) (CE:=CE)) : Prop :=
  pairs_rel (datum_rel im_st_same eq) (combiner_rel False eq im_st_same eq same_pos eq) m1 m2.

Lemma stxc : text_contract False id stx posstrish_any.
Proof. apply (tvec_contract (posstrish_contract any)). Qed.
Lemma imxc : text_contract False id imx posstr_any.
Proof. apply (tvec_contract posstr_any_contract). Qed.

Lemma item_rel_refl {P} (l : list (item P)) : Forall2 (item_rel eq) l l.
Proof. induction l; constructor; auto. split; auto. Qed.

Lemma st_sims h1 h2 m1 m2 : st_alike m1 m2 ->
  bindings_sim (st_lookup ET_eq ET_hash h1 m1) (st_lookup ET_eq ET_hash h2 m2) False eq st_same eq eq eq.
Proof.
  intros H. apply (hm_both_sim (posstrish_contract any) posstrish_size (@posstrish_size_ok any) stxc
    (posstrish_contract any) posstrish_size (@posstrish_size_ok any) stxc ET_eq ET_hash XH). exact H.
Qed.
Lemma im_st_sims h1 h2 m1 m2 : im_st_alike m1 m2 ->
  bindings_sim (im_lookup ET_eq ET_hash h1 m1) (st_lookup ET_eq ET_hash h2 m2) False eq im_st_same eq same_pos eq.
Proof.
  intros H. apply (hm_both_sim posstr_any_contract posstr_size posstr_size_ok imxc
    (posstrish_contract any) posstrish_size (@posstrish_size_ok any) stxc ET_eq ET_hash XH). exact H.
Qed.

Lemma any_strs strs : forall (l1 : list str) (s : str) (l2 : list str), strs = l1 ++ s :: l2 -> any s (N_len (List.concat l1)).
Proof. intros; exact I. Qed.
Lemma any_chars input : forall pre v post : str, input = pre ++ v ++ post -> any v (N_len pre).
Proof. intros; exact I. Qed.

Theorem streams_agree h1 h2 strs1 strs2 m1 m2 w : st_alike m1 m2 ->
  List.concat strs1 = List.concat strs2 -> (N_len (List.concat strs1) <= usize_max)%N ->
  exists items1 st1 items2 st2,
    parse_stream_with ET_eq ET_hash h1 strs1 m1 w = (Ok items1, Some st1) /\
    parse_stream_with ET_eq ET_hash h2 strs2 m2 w = (Ok items2, Some st2) /\
    Forall2 (pitem_rel st_same eq eq eq) items1 items2 /\ ps_alloc st1 = ps_alloc st2.
Proof.
  intros Hm Ec Hu. unfold parse_stream_with. cbv zeta.
  destruct (strishiter_new_rep any stx (@any_strs strs1)) as (s1 & -> & H1).
  destruct (strishiter_new_rep any stx (@any_strs strs2)) as (s2 & -> & H2).
  destruct (two_upto default_classifier _ _ w (n:=length (List.concat strs1))
    (strishiter_contract stxc (@any_strs strs1)) (strishiter_contract stxc (@any_strs strs2)) (xc_concat stxc) (xc_concat stxc)
    (st_sims h1 h2 Hm) H1 H2) as (i1 & t1 & i2 & t2 & E1 & E2 & Hi & Ha).
  - rewrite Ec. apply item_rel_refl.
  - rewrite enumerate_length. exact Hu.
  - rewrite enumerate_length. reflexivity.
  - exists i1, t1, i2, t2. rewrite <- Ec. unfold st_stream. rewrite E1, E2. auto.
Qed.

Theorem chars_agree h1 h2 strs input m1 m2 w : st_alike m1 m2 ->
  List.concat strs = input -> (N_len input <= usize_max)%N ->
  exists items1 st1 items2 st2,
    parse_stream_with ET_eq ET_hash h1 strs m1 w = (Ok items1, Some st1) /\
    parse_chars_with ET_eq ET_hash h2 input m2 w = (Ok items2, st2) /\
    Forall2 (pitem_rel st_same eq eq eq) items1 items2 /\ ps_alloc st1 = ps_alloc st2.
Proof.
  intros Hm Ec Hu. unfold parse_stream_with, parse_chars_with. cbv zeta.
  destruct (strishiter_new_rep any stx (@any_strs strs)) as (s1 & -> & H1).
  destruct (two_upto default_classifier _ _ w (n:=length input)
    (strishiter_contract stxc (@any_strs strs)) (chariter_contract stxc (@any_chars input)) (xc_concat stxc) (xc_concat stxc)
    (st_sims h1 h2 Hm) H1 (chariter_new_rep input)) as (i1 & t1 & i2 & t2 & E1 & E2 & Hi & Ha).
  - rewrite Ec. apply item_rel_refl.
  - rewrite enumerate_length, Ec. exact Hu.
  - rewrite enumerate_length, Ec. reflexivity.
  - exists i1, t1, i2, t2. rewrite Ec. unfold st_stream, cs_stream. rewrite E1, E2. auto.
Qed.

Lemma str_char_items input : Forall2 (item_rel same_pos) (str_items input [] input) (enumerate 0 input).
Proof.
  rewrite <- str_source_eq, <- char_source_eq. unfold str_source, char_source.
  induction (seq 0 (length input)) as [|i l IH]; cbn [map]; constructor; auto. split; reflexivity.
Qed.

Theorem str_agrees h1 h2 input strs m1 m2 w : im_st_alike m1 m2 ->
  List.concat strs = input -> (N_len input <= usize_max)%N ->
  exists items1 st1 items2 st2,
    parse_str_with ET_eq ET_hash h1 input m1 w = (Ok items1, Some st1) /\
    parse_stream_with ET_eq ET_hash h2 strs m2 w = (Ok items2, Some st2) /\
    Forall2 (pitem_rel im_st_same eq same_pos eq) items1 items2 /\ ps_alloc st1 = ps_alloc st2.
Proof.
  intros Hm Ec Hu. unfold parse_str_with, parse_stream_with. cbv zeta.
  destruct (im_starts posstr_any_contract input w (posstr_from_any input)) as (s1 & -> & _ & H1 & _). cbn in H1.
  destruct (strishiter_new_rep any stx (@any_strs strs)) as (s2 & -> & H2).
  destruct (two_upto default_classifier _ _ w (n:=length input)
    (titer_contract posstr_any_contract imxc) (strishiter_contract stxc (@any_strs strs)) (xc_concat imxc) (xc_concat stxc)
    (im_st_sims h1 h2 Hm) H1 H2) as (i1 & t1 & i2 & t2 & E1 & E2 & Hi & Ha).
  - rewrite Ec, str_source_eq. apply str_char_items.
  - rewrite str_source_length. exact Hu.
  - rewrite str_source_length. reflexivity.
  - exists i1, t1, i2, t2. rewrite Ec. unfold st_stream, im_stream. rewrite E1, E2. auto.
Qed.

Lemma im_st_same_reads t1 t2 : im_st_same t1 t2 -> same_text posstr_ops imx posstrish_ops stx same_pos t1 t2.
Proof.
  intros (l1 & l2 & H1 & H2 & H). exists l1, l2.
  eauto using (text_reads posstr_any_contract imxc), (text_reads posstrish_any_contract stxc).
Qed.
Lemma st_same_reads t1 t2 : st_same t1 t2 -> same_text posstrish_ops stx posstrish_ops stx eq t1 t2.
Proof.
  intros (l1 & l2 & H1 & H2 & H). exists l1, l2.
  eauto using (text_reads posstrish_any_contract stxc).
Qed.
Lemma im_st_datums d1 d2 : datum_rel im_st_same eq d1 d2 ->
  datum_rel (same_text posstr_ops imx posstrish_ops stx same_pos) (@eq ET) d1 d2.
Proof. apply datum_rel_mono; auto using im_st_same_reads. Qed.
Lemma st_datums d1 d2 : datum_rel st_same eq d1 d2 ->
  datum_rel (same_text posstrish_ops stx posstrish_ops stx eq) (@eq ET) d1 d2.
Proof. apply datum_rel_mono; auto using st_same_reads. Qed.
End Premade.
