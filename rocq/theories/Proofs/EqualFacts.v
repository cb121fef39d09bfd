(** Comparing what is parsed in different ways. *)
From Coq Require Import List Arith NArith Bool Lia.
From Verif.Model Require Import Prelude Parser Iter Utf8 Chunk TextIter PosStr PosStrish TextVec TextDatumList
  Alloc TextMethods DatumMethods Bindings Premade Equal.
From Verif.Spec Require Import Contract ChunkContract Run.
From Verif.Proofs Require Import Sim Refine ChunkFacts TextFacts AllocFacts MethodFacts DatumFacts RunFacts Instances
  PremadeFacts Concrete TwoRuns Compose.
Import ListNotations.
Set Implicit Arguments.
Local Notation N_len r := (N.of_nat (length r)).

Section Texts.
Context {T1 C1 S1 A1 P1 W1 T2 C2 S2 A2 P2 W2 : Type}.
Context (k1 : chunk_ops C1 S1 P1) (Rc1 : C1 -> list (item P1) -> Prop)
        (Rcs1 : S1 -> list (item P1) -> list (item P1) -> Prop) (KC1 : chunk_contract k1 Rc1 Rcs1).
Context (F1 : Prop) (view1 : A1 -> W1) (x1 : text_ops T1 C1 A1) (XC1 : text_contract F1 view1 x1 Rc1).
Context (size1 : C1 -> nat) (Hsize1 : forall c l, Rc1 c l -> length l <= size1 c).
Context (k2 : chunk_ops C2 S2 P2) (Rc2 : C2 -> list (item P2) -> Prop)
        (Rcs2 : S2 -> list (item P2) -> list (item P2) -> Prop) (KC2 : chunk_contract k2 Rc2 Rcs2).
Context (F2 : Prop) (view2 : A2 -> W2) (x2 : text_ops T2 C2 A2) (XC2 : text_contract F2 view2 x2 Rc2).

Lemma texts_eqb_spec t1 t2 l1 l2 : text_items x1 Rc1 t1 l1 -> text_items x2 Rc2 t2 l2 ->
  texts_eqb k1 x1 size1 k2 x2 t1 t2 = true <-> chars l1 = chars l2.
Proof.
  intros H1 H2. unfold texts_eqb.
  destruct (text_eq_spec KC1 XC1 KC2 XC2 H1 H2 (text_fuel_enough size1 Hsize1 H1)) as (b & -> & Hb). exact Hb.
Qed.

Lemma item_rel_chars (Rp : P1 -> P2 -> Prop) l1 l2 : Forall2 (item_rel Rp) l1 l2 -> chars l1 = chars l2.
Proof. unfold chars. induction 1 as [|i j l m [E _] _ IH]; cbn; congruence. Qed.

Lemma texts_eqb_rel (Rp : P1 -> P2 -> Prop) t1 t2 :
  Rt12 (text_items x1 Rc1) (text_items x2 Rc2) Rp t1 t2 -> texts_eqb k1 x1 size1 k2 x2 t1 t2 = true.
Proof. intros (l1 & l2 & H1 & H2 & H). apply (texts_eqb_spec H1 H2). eapply item_rel_chars; eauto. Qed.
End Texts.

Lemma str_eqb_iff a b : str_eqb a b = true <-> a = b.
Proof.
  revert b. induction a as [|x a IH]; intros [|y b]; cbn; try (split; congruence).
  rewrite andb_true_iff, N.eqb_eq, IH. split; [intros [-> ->]; reflexivity|]. intros [= -> ->]. auto.
Qed.

Lemma strpos_eqb_iff p q : strpos_eqb p q = true <-> p = q.
Proof.
  unfold strpos_eqb. rewrite !andb_true_iff, str_eqb_iff, !N.eqb_eq. destruct p, q; cbn.
  split; [intros [[-> ->] ->]; reflexivity|]. intros [= -> -> ->]. auto.
Qed.

Section Results.
Context {T1 T2 E1 E2 P1 P2 C1 C2 : Type}.
Context (teq : T1 -> T2 -> bool) (xeq : E1 -> E2 -> bool) (peq : P1 -> P2 -> bool) (ceq : C1 -> C2 -> bool).

Lemma error_eq_iff e1 e2 : error_eq peq ceq e1 e2 = true <->
  error_rel (fun p q => peq p q = true) (fun a b => ceq a b = true) e1 e2.
Proof. destruct e1 as [| |[]| |], e2 as [| |[]| |]; cbn; split; intros; try discriminate; try contradiction; auto. Qed.

Lemma result_eq_iff r1 r2 : result_eq teq xeq peq ceq r1 r2 = true <->
  pitem_rel (fun t u => teq t u = true) (fun a b => xeq a b = true) (fun p q => peq p q = true) (fun a b => ceq a b = true) r1 r2.
Proof.
  destruct r1, r2; cbn; try (split; [discriminate|contradiction]); [apply datum_eq_iff|apply error_eq_iff].
Qed.

Lemma results_eq_iff l1 l2 : results_eq teq xeq peq ceq l1 l2 = true <->
  Forall2 (fun r1 r2 => result_eq teq xeq peq ceq r1 r2 = true) l1 l2.
Proof.
  revert l2. induction l1 as [|r1 l1 IH]; intros [|r2 l2]; cbn.
  - split; auto.
  - split; [discriminate|inversion 1].
  - split; [discriminate|inversion 1].
  - rewrite andb_true_iff, IH. split; [intros [? ?]; constructor; auto|inversion 1; auto].
Qed.

Lemma results_eq_rel (Rt : T1 -> T2 -> Prop) (Rx : E1 -> E2 -> Prop) (Rp : P1 -> P2 -> Prop) (Rc : C1 -> C2 -> Prop) l1 l2 :
  (forall t u, Rt t u -> teq t u = true) -> (forall a b, Rx a b -> xeq a b = true) ->
  (forall p q, Rp p q -> peq p q = true) -> (forall a b, Rc a b -> ceq a b = true) ->
  Forall2 (pitem_rel Rt Rx Rp Rc) l1 l2 -> results_eq teq xeq peq ceq l1 l2 = true.
Proof.
  intros Ht Hx Hp Hc H. apply results_eq_iff. induction H as [|r1 r2 l1 l2 H _ IH]; constructor; auto.
  apply result_eq_iff. destruct r1 as [d1|e1], r2 as [d2|e2]; cbn in *; auto.
  - eapply RunFacts.datum_rel_mono; [| |exact H]; auto.
  - destruct e1, e2; cbn in *; auto.
Qed.
End Results.

(** In memory without a heap against in memory with one. *)
Section Slots.
Context {W ET CE : Type} (ET_eq : ET -> ET -> bool) (ET_hash : ET -> list hash_word) (hasher : list hash_word -> N).
Context (XH : forall a b, ET_eq a b = true -> ET_hash a = ET_hash b).
Local Notation nhx := (nh_ops (W:=W) (ET:=ET)).
Local Notation imx := (im_ops (W:=W)).

(** Items that are the same items of the source. *)
Definition slots_alike (i1 : datum nh_text ET + error strpos CE) (i2 : datum im_text ET + error strpos CE) : Prop :=
  exists ai : datum (list (item strpos)) ET + error strpos CE,
    pitem_rel (text_items nhx posstr_any) eq eq eq i1 ai /\ pitem_rel (text_items imx posstr_any) eq eq eq i2 ai.

Lemma slots_agree (m1 : nh_bindings (W:=W) (ET:=ET) (CE:=CE)) m2 am t input slots w :
  nh_related eq eq posstr_any m1 am -> str_bindings m2 am ->
  text_items nhx posstr_any t (str_source input) -> (N_len input <= usize_max)%N ->
  exists items1 st1 items2 st2,
    parse_text_with ET_eq t m1 (nh_parser slots w) = (Ok items1, Some st1) /\
    parse_str_with ET_eq ET_hash hasher input m2 w = (Ok items2, Some st2) /\
    (Forall2 slots_alike items1 items2 \/
     exists ds1 e ds2 more, items1 = map inl ds1 ++ [inr (FailedAlloc e)] /\ items2 = map inl ds2 ++ more /\
       Forall2 slots_alike (map inl ds1) (map inl ds2)).
Proof.
  intros H1 H2 Ht Hu.
  assert (HX : forall x1 x2 y1 y2 : ET, x1 = x2 -> y1 = y2 -> ET_eq x1 y1 = ET_eq x2 y2) by (intros; subst; reflexivity).
  destruct (parse_text_with_run ET_eq ET_eq HX posstr_any_contract posstr_size_eq slots w H1 (l:=str_source input)
    ltac:(rewrite str_source_length; exact Hu) Ht) as (i1 & s1 & E1 & G1).
  destruct (parse_str_with_run ET_eq ET_hash hasher ET_eq XH HX posstr_any_contract
    (fun c l H => Nat.eq_le_incl _ _ (posstr_size_eq H)) input w H2 Hu) as (i2 & s2 & E2 & G2).
  { rewrite <- str_source_eq. apply posstr_from_any. }
  rewrite <- str_source_eq in G2.
  exists i1, s1, i2, s2. split; [exact E1|]. split; [exact E2|].
  assert (AL : forall l1 l2 l,
    Forall2 (pitem_rel (text_items nhx posstr_any) eq eq eq) l1 l ->
    Forall2 (pitem_rel (text_items imx posstr_any) eq eq eq) l2 l -> Forall2 slots_alike l1 l2).
  { intros l1 l2 l K1. revert l2. induction K1 as [|x1 a l1 l K1 _ IH]; intros l2 K2; inversion K2 as [|x2 ? ? ? K3 K4]; subst; constructor; eauto.
    exists a. auto. }
  destruct G1 as [G1|(p1 & e & p2 & q2 & -> & He & Eq & G1)]; [left; eauto|]. right.
  rewrite Eq in G2. apply Forall2_app_inv_r in G2. destruct G2 as (b1 & b2 & G2 & _ & ->).
  destruct e as [p| |e| |c]; try contradiction.
  assert (M : exists d2, b1 = map inl d2).
  { clear - G2. revert b1 G2. induction p2 as [|x p2 IH]; intros b1 G2; inversion G2; subst; [exists []; reflexivity|].
    destruct x0; cbn in *; try contradiction. destruct (IH _ H3) as (d2 & ->). eexists (_ :: d2). reflexivity. }
  destruct M as (d2 & ->). exists p1, e, d2, b2. split; [reflexivity|]. split; [reflexivity|].
  apply AL with (l:=map inl p2); [|exact G2]. clear - G1. induction G1; cbn; constructor; auto.
Qed.
End Slots.
