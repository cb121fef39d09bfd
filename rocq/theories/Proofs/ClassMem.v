(** Parsing in memory with different classifiers. *)
From Coq Require Import List Arith NArith Bool Lia.
From Verif.Model Require Import Prelude Parser Iter Utf8 Chunk TextIter PosStr TextVec Alloc
  DatumMethods TextMethods Bindings Premade CustomClassifier.
From Verif.Spec Require Import Contract ChunkContract Run Classes.
From Verif.Proofs Require Import Sim Refine Compose ChunkFacts TextFacts MethodFacts BindingFacts DatumFacts AllocFacts
  Transfer AbsIter Instances RunFacts PremadeFacts Concrete TwoRuns Diag ClassFacts.
Import ListNotations.
Set Implicit Arguments.
Local Notation N_len r := (N.of_nat (length r)).

Lemma datum_eq_alike {T1 E1 T2 E2} (teq1 : T1 -> T1 -> bool) (teq2 : T2 -> T2 -> bool) (xeq1 : E1 -> E1 -> bool)
    (xeq2 : E2 -> E2 -> bool) (Rt : T1 -> T2 -> Prop) (Rx : E1 -> E2 -> Prop) :
  (forall t1 t2 u1 u2, Rt t1 t2 -> Rt u1 u2 -> teq1 t1 u1 = teq2 t2 u2) ->
  (forall x1 x2 y1 y2, Rx x1 x2 -> Rx y1 y2 -> xeq1 x1 y1 = xeq2 x2 y2) ->
  forall d1 d2 k1 k2, datum_rel Rt Rx d1 d2 -> datum_rel Rt Rx k1 k2 ->
  datum_eq_run teq1 xeq1 d1 k1 = datum_eq_run teq2 xeq2 d2 k2.
Proof.
  intros HT HX. induction d1 as [t1|o1 IHo p1 IHp| |e1 IHe n1 IHn| |x1]; intros d2 k1 k2 Hd Hk;
    destruct d2; cbn in Hd; try contradiction;
    destruct k1, k2; cbn in Hk; try contradiction; cbn; auto.
  - f_equal. apply HT; auto.
  - destruct Hd as [Ho Hp], Hk as [Ho' Hp']. rewrite (IHo _ _ _ Ho Ho'), (IHp _ _ _ Hp Hp'). reflexivity.
  - destruct Hd as [Ho Hp], Hk as [Ho' Hp']. rewrite (IHe _ _ _ Ho Ho'), (IHn _ _ _ Hp Hp'). reflexivity.
  - f_equal. apply HX; auto.
Qed.

Section Mem.
Context {W ET CE : Type} (ET_eq : ET -> ET -> bool) (ET_hash : ET -> list hash_word)
        (XH : forall a b, ET_eq a b = true -> ET_hash a = ET_hash b).
Context (Rch : char -> char -> Prop).
Local Notation imx := (im_ops (W:=W)).
Local Notation id := (fun w : W => w).
Local Notation Rt := (text_items imx posstr_any).

(** The same character positions. *)
Definition same_index (p q : strpos) : Prop := sp_char p = sp_char q.
Local Notation ib := (Forall2 (item_by Rch same_index)).
(** Well-formed texts with related characters at the same positions. *)
Definition im_by : im_text -> im_text -> Prop := RtB Rt Rt Rch same_index.
(** Bindings that treat such texts alike. *)
Definition im_by_alike (m1 m2 : im_bindings (W:=W) (ET:=ET) (CE:=CE)) : Prop :=
  pairs_rel (datum_rel im_by eq) (combiner_rel False eq im_by eq same_index eq) m1 m2.

Lemma by_chars (O : one_to_one Rch) l1 l2 : ib l1 l2 -> forall k1 k2, ib k1 k2 -> (chars l1 = chars k1 <-> chars l2 = chars k2).
Proof.
  induction 1 as [|a b l1 l2 [Hab _] _ IH]; intros k1 k2 [|c d k1' k2' [Hcd _] Hk]; cbn; try (split; congruence).
  specialize (IH _ _ Hk). pose proof (O _ _ _ _ Hab Hcd) as E. unfold chars in IH.
  split; intros G; injection G as G1 G2; f_equal; tauto.
Qed.

Lemma im_teq_alike (O : one_to_one Rch) t1 t2 u1 u2 : im_by t1 t2 -> im_by u1 u2 ->
  text_eqb posstr_ops imx posstr_size t1 u1 = text_eqb posstr_ops imx posstr_size t2 u2.
Proof.
  intros (l1 & l2 & A1 & A2 & HA) (k1 & k2 & B1 & B2 & HB).
  pose proof (teqb_spec posstr_any_contract (imxc (W:=W)) posstr_size posstr_size_ok) as TS.
  pose proof (TS _ _ _ _ A1 B1) as G1. pose proof (TS _ _ _ _ A2 B2) as G2. pose proof (by_chars O HA HB) as G.
  apply eq_true_iff_eq. tauto.
Qed.

Local Notation wf := (datum_all (fun t => exists l, Rt t l) (fun _ : ET => True)).
Lemma by_wf d1 d2 : datum_rel im_by (@eq ET) d1 d2 -> wf d1 /\ wf d2.
Proof.
  revert d2. induction d1; intros [] H; cbn in *; try contradiction; auto.
  - destruct H as (l1 & l2 & A & B & _). eauto.
  - destruct H as [A B]. apply IHd1_1 in A. apply IHd1_2 in B. tauto.
  - destruct H as [A B]. apply IHd1_1 in A. apply IHd1_2 in B. tauto.
Qed.

Lemma im_by_sim (O : one_to_one Rch) h1 h2 m1 m2 : im_by_alike m1 m2 ->
  bindings_sim (im_lookup ET_eq ET_hash h1 m1) (im_lookup ET_eq ET_hash h2 m2) False eq im_by eq same_index eq.
Proof.
  intros H d1 d2 Hd. unfold im_lookup.
  assert (HP : forall h m d, wf d -> Forall (fun kv => wf (fst kv)) m ->
    hm_lookup (V:=combiner W im_text ET strpos CE) (im_datum_eq (W:=W) ET_eq) (im_datum_hash (W:=W) ET_hash) h m d
    = pair_lookup (im_datum_eq (W:=W) ET_eq) m d).
  { intros h m d Wd Wm. apply (hm_lookup_pairs _ _ h wf); auto.
    intros a b Wa Wb. apply (key_hash_consistent posstr_any_contract (imxc (W:=W)) posstr_size posstr_size_ok _ _ XH _ _ Wa Wb). }
  assert (W12 : Forall (fun kv => wf (fst kv)) m1 /\ Forall (fun kv => wf (fst kv)) m2).
  { clear -H. induction H as [|kv1 kv2 m1 m2 [Hk _] _ IH]; [auto|]. apply by_wf in Hk. split; constructor; tauto. }
  rewrite (HP h1 m1 d1 (proj1 (by_wf _ _ Hd)) (proj1 W12)), (HP h2 m2 d2 (proj2 (by_wf _ _ Hd)) (proj2 W12)).
  eapply pairs_lookup_rel; [|exact H|exact Hd]. intros a b c d Hab Hcd. unfold im_datum_eq, datum_eq. f_equal.
  eapply datum_eq_alike; [| |exact Hab|exact Hcd]; [intros; apply im_teq_alike; auto|intros; subst; reflexivity].
Qed.

Lemma by_indexed p1 p2 j1 : forall j2 ci b1 b2, Forall2 Rch j1 j2 -> same_index p1 p2 ->
  ib (indexed p1 ci b1 j1) (indexed p2 ci b2 j2).
Proof.
  induction j1 as [|a j1 IH]; intros j2 ci b1 b2 H Hp; inversion H as [|? b ? j2' Hab Hj]; subst; cbn [indexed]; constructor; auto.
  split; [exact Hab|]. unfold same_index in *. cbn. rewrite Hp. reflexivity.
Qed.
Lemma by_source i1 i2 : Forall2 Rch i1 i2 -> ib (str_source i1) (str_source i2).
Proof. intros H. rewrite !str_source_eq. apply by_indexed; [exact H|reflexivity]. Qed.

Lemma Forall2_len {X Y} (R : X -> Y -> Prop) l1 l2 : Forall2 R l1 l2 -> length l1 = length l2.
Proof. induction 1; cbn; auto. Qed.

Lemma im_by_reads t1 t2 : im_by t1 t2 -> text_by posstr_ops imx posstr_ops imx Rch same_index t1 t2.
Proof.
  intros (l1 & l2 & H1 & H2 & H). exists l1, l2.
  eauto using (text_reads posstr_any_contract (imxc (W:=W))).
Qed.

Context (cc1 cc2 : classifier) (HC : forall c1 c2, Rch c1 c2 -> same_class cc1 cc2 c1 c2).

Lemma mem_classes h1 h2 i1 i2 (m1 m2 : im_bindings (W:=W) (ET:=ET) (CE:=CE)) w :
  bindings_sim (im_lookup ET_eq ET_hash h1 m1) (im_lookup ET_eq ET_hash h2 m2) False eq im_by eq same_index eq ->
  Forall2 Rch i1 i2 -> (N_len i1 <= usize_max)%N ->
  exists items1 st1 items2 st2,
    collect_str ET_eq ET_hash h1 cc1 i1 m1 w = (Ok items1, Some st1) /\
    collect_str ET_eq ET_hash h2 cc2 i2 m2 w = (Ok items2, Some st2) /\
    Forall2 (pitem_rel (text_by posstr_ops imx posstr_ops imx Rch same_index) eq same_index eq) items1 items2 /\
    ps_alloc st1 = ps_alloc st2.
Proof.
  intros BS Hi Hu. unfold collect_str.
  destruct (im_starts posstr_any_contract i1 w (posstr_from_any i1)) as (s1 & -> & _ & H1 & _). cbn in H1.
  destruct (im_starts posstr_any_contract i2 w (posstr_from_any i2)) as (s2 & -> & _ & H2 & _). cbn in H2.
  pose proof (titer_contract posstr_any_contract (imxc (W:=W))) as SC. pose proof (xc_concat (imxc (W:=W))) as TC.
  rewrite <- (Forall2_len Hi).
  destruct (iter_collect_safe (umax:=usize_max) cc1 (im_lookup ET_eq ET_hash h1 m1) SC TC (@box_alloc_contract W im_text ET)
    (n:=parse_calls (length i1)) (fuel:=parse_fuel (length i1)) (st:=parse_iter_new s1 w) (r:=str_source i1))
    as (items1 & st1 & E1 & _).
  { rewrite str_source_length. unfold parse_calls. lia. }
  { rewrite str_source_length. unfold parse_fuel. lia. }
  { rewrite str_source_length. exact Hu. }
  { split; [reflexivity|]. exists []. auto. }
  pose proof (classes_collect usize_max HC SC TC (@box_alloc_contract W im_text ET) (fun _ _ => eq_refl)
    SC TC (@box_alloc_contract W im_text ET) (fun _ _ => eq_refl) BS (parse_calls (length i1)) (parse_fuel (length i1))
    (st1:=parse_iter_new s1 w) (st2:=parse_iter_new s2 w)) as G.
  assert (Hst : st_rel (RsB (titer_rep posstr_any posstr_any_state imx) (titer_rep posstr_any posstr_any_state imx) Rch same_index)
    (RaB id id eq) (parse_iter_new s1 w) (parse_iter_new s2 w)).
  { split; [|split; reflexivity]. exists (str_source i1), [], (str_source i2), []. auto using by_source. }
  specialize (G Hst). unfold coll_rel in G. 
  unfold im_stream. rewrite E1 in *.
  destruct (iter_collect usize_max cc2 (titer_stream posstr_ops im_ops) (text_concat_ops im_ops) box_alloc
    (im_lookup ET_eq ET_hash h2 m2) (parse_calls (length i1)) (parse_fuel (length i1)) (parse_iter_new s2 w))
    as [[items2|[]| |] st2] eqn:E2; cbn [fst snd] in G; try contradiction.
  destruct G as (G & _ & _ & Ga). exists items1, st1, items2, st2. repeat split; auto.
  eapply Forall2_mono; [|exact G]. intros a b. apply pitem_rel_mono. apply im_by_reads.
Qed.
End Mem.
