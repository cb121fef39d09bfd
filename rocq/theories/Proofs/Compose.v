(** Two configurations that obey the contracts, on sources with related items,
    simulate each other. *)
From Coq Require Import List Arith NArith Bool Lia.
From Verif.Model Require Import Prelude Parser Iter Bindings.
From Verif.Spec Require Import Contract.
From Verif.Proofs Require Import Sim Refine.
Import ListNotations.
Set Implicit Arguments.

Section Compose.
Context {S1 A1 T1 E1 P1 C1 W1 S2 A2 T2 E2 P2 C2 W2 : Type}.
Context (so1 : stream_ops S1 A1 T1 P1) (co1 : concat_ops A1 T1) (ao1 : alloc_ops A1 T1 E1).
Context (so2 : stream_ops S2 A2 T2 P2) (co2 : concat_ops A2 T2) (ao2 : alloc_ops A2 T2 E2).
Context (Rs1 : S1 -> list (item P1) -> list (item P1) -> Prop) (Rt1 : T1 -> list (item P1) -> Prop)
        (Rs2 : S2 -> list (item P2) -> list (item P2) -> Prop) (Rt2 : T2 -> list (item P2) -> Prop).
Context (L : Prop) (view1 : A1 -> W1) (view2 : A2 -> W2).
Context (Rp : P1 -> P2 -> Prop) (Rw : W1 -> W2 -> Prop) (Rx : E1 -> E2 -> Prop).
Local Notation ir := (Forall2 (item_rel Rp)).

(** Same characters at related positions. *)
Definition Rs12 (s1 : S1) (s2 : S2) : Prop := exists r1 p1 r2 p2,
  Rs1 s1 r1 p1 /\ Rs2 s2 r2 p2 /\ ir r1 r2 /\ ir p1 p2.
Definition Rt12 (t1 : T1) (t2 : T2) : Prop := exists l1 l2, Rt1 t1 l1 /\ Rt2 t2 l2 /\ ir l1 l2.
Definition Ra12 (a1 : A1) (a2 : A2) : Prop := Rw (view1 a1) (view2 a2).

Lemma ir_hd r1 r2 : ir r1 r2 -> option_rel (item_rel Rp) (hd_error r1) (hd_error r2).
Proof. intros [|]; cbn; auto. Qed.
Lemma ir_tl r1 r2 : ir r1 r2 -> ir (tl r1) (tl r2).
Proof. intros [|]; cbn; auto. Qed.
Lemma ir_first r1 r2 : ir r1 r2 -> ir (firstn 1 r1) (firstn 1 r2).
Proof. intros [|]; cbn; auto. Qed.

Lemma compose_stream : stream_contract L view1 so1 Rs1 Rt1 -> stream_contract False view2 so2 Rs2 Rt2 ->
  stream_sim so1 so2 L Rs12 Ra12 Rt12 Rp.
Proof.
  intros C1' C2'. split.
  - intros s1 s2 (r1 & p1 & r2 & p2 & H1 & H2 & Hr & Hp). unfold pres_rel.
    destruct (sc_peek C1' _ _ _ H1) as (s1' & -> & H1'), (sc_peek C2' _ _ _ H2) as (s2' & -> & H2').
    cbn. split; [apply ir_hd; auto|]. exists r1, p1, r2, p2. auto.
  - intros s1 s2 (r1 & p1 & r2 & p2 & H1 & H2 & Hr & Hp). unfold pres_rel.
    destruct (sc_next C1' _ _ _ H1) as (s1' & -> & H1'), (sc_next C2' _ _ _ H2) as (s2' & -> & H2').
    cbn. split; [apply ir_hd; auto|]. exists (tl r1), [], (tl r2), []. auto using ir_tl.
  - intros s1 s2 a1 a2 (r1 & p1 & r2 & p2 & H1 & H2 & Hr & Hp) Ha. unfold ares_rel.
    destruct (sc_next_accum C2' _ a2 _ _ H2) as [(s2' & a2' & -> & V2 & H2')|[[] _]].
    destruct (sc_next_accum C1' _ a1 _ _ H1) as [(s1' & a1' & -> & V1 & H1')|(HF & s1' & a1' & -> & _)]; cbn; [|exact HF].
    split; [apply ir_hd; auto|]. split; cbn; [|unfold Ra12; rewrite V1, V2; exact Ha].
    do 4 eexists. split; [exact H1'|]. split; [exact H2'|]. split; [apply ir_tl; auto|].
    apply Forall2_app; auto using ir_first.
  - intros s1 s2 a1 a2 (r1 & p1 & r2 & p2 & H1 & H2 & Hr & Hp) Ha. unfold ares_rel.
    destruct (sc_accum_done C2' _ a2 _ _ H2) as [(s2' & a2' & t2 & -> & V2 & G2 & H2')|[[] _]].
    destruct (sc_accum_done C1' _ a1 _ _ H1) as [(s1' & a1' & t1 & -> & V1 & G1 & H1')|(HF & s1' & a1' & -> & _)]; cbn; [|exact HF].
    split; [exists p1, p2; auto|]. split; cbn; [|unfold Ra12; rewrite V1, V2; exact Ha].
    exists r1, [], r2, []. auto.
Qed.

Lemma compose_concat : concat_contract L view1 co1 Rt1 -> concat_contract False view2 co2 Rt2 ->
  concat_sim co1 co2 L Ra12 Rt12.
Proof.
  intros C1' C2'. split.
  - exists [], []. repeat split; [apply (tc_empty C1')|apply (tc_empty C2')|constructor].
  - intros t1 t1' t2 t2' a1 a2 (l1 & l2 & H1 & H2 & Hl) (l1' & l2' & H1' & H2' & Hl') Ha. unfold ares_rel.
    destruct (tc_concat C2' _ _ _ _ a2 H2 H2') as [(t & a2' & -> & V2 & G2)|[[] _]].
    destruct (tc_concat C1' _ _ _ _ a1 H1 H1') as [(t' & a1' & -> & V1 & G1)|(HF & a1' & -> & _)]; cbn; [|exact HF].
    split; [|unfold Ra12; rewrite V1, V2; exact Ha]. do 2 eexists. split; [exact G1|]. split; [exact G2|].
    apply Forall2_app; auto.
Qed.

Lemma compose_alloc : alloc_contract L view1 ao1 -> alloc_contract False view2 ao2 ->
  (forall d a, a_get_mut ao1 d a = true) -> (forall d a, a_get_mut ao2 d a = true) ->
  alloc_sim ao1 ao2 L Ra12 Rt12 Rx.
Proof.
  intros C1' C2' G1 G2. split.
  - intros d1 d2 a1 a2 Hd Ha. unfold ares_rel.
    destruct (C2' d2 a2) as [(a2' & -> & V2)|[[] _]].
    destruct (C1' d1 a1) as [(a1' & -> & V1)|(HF & a1' & -> & _)]; cbn; [|exact HF].
    split; [exact Hd|]. unfold Ra12. rewrite V1, V2. exact Ha.
  - intros. rewrite G1, G2. reflexivity.
Qed.
End Compose.

(** Lists of pairs with related keys and combiners. *)
Section Pairs.
Context {K1 K2 V1 V2 : Type} (key_eq1 : K1 -> K1 -> bool) (key_eq2 : K2 -> K2 -> bool)
        (Rk : K1 -> K2 -> Prop) (Rv : V1 -> V2 -> Prop).
Definition pairs_rel (m1 : list (K1 * V1)) (m2 : list (K2 * V2)) : Prop :=
  Forall2 (fun kv1 kv2 => Rk (fst kv1) (fst kv2) /\ Rv (snd kv1) (snd kv2)) m1 m2.
Lemma pairs_lookup_rel m1 m2 o1 o2 :
  (forall o1 o2 k1 k2, Rk o1 o2 -> Rk k1 k2 -> key_eq1 o1 k1 = key_eq2 o2 k2) ->
  pairs_rel m1 m2 -> Rk o1 o2 ->
  option_rel Rv (pair_lookup key_eq1 m1 o1) (pair_lookup key_eq2 m2 o2).
Proof.
  intros HK H Ho. induction H as [|[k1 v1] [k2 v2] m1 m2 [Hk Hv] _ IH]; cbn in *; [exact I|].
  rewrite (HK _ _ _ _ Ho Hk). destruct (key_eq2 o2 k2); auto.
Qed.
End Pairs.
