(** Equality and hashing of datums. *)
From Coq Require Import List Arith NArith Bool Lia.
From Verif.Model Require Import Prelude TextMethods DatumMethods.
From Verif.Proofs Require Import Sim.
Import ListNotations.
Set Implicit Arguments.

(** The largest number of operand and element edges on a path. *)
Fixpoint side_depth {TT ET} (d : datum TT ET) : nat :=
  match d with
  | DComb rtr rnds => Nat.max (S (side_depth rnds)) (side_depth rtr)
  | DList e n => Nat.max (S (side_depth e)) (side_depth n)
  | _ => 0
  end.

Section Eq.
Context {T1 T2 E1 E2 : Type} (teq : T1 -> T2 -> bool) (xeq : E1 -> E2 -> bool).
Local Notation run := (datum_eq_run teq xeq).
Local Notation Rd := (datum_rel (fun t1 t2 => teq t1 t2 = true) (fun x1 x2 => xeq x1 x2 = true)).

Lemma datum_eq_iff d1 d2 : datum_eq teq xeq d1 d2 = true <-> Rd d1 d2.
Proof.
  unfold datum_eq. revert d2.
  induction d1 as [t1|o1 IHo p1 IHp| |e1 IHe n1 IHn| |x1]; intros d2;
    destruct d2 as [t2|o2 p2| |e2 n2| |x2]; cbn; try tauto; try (split; [discriminate|tauto]).
  - specialize (IHo o2). specialize (IHp p2). destruct (run p1 p2) as [b n], (run o1 o2) as [b' n'].
    cbn in *. destruct b; cbn; [tauto|]. split; [discriminate|]. intros [_ H]. apply IHp in H. discriminate.
  - specialize (IHe e2). specialize (IHn n2). destruct (run e1 e2) as [b n], (run n1 n2) as [b' n'].
    cbn in *. destruct b; cbn; [tauto|]. split; [discriminate|]. intros [H _]. apply IHe in H. discriminate.
Qed.

Lemma datum_eq_depth_le d1 d2 :
  datum_eq_depth teq xeq d1 d2 <= Nat.min (side_depth d1) (side_depth d2).
Proof.
  unfold datum_eq_depth. revert d2.
  induction d1 as [t1|o1 IHo p1 IHp| |e1 IHe n1 IHn| |x1]; intros d2;
    destruct d2 as [t2|o2 p2| |e2 n2| |x2]; cbn [datum_eq_run snd]; try (cbn; lia).
  - specialize (IHo o2). specialize (IHp p2). destruct (run p1 p2) as [[|] n], (run o1 o2) as [b' n'];
      cbn [snd side_depth] in *; lia.
  - specialize (IHe e2). specialize (IHn n2). destruct (run e1 e2) as [[|] n], (run n1 n2) as [b' n'];
      cbn [snd side_depth] in *; lia.
Qed.

(** Equal datums are compared completely. *)
Lemma datum_eq_depth_eq d1 d2 : datum_eq teq xeq d1 d2 = true ->
  datum_eq_depth teq xeq d1 d2 = side_depth d1.
Proof.
  unfold datum_eq_depth, datum_eq. revert d2.
  induction d1 as [t1|o1 IHo p1 IHp| |e1 IHe n1 IHn| |x1]; intros d2;
    destruct d2 as [t2|o2 p2| |e2 n2| |x2]; cbn [datum_eq_run fst snd]; try discriminate; auto.
  - specialize (IHo o2). specialize (IHp p2). destruct (run p1 p2) as [[|] n], (run o1 o2) as [b' n'];
      cbn [fst snd side_depth] in *; try discriminate. intros ->. rewrite IHo, IHp by reflexivity. reflexivity.
  - specialize (IHe e2). specialize (IHn n2). destruct (run e1 e2) as [[|] n], (run n1 n2) as [b' n'];
      cbn [fst snd side_depth] in *; try discriminate. intros ->. rewrite IHe, IHn by reflexivity. reflexivity.
Qed.
End Eq.

(** All texts and extras of a datum satisfy a predicate. *)
Fixpoint datum_all {TT ET} (Pt : TT -> Prop) (Px : ET -> Prop) (d : datum TT ET) : Prop :=
  match d with
  | DText t => Pt t
  | DComb a b => datum_all Pt Px a /\ datum_all Pt Px b
  | DList a b => datum_all Pt Px a /\ datum_all Pt Px b
  | DExtra x => Px x
  | _ => True
  end.

Section Equivalence.
Context {TT ET : Type} (Pt : TT -> Prop) (Px : ET -> Prop) (Rt : TT -> TT -> Prop) (Rx : ET -> ET -> Prop).
Local Notation ok := (datum_all Pt Px).

Lemma datum_rel_refl : (forall t, Pt t -> Rt t t) -> (forall x, Px x -> Rx x x) ->
  forall d, ok d -> datum_rel Rt Rx d d.
Proof. intros Ht Hx. induction d; cbn; intuition. Qed.

Lemma datum_rel_sym : (forall t u, Pt t -> Pt u -> Rt t u -> Rt u t) ->
  (forall x y, Px x -> Px y -> Rx x y -> Rx y x) ->
  forall d1 d2, ok d1 -> ok d2 -> datum_rel Rt Rx d1 d2 -> datum_rel Rt Rx d2 d1.
Proof. intros Ht Hx. induction d1; intros [| | | | |]; cbn; intuition. Qed.

Lemma datum_rel_trans : (forall t u v, Pt t -> Pt u -> Pt v -> Rt t u -> Rt u v -> Rt t v) ->
  (forall x y z, Px x -> Px y -> Px z -> Rx x y -> Rx y z -> Rx x z) ->
  forall d1 d2 d3, ok d1 -> ok d2 -> ok d3 -> datum_rel Rt Rx d1 d2 -> datum_rel Rt Rx d2 d3 -> datum_rel Rt Rx d1 d3.
Proof. intros Ht Hx. induction d1; intros [| | | | |] [| | | | |]; cbn; try tauto; intuition eauto. Qed.
End Equivalence.

Lemma datum_rel_impl {T1 T2 E1 E2} (Rt Rt' : T1 -> T2 -> Prop) (Rx Rx' : E1 -> E2 -> Prop)
  (Pt1 : T1 -> Prop) (Px1 : E1 -> Prop) (Pt2 : T2 -> Prop) (Px2 : E2 -> Prop) :
  (forall t u, Pt1 t -> Pt2 u -> Rt t u -> Rt' t u) -> (forall x y, Px1 x -> Px2 y -> Rx x y -> Rx' x y) ->
  forall d1 d2, datum_all Pt1 Px1 d1 -> datum_all Pt2 Px2 d2 -> datum_rel Rt Rx d1 d2 -> datum_rel Rt' Rx' d1 d2.
Proof. intros Ht Hx. induction d1; intros [| | | | |]; cbn; intuition. Qed.

Lemma datum_hash_consistent {T1 T2 E1 E2} (Rt : T1 -> T2 -> Prop) (Rx : E1 -> E2 -> Prop)
  (th1 : T1 -> list hash_word) (th2 : T2 -> list hash_word) (xh1 : E1 -> list hash_word) (xh2 : E2 -> list hash_word) :
  (forall t u, Rt t u -> th1 t = th2 u) -> (forall x y, Rx x y -> xh1 x = xh2 y) ->
  forall d1 d2, datum_rel Rt Rx d1 d2 -> datum_hash th1 xh1 d1 = datum_hash th2 xh2 d2.
Proof.
  intros Ht Hx. induction d1; intros [| | | | |]; cbn; try tauto; intros H.
  - f_equal. auto.
  - destruct H. f_equal. f_equal; auto.
  - destruct H. f_equal. f_equal; auto.
  - f_equal. auto.
Qed.
