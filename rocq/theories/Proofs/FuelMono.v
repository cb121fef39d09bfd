(** More fuel does not change a result. *)
From Coq Require Import List Arith NArith Bool Lia.
From Verif.Model Require Import Prelude Parser Iter.
Import ListNotations.
Set Implicit Arguments.

Section FuelMono.
Context {S A TT ET Pos CE : Type}.
Context (umax : N) (cc : classifier) (so : stream_ops S A TT Pos) (co : concat_ops A TT)
        (ao : alloc_ops A TT ET) (bnd : bindings A TT ET Pos CE).

Definition fle {X} (m1 m2 : M (S:=S) (A:=A) (Pos:=Pos) (CE:=CE) X) : Prop :=
  forall st, fst (m1 st) = OutOfFuel \/ m2 st = m1 st.

Lemma fle_refl X (m : M X) : fle m m.
Proof. right. reflexivity. Qed.
Lemma fle_nofuel X (m : M X) : fle nofuel m.
Proof. left. reflexivity. Qed.

Lemma fle_bind X Y (m1 m2 : M X) (k1 k2 : X -> M Y) :
  fle m1 m2 -> (forall x, fle (k1 x) (k2 x)) -> fle (bind m1 k1) (bind m2 k2).
Proof.
  intros Hm Hk st. unfold bind. destruct (Hm st) as [H|H].
  - destruct (m1 st) as [[| | |] ?]; cbn in H; try discriminate. left; reflexivity.
  - rewrite H. destruct (m1 st) as [[x|e| |] st']; [apply Hk|auto..].
Qed.

Lemma fle_finally X (m1 m2 : M X) fin : fle m1 m2 -> fle (finally m1 fin) (finally m2 fin).
Proof.
  intros Hm st. unfold finally. destruct (Hm st) as [H|H].
  - destruct (m1 st) as [[| | |] ?]; cbn in H; try discriminate. left; reflexivity.
  - rewrite H. right. reflexivity.
Qed.

Ltac fle := repeat first
  [ assumption
  | solve [apply fle_refl]
  | solve [apply fle_nofuel]
  | apply fle_bind; [|intros ?]
  | apply fle_finally
  | match goal with
    | |- fle (if ?b then _ else _) _ => destruct b
    | |- fle (match ?b with _ => _ end) _ => destruct b
    | H : _ |- _ => solve [apply H]
    end ].

Lemma fle_skip_whitespace fuel :
  fle (skip_whitespace cc so fuel) (skip_whitespace cc so (Datatypes.S fuel)).
Proof.
  induction fuel as [|f IH]; [apply fle_nofuel|].
  change (fle (skip_whitespace cc so (Datatypes.S f)) (skip_whitespace cc so (Datatypes.S (Datatypes.S f)))).
  remember (Datatypes.S f) as f' eqn:E. rewrite E at 1. cbn [skip_whitespace]. subst f'. fle.
Qed.

Lemma fle_parse_text_loop fuel m : forall t n,
  fle (parse_text_loop umax cc so co fuel m t n)
      (parse_text_loop umax cc so co (Datatypes.S fuel) m t n).
Proof.
  induction fuel as [|f IH]; intros t n; [apply fle_nofuel|].
  remember (Datatypes.S f) as f' eqn:E. rewrite E at 1. cbn [parse_text_loop]. subst f'.
  cbv zeta. fle.
Qed.

Lemma fle_parse fuel :
  (forall m, fle (parse_next umax cc so co ao bnd fuel m)
                 (parse_next umax cc so co ao bnd (Datatypes.S fuel) m)) /\
  fle (parse_nested umax cc so co ao bnd fuel)
      (parse_nested umax cc so co ao bnd (Datatypes.S fuel)) /\
  (forall m, fle (parse_all umax cc so co ao bnd fuel m)
                 (parse_all umax cc so co ao bnd (Datatypes.S fuel) m)).
Proof.
  induction fuel as [|f (IH1 & IH2 & IH3)].
  { repeat split; intros; apply fle_nofuel. }
  pose proof (fun m => fle_parse_text_loop f m (t_empty co) 0) as IHt.
  pose proof (fle_skip_whitespace f) as IHs.
  remember (Datatypes.S f) as f' eqn:E.
  split; [|split].
  - intros m. rewrite E at 1. cbn [parse_next]. cbv zeta. unfold parse_text. fle.
  - rewrite E at 1. cbn [parse_nested]. unfold parse_text. fle.
  - intros m. rewrite E at 1. cbn [parse_all]. fle.
Qed.

(** Any larger fuel gives the same result. *)
Lemma parse_next_fuel f f' m st : f <= f' ->
  fst (parse_next umax cc so co ao bnd f m st) <> OutOfFuel ->
  parse_next umax cc so co ao bnd f' m st = parse_next umax cc so co ao bnd f m st.
Proof.
  intros H Hn. induction H as [|f' H IH]; [reflexivity|].
  destruct (proj1 (fle_parse f') m st) as [E|E]; congruence.
Qed.
Lemma parse_nested_fuel f f' st : f <= f' ->
  fst (parse_nested umax cc so co ao bnd f st) <> OutOfFuel ->
  parse_nested umax cc so co ao bnd f' st = parse_nested umax cc so co ao bnd f st.
Proof.
  intros H Hn. induction H as [|f' H IH]; [reflexivity|].
  destruct (proj1 (proj2 (fle_parse f')) st) as [E|E]; congruence.
Qed.
Lemma parse_all_fuel f f' m st : f <= f' ->
  fst (parse_all umax cc so co ao bnd f m st) <> OutOfFuel ->
  parse_all umax cc so co ao bnd f' m st = parse_all umax cc so co ao bnd f m st.
Proof.
  intros H Hn. induction H as [|f' H IH]; [reflexivity|].
  destruct (proj2 (proj2 (fle_parse f')) m st) as [E|E]; congruence.
Qed.

Lemma iter_next_fuel f f' st : f <= f' ->
  fst (iter_next umax cc so co ao bnd f st) <> OutOfFuel ->
  iter_next umax cc so co ao bnd f' st = iter_next umax cc so co ao bnd f st.
Proof.
  intros H Hn. unfold iter_next, do_next in *.
  rewrite (parse_next_fuel Base st H); [reflexivity|].
  destruct (parse_next umax cc so co ao bnd f Base st) as [[[]| | |] ?]; cbn in *; congruence.
Qed.

End FuelMono.
