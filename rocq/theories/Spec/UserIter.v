(** What an iterator returns, call after call. *)
From Coq Require Import List.
Import ListNotations.
Set Implicit Arguments.

Section Results.
Context {I X : Type} (step : I -> option X * I).
(** The iterator after [n] calls of its [next]. *)
Fixpoint after (n : nat) (i : I) : I := match n with O => i | S n' => after n' (snd (step i)) end.
(** What call number [k] (from 0) returns. *)
Definition result (i : I) (k : nat) : option X := fst (step (after k i)).
End Results.

(** The first [n] calls return the same. *)
Definition agree_upto {I1 I2 X} (step1 : I1 -> option X * I1) (step2 : I2 -> option X * I2) (n : nat) (i1 : I1) (i2 : I2) : Prop :=
  forall k, k < n -> result step1 i1 k = result step2 i2 k.

(** The iterator over a list. *)
Definition list_step {X} (l : list X) : option X * list X := (hd_error l, tl l).
