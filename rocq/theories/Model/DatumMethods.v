(** [==] and hashing of datums, core/src/datum.rs. *)
From Coq Require Import List NArith Bool Arith.
From Verif.Model Require Import Prelude TextMethods.
Import ListNotations.
Set Implicit Arguments.

Section Eq.
Context {T1 T2 E1 E2 : Type} (teq : T1 -> T2 -> bool) (xeq : E1 -> E2 -> bool).

(** [PartialEq::eq], core/src/datum.rs 63-92: the result and how deep calls of
    [eq] (through [**rnds1 == **rnds2] and [**e1 == **e2]) are nested below
    this one.  The [loop] goes on with the operators, or the next list cell,
    in the same call. *)
Fixpoint datum_eq_run (left : datum T1 E1) (right : datum T2 E2) : bool * nat :=
  match left, right with
  | DText t1, DText t2 => (teq t1 t2, 0)
  | DComb rtr1 rnds1, DComb rtr2 rnds2 =>
      let (b, n) := datum_eq_run rnds1 rnds2 in
      if b then let (b', n') := datum_eq_run rtr1 rtr2 in (b', Nat.max (S n) n')
      else (false, S n)
  | DEmptyNest, DEmptyNest => (true, 0)
  | DList e1 n1, DList e2 n2 =>
      let (b, n) := datum_eq_run e1 e2 in
      if b then let (b', n') := datum_eq_run n1 n2 in (b', Nat.max (S n) n')
      else (false, S n)
  | DEmptyList, DEmptyList => (true, 0)
  | DExtra x1, DExtra x2 => (xeq x1 x2, 0)
  | _, _ => (false, 0)
  end.

Definition datum_eq (d1 : datum T1 E1) (d2 : datum T2 E2) : bool := fst (datum_eq_run d1 d2).
Definition datum_eq_depth (d1 : datum T1 E1) (d2 : datum T2 E2) : nat := snd (datum_eq_run d1 d2).
End Eq.

Section Hash.
Context {TT ET : Type} (thash : TT -> list hash_word) (xhash : ET -> list hash_word).

(** [#[derive(Hash)]], core/src/datum.rs 17: the discriminant, then the fields
    in order; references hash what they refer to (src/datum.rs 21, 60, 92,
    core/src/datum/premade/mutref.rs 18). *)
Fixpoint datum_hash (d : datum TT ET) : list hash_word :=
  match d with
  | DText t => HDiscr 0 :: thash t
  | DComb rtr rnds => HDiscr 1 :: datum_hash rtr ++ datum_hash rnds
  | DEmptyNest => [HDiscr 2]
  | DList e n => HDiscr 3 :: datum_hash e ++ datum_hash n
  | DEmptyList => [HDiscr 4]
  | DExtra x => HDiscr 5 :: xhash x
  end.
End Hash.

(** [Error] equality, core/src/error.rs 36-54. *)
Definition error_eq {P1 P2 C1 C2} (peq : P1 -> P2 -> bool) (ceq : C1 -> C2 -> bool)
    (e1 : error P1 C1) (e2 : error P2 C2) : bool :=
  match e1, e2 with
  | UnbalancedEndChar p1, UnbalancedEndChar p2 => peq p1 p2
  | MissingEndChar, MissingEndChar => true
  | FailedAlloc AllocExhausted, FailedAlloc AllocExhausted => true
  | FailedDerefTryMut, FailedDerefTryMut => true
  | FailedCombiner c1, FailedCombiner c2 => ceq c1 c2
  | _, _ => false
  end.
