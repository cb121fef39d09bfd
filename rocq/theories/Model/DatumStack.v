(** The derived [Hash] and [Clone] of datums with the depth of their recursion. *)
From Coq Require Import List NArith Arith.
From Verif.Model Require Import Prelude TextMethods.
Import ListNotations.
Set Implicit Arguments.

Section Hash.
Context {TT ET : Type} (thash : TT -> list hash_word) (xhash : ET -> list hash_word).

(** [#[derive(Hash)]], core/src/datum.rs 17, as [datum_hash] (DatumMethods.v): what is fed to the
    hasher, and how deep calls of [Datum]'s [hash] are nested below this one.
    Each field is a reference, whose [hash] calls that of the datum it refers to (src/datum.rs 21,
    60, 92, core/src/datum/premade/mutref.rs 18). *)
Fixpoint datum_hash_run (d : datum TT ET) : list hash_word * nat :=
  match d with
  | DText t => (HDiscr 0 :: thash t, 0)
  | DComb rtr rnds =>
      let (a, n) := datum_hash_run rtr in
      let (b, m) := datum_hash_run rnds in
      (HDiscr 1 :: a ++ b, Nat.max (S n) (S m))
  | DEmptyNest => ([HDiscr 2], 0)
  | DList e l =>
      let (a, n) := datum_hash_run e in
      let (b, m) := datum_hash_run l in
      (HDiscr 3 :: a ++ b, Nat.max (S n) (S m))
  | DEmptyList => ([HDiscr 4], 0)
  | DExtra x => (HDiscr 5 :: xhash x, 0)
  end.
Definition datum_hash_depth (d : datum TT ET) : nat := snd (datum_hash_run d).
End Hash.

Section Clone.
Context {TT ET : Type} (tclone : TT -> TT) (xclone : ET -> ET).

(** [#[derive(Clone)]] of [Datum], core/src/datum.rs 17, with boxes as the
    references ([#[derive(Clone)]] of [DatumBox], src/datum.rs 21): the copy, and how deep
    calls of [Datum]'s [clone] are nested below this one. *)
Fixpoint box_clone_run (d : datum TT ET) : datum TT ET * nat :=
  match d with
  | DText t => (DText (tclone t), 0)
  | DComb rtr rnds =>
      let (a, n) := box_clone_run rtr in
      let (b, m) := box_clone_run rnds in
      (DComb a b, Nat.max (S n) (S m))
  | DEmptyNest => (DEmptyNest, 0)
  | DList e l =>
      let (a, n) := box_clone_run e in
      let (b, m) := box_clone_run l in
      (DList a b, Nat.max (S n) (S m))
  | DEmptyList => (DEmptyList, 0)
  | DExtra x => (DExtra (xclone x), 0)
  end.
Definition box_clone (d : datum TT ET) : datum TT ET := fst (box_clone_run d).
Definition box_clone_depth (d : datum TT ET) : nat := snd (box_clone_run d).
End Clone.
