(** Trees of boxes with boxes in the values of their leaves. *)
From Coq Require Import List Arith.
From Verif.Model Require Import Prelude Drop DropExtra.
From Verif.Spec Require Import Drops.
Import ListNotations.
Set Implicit Arguments.

Section Deep.
Context {V : Type}.
Local Notation box := (bref (deep V)).

(** Trees in the values of leaves of trees nest at most [L] deep. *)
Fixpoint within (L : nat) (r : box) : Prop :=
  forall v l b, In (Dropped (Deep v l)) (contents r) -> In b l ->
    match L with 0 => False | S L' => within L' b end.
(** Everything in such a tree. *)
Fixpoint all_in (L : nat) (r : box) : list (event V) :=
  flat_map (fun e => match e with
                     | Freed id => [Freed id]
                     | Dropped (Deep v l) => Dropped v :: match L with 0 => [] | S L' => flat_map (all_in L') l end
                     end) (contents r).
(** The number of branches of each of its trees is at most [n]. *)
Fixpoint branches_at_most (n L : nat) (r : box) : Prop :=
  branch_count r <= n /\
  forall v l b, In (Dropped (Deep v l)) (contents r) -> In b l ->
    match L with 0 => True | S L' => branches_at_most n L' b end.
End Deep.

(** The maximum over the values in leaves, and all allocations and what is in the values. *)
Section Leaves.
Context {X V : Type} (f : X -> nat) (g : X -> list (event V)).
Fixpoint max_leaf (r : bref X) : nat :=
  match r with
  | BRef _ (NComb a b) | BRef _ (NList a b) => Nat.max (max_leaf a) (max_leaf b)
  | BRef _ (NLeaf (Some x)) => f x
  | BRef _ (NLeaf None) => 0
  end.
Fixpoint with_leaves (r : bref X) : list (event V) :=
  match r with
  | BRef id (NComb a b) | BRef id (NList a b) => Freed id :: with_leaves a ++ with_leaves b
  | BRef id (NLeaf (Some x)) => Freed id :: g x
  | BRef id (NLeaf None) => [Freed id]
  end.
End Leaves.

Section All.
Context {V : Type}.
Local Notation box := (bref (deep V)).

(** How deep trees in the values of leaves of trees are nested. *)
Fixpoint level_of (x : deep V) : nat :=
  match x with
  | Deep _ [] => 0
  | Deep _ l => S (list_max (map (max_leaf level_of) l))
  end.
Definition level (r : box) : nat := max_leaf level_of r.
(** The largest number of branches of one of these trees. *)
Fixpoint most_of (x : deep V) : nat :=
  match x with
  | Deep _ l => list_max (map (fun b => Nat.max (branch_count b) (max_leaf most_of b)) l)
  end.
Definition most_branches (r : box) : nat := Nat.max (branch_count r) (max_leaf most_of r).
(** All allocations and values in these trees. *)
Fixpoint everything_of (x : deep V) : list (event V) :=
  match x with
  | Deep v l => Dropped v :: flat_map (with_leaves everything_of) l
  end.
Definition everything (r : box) : list (event V) := with_leaves everything_of r.
End All.
