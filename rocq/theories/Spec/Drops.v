(** What dropping a tree of datums must do. *)
From Coq Require Import List Arith Permutation.
From Verif.Model Require Import Prelude Drop DropShared DropRc.
Import ListNotations.
Set Implicit Arguments.

Section Box.
Context {X : Type}.

(** The number of branch nodes of a tree. *)
Fixpoint branch_count (r : bref X) : nat :=
  match r with
  | BRef _ (NComb a b) | BRef _ (NList a b) => S (branch_count a + branch_count b)
  | BRef _ (NLeaf _) => 0
  end.

(** Everything in a tree: its allocations, and the values in its leaves. *)
Fixpoint contents (r : bref X) : list (event X) :=
  match r with
  | BRef id (NComb a b) | BRef id (NList a b) => Freed id :: contents a ++ contents b
  | BRef id (NLeaf (Some x)) => [Freed id; Dropped x]
  | BRef id (NLeaf None) => [Freed id]
  end.
End Box.

(** ** Shared references *)
Section Shared.
Context {X : Type}.

Fixpoint s_branch_count (r : sref X) : nat :=
  match r with
  | SRef _ _ (NComb a b) | SRef _ _ (NList a b) => S (s_branch_count a + s_branch_count b)
  | SRef _ _ (NLeaf _) => 0
  end.
Fixpoint s_contents (r : sref X) : list (event X) :=
  match r with
  | SRef id _ (NComb a b) | SRef id _ (NList a b) => Freed id :: s_contents a ++ s_contents b
  | SRef id _ (NLeaf (Some x)) => [Freed id; Dropped x]
  | SRef id _ (NLeaf None) => [Freed id]
  end.
(** The references of a tree. *)
Fixpoint references (r : sref X) : list (sref X) :=
  r :: match r with
       | SRef _ _ (NComb a b) | SRef _ _ (NList a b) => references a ++ references b
       | SRef _ _ (NLeaf _) => []
       end.
(** Nothing in a tree has been taken over. *)
Definition untouched (r : sref X) : Prop := forall id own n, In (SRef id own n) (references r) -> own = false.
(** What an event accounts for: all that stays below a released reference is in
    the hands of its other owners. *)
Definition accounts (e : sevent X) : list (event X) :=
  match e with
  | Did e => [e]
  | Released r => s_contents r
  end.
End Shared.

(** ** Counted references *)
Section Counted.
Context {X : Type}.
Implicit Types (h : heap X) (K : list nat).

Definition kids (n : node nat X) : list nat :=
  match branches n with Some (a, b) => [a; b] | None => [] end.
Definition payload (n : node nat X) : list X := match n with NLeaf (Some x) => [x] | _ => [] end.
Definition node_at h (x : nat) : option (node nat X) :=
  match cell_at h x with Some c => value c | None => None end.
(** Over all datums in memory. *)
Definition of_all {A} (f : node nat X -> list A) h : list A :=
  flat_map (fun oc : option (cell X) => match oc with Some (Cell _ _ (Some n)) => f n | _ => [] end) (cells h).
(** The references in datums, the values in leaves, and the branches. *)
Definition edges h : list nat := of_all kids h.
Definition payloads h : list X := of_all payload h.
Definition branch_cells h : nat := length (of_all (fun n => match branches n with Some _ => [tt] | None => [] end) h).
Definition refs K h (x : nat) : nat := count_occ Nat.eq_dec (K ++ edges h) x.

(** A heap with the references [K] from outside of it: the strong counts are the
    numbers of references; there is a datum as long as that is not zero; all
    references are to datums; there are no cycles. *)
Record consistent h K : Prop := {
  cons_count : forall x c, cell_at h x = Some c -> strong c = refs K h x /\ (value c = None <-> strong c = 0);
  cons_refs : forall x, In x (K ++ edges h) -> node_at h x <> None;
  cons_acyclic : exists rank : nat -> nat, forall x n y, node_at h x = Some n -> In y (kids n) -> rank y < rank x }.

(** Reachable by references from [K]. *)
Inductive reach h K : nat -> Prop :=
| reach_root x : In x K -> reach h K x
| reach_kid x n y : reach h K x -> node_at h x = Some n -> In y (kids n) -> reach h K y.

(** What dropping a reference has to do when the other references are [K]. *)
Record released K h h' : Prop := {
  (* the counts are exact *)
  rel_consistent : consistent h' K;
  (* what can be reached stays *)
  rel_stays : forall y, reach h K y ->
    exists s w n, cell_at h y = Some (Cell s w (Some n)) /\ cell_at h' y = Some (Cell (refs K h' y) w (Some n));
  (* what cannot is freed, or its datum is dropped while there are weak references *)
  rel_freed : forall y s w n, cell_at h y = Some (Cell s w (Some n)) -> ~ reach h K y ->
    cell_at h' y = match w with 0 => None | S _ => Some (Cell 0 w None) end;
  (* other memory is as before *)
  rel_weak : forall y s w, cell_at h y = Some (Cell s w None) -> cell_at h' y = Some (Cell s w None);
  rel_none : forall y, cell_at h y = None -> cell_at h' y = None;
  (* the values that are not in memory any more have been dropped, once each *)
  rel_dropped : exists xs, dropped h' = dropped h ++ xs /\ Permutation (xs ++ payloads h') (payloads h) }.

(** A branch with more than one strong reference, and the number of references to
    such branches in the datums at these addresses. *)
Definition shared_branch h (y : nat) : bool :=
  match cell_at h y with
  | Some (Cell (S (S _)) _ (Some n)) => match branches n with Some _ => true | None => false end
  | _ => false
  end.
Definition shared_refs h (xs : list nat) : nat :=
  length (filter (shared_branch h) (flat_map (fun x => match node_at h x with Some n => kids n | None => [] end) xs)).
End Counted.
