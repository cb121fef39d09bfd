(** What dropping datums that are held by value must do. *)
From Coq Require Import List Arith Permutation.
From Verif.Model Require Import Prelude Drop DropRc.
From Verif.Spec Require Import Drops.
Import ListNotations.
Set Implicit Arguments.

Section Values.
Context {X : Type}.

(** The boxes in a result, and the value in it if it is a leaf or an error. *)
Definition fields {DR} (r : node DR X + X) : list DR :=
  match r with
  | inl (NComb a b) | inl (NList a b) => [a; b]
  | _ => []
  end.
Definition held {DR} (r : node DR X + X) : list X :=
  match r with
  | inl (NLeaf (Some x)) | inr x => [x]
  | _ => []
  end.

(** What happens when all of these results are dropped. *)
Definition all_contents (rs : list (node (bref X) X + X)) : list (event X) :=
  flat_map (fun r => flat_map contents (fields r) ++ map (@Dropped X) (held r)) rs.
(** The branches in boxes. *)
Definition all_branches (rs : list (node (bref X) X + X)) : nat :=
  list_sum (map branch_count (flat_map fields rs)).

(** What dropping references and the values [vs] has to do when the other
    references are [K]; see [released]. *)
Record let_go (vs : list X) (K : list nat) (h h' : heap X) : Prop := {
  let_consistent : consistent h' K;
  let_stays : forall y, reach h K y ->
    exists s w n, cell_at h y = Some (Cell s w (Some n)) /\ cell_at h' y = Some (Cell (refs K h' y) w (Some n));
  let_freed : forall y s w n, cell_at h y = Some (Cell s w (Some n)) -> ~ reach h K y ->
    cell_at h' y = match w with 0 => None | S _ => Some (Cell 0 w None) end;
  let_weak : forall y s w, cell_at h y = Some (Cell s w None) -> cell_at h' y = Some (Cell s w None);
  let_none : forall y, cell_at h y = None -> cell_at h' y = None;
  (* the values themselves, and those that are not in memory any more *)
  let_dropped : exists xs, dropped h' = dropped h ++ xs /\ Permutation (xs ++ payloads h') (vs ++ payloads h) }.
End Values.
