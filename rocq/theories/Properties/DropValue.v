(** Dropping datums that are held by value, and bare references: C66. *)
From Coq Require Import List Arith Lia Permutation Bool.
From Verif.Model Require Import Prelude Drop DropRc DropCost DropValue.
From Verif.Spec Require Import Drops DropValues.
From Verif.Proofs Require Import DropFacts HeapFacts DropRcFacts DropRcDepth DropCostFacts DropCostTree DropValueFacts.
From Verif.Properties Require Import Drop.
Import ListNotations.

(** C66: what users have are not references but datums: what a parser gives.
    Dropping any number of such results with any trees in boxes ends; all memory is freed and
    all values are dropped, once each.  The depth is that of boxes (C33), however many there are,
    and the work is linear. *)
Theorem C66_box : forall X (rs : list (node (bref X) X + X)) fuel depth, 2 <= depth ->
  (forall r, In r (flat_map fields rs) -> 2 * branch_count r <= fuel) ->
  exists evs w, box_results_drop fuel depth rs [] = Ok (tt, evs) /\ Permutation evs (all_contents rs) /\
    box_results_work fuel depth rs ([], 0) = Ok (tt, (evs, w)) /\ w <= 11 * all_branches rs + length (flat_map fields rs).
Proof.
  intros X rs fuel depth HD HF. destruct (@box_results X fuel depth rs [] HD HF) as (evs & E & P). cbn [app] in E.
  pose proof (erases_results fuel depth rs [] 0) as HE. rewrite E in HE. destruct HE as (w & EW & _). cbn [Nat.add] in EW.
  pose proof (@pays_results X fuel depth rs [] 0) as HP. rewrite EW in HP. destruct HP as (k & -> & HP).
  exists evs, (0 + k). auto.
Qed.

(** With counted references: [K] are the other references to the memory.  Nothing
    that these reach is changed; all else is freed and dropped, once each. *)
Theorem C66_rc : forall X arc (rs : list (node nat X + X)) (h : heap X) K fuel depth, consistent h (flat_map fields rs ++ K) ->
  branch_cells h < depth -> branch_cells h * branch_cells h + branch_cells h < fuel ->
  exists h', rc_results_drop arc fuel depth rs h = Ok (tt, h') /\ let_go (flat_map held rs) K h h'.
Proof. intros X arc rs h K fuel depth HC HD HF. apply results_coarse; [exact HC|]. split; unfold bc; lia. Qed.

(** The depth is bounded as in C45, also for many results: by the references to
    branches with further references, and so by two if nothing is shared. *)
Theorem C66_depth : forall X arc (rs : list (node nat X + X)) (h : heap X) K own fuel depth, consistent h (flat_map fields rs ++ K) ->
  (forall y n, node_at h y = Some n -> In y own \/ reach h K y) ->
  2 + shared_refs h own <= depth -> branch_cells h * branch_cells h + branch_cells h < fuel ->
  exists h', rc_results_drop arc fuel depth rs h = Ok (tt, h') /\ let_go (flat_map held rs) K h h'.
Proof. intros X arc rs h K own fuel depth HC HO HD HF. apply results_fine with (own := own); try assumption. unfold bc. lia. Qed.

Theorem C66_unshared : forall X arc (rs : list (node nat X + X)) (h : heap X) K fuel depth, consistent h (flat_map fields rs ++ K) ->
  (forall y, reach h (flat_map fields rs) y -> shared_branch h y = false) ->
  2 <= depth -> branch_cells h * branch_cells h + branch_cells h < fuel ->
  exists h', rc_results_drop arc fuel depth rs h = Ok (tt, h') /\ let_go (flat_map held rs) K h h'.
Proof.
  intros X arc rs h K fuel depth HC HU HD HF. destruct (own_exists K (flat_map fields rs) HC) as (own & HO & HR).
  apply C66_depth with (own := own); try assumption. rewrite (unshared_refs own HU HR). exact HD.
Qed.

(** A clone of the [Rc] or [Arc] in the public field of a reference, for which no
    [Drop] of this crate is called: dropping it does the same as dropping a reference.  It
    is one deeper than the drops of references in it, whose depth is bounded as before. *)
Theorem C66_bare : forall X arc (h : heap X) K x fuel depth, consistent h (x :: K) ->
  branch_cells h < depth -> branch_cells h * branch_cells h + branch_cells h < fuel ->
  exists h', bare_drop arc fuel depth x h = Ok (tt, h') /\ released K h h'.
Proof. intros X arc h K x fuel depth HC HD HF. apply bare_coarse; [exact HC|]. split; unfold bc; lia. Qed.

Theorem C66_bare_depth : forall X arc (h : heap X) K x own fuel depth, consistent h (x :: K) ->
  (forall y n, node_at h y = Some n -> In y own \/ reach h K y) ->
  2 + shared_refs h own <= depth -> branch_cells h * branch_cells h + branch_cells h < fuel ->
  exists h', bare_drop arc fuel depth x h = Ok (tt, h') /\ released K h h'.
Proof. intros X arc h K x own fuel depth HC HO HD HF. apply bare_fine with (own := own); try assumption. unfold bc. lia. Qed.

Theorem C66_bare_unshared : forall X arc (h : heap X) K x fuel depth, consistent h (x :: K) ->
  (forall y, reach h [x] y -> shared_branch h y = false) ->
  2 <= depth -> branch_cells h * branch_cells h + branch_cells h < fuel ->
  exists h', bare_drop arc fuel depth x h = Ok (tt, h') /\ released K h h'.
Proof.
  intros X arc h K x fuel depth HC HU HD HF. destruct (own_exists K [x] HC) as (own & HO & HR).
  apply C66_bare_depth with (own := own); try assumption. rewrite (unshared_refs own HU HR). exact HD.
Qed.

Print Assumptions C66_box.
Print Assumptions C66_rc.
Print Assumptions C66_depth.
Print Assumptions C66_unshared.
Print Assumptions C66_bare.
Print Assumptions C66_bare_depth.
Print Assumptions C66_bare_unshared.

(** * Cases *)

(** A combination of a tree and a list, an error and a text. *)
Definition box_results_case : list (node (bref nat) nat + nat) :=
  [inl (NComb box_tree (BRef 10 (NList (BRef 11 (NLeaf (Some 110))) (BRef 12 (NLeaf None))))); inr 7; inl (NLeaf (Some 8))].
Example C66_case_box : all_branches box_results_case = 5 /\ length (flat_map fields box_results_case) = 2 /\
  box_results_work 8 2 box_results_case ([], 0) = Ok (tt, ([Dropped 20; Freed 2; Freed 1; Freed 3; Freed 4; Dropped 50; Freed 5; Freed 6;
    Freed 8; Dropped 70; Freed 7; Freed 0; Freed 12; Dropped 110; Freed 11; Freed 10; Dropped 7; Dropped 8], 31)).
Proof. split; [|split]; vm_compute; reflexivity. Qed.

(** [two_lists] with one more reference to the end of the list (8): a list held by value
    of the list (2) and that end, an error, and a text; another reference is that to (4). *)
Definition kept_list : heap nat := Heap
  [Some (Cell 1 0 (Some (NLeaf (Some 100)))); Some (Cell 2 0 (Some (NList 0 8)));
   Some (Cell 1 0 (Some (NList 5 3))); Some (Cell 1 1 (Some (NList 6 1)));
   Some (Cell 1 0 (Some (NList 7 1)));
   Some (Cell 1 0 (Some (NLeaf (Some 101)))); Some (Cell 1 0 (Some (NLeaf (Some 102)))); Some (Cell 1 0 (Some (NLeaf (Some 103))));
   Some (Cell 2 0 (Some (NLeaf None)))] [].
Definition rc_results_case : list (node nat nat + nat) := [inl (NList 2 8); inr 7; inl (NLeaf (Some 9))].
Example C66_case_rc : consistent kept_list (flat_map fields rc_results_case ++ [4]) /\
  branch_cells kept_list = 4 /\
  (forall y n, node_at kept_list y = Some n -> In y [2; 3; 5; 6] \/ reach kept_list [4] y) /\ shared_refs kept_list [2; 3; 5; 6] = 1 /\
  (forall arc, exists junk, rc_results_drop arc 21 3 rc_results_case kept_list = Ok (tt, Heap
    ([Some (Cell 1 0 (Some (NLeaf (Some 100)))); Some (Cell 1 0 (Some (NList 0 8))); None; Some (Cell 0 1 None);
      Some (Cell 1 0 (Some (NList 7 1))); None; None; Some (Cell 1 0 (Some (NLeaf (Some 103)))); Some (Cell 1 0 (Some (NLeaf None)))] ++ junk)
    [101; 102; 7; 9]) /\ Forall (fun oc => oc = None) junk).
Proof.
  assert (R1 : reach kept_list [4] 1).
  { apply (reach_kid (x := 4) (n := NList 7 1)); [apply reach_root; left|reflexivity|right; left]; reflexivity. }
  split; [split|split; [vm_compute; reflexivity|split; [|split; [vm_compute; reflexivity|]]]].
  - intros x c E. do 9 (destruct x as [|x]; [injection E as <-; vm_compute; split; [reflexivity|split; discriminate]|]).
    unfold cell_at in E. cbn in E. destruct x; discriminate.
  - intros x HI. vm_compute in HI. repeat (destruct HI as [<-|HI]; [discriminate|]). contradiction.
  - exists (fun x => match x with 1 => 1 | 3 => 2 | 2 => 3 | 4 => 2 | _ => 0 end). intros x n y E HI.
    do 9 (destruct x as [|x]; [injection E as <-; cbn in HI; repeat (destruct HI as [<-|HI]; [lia|]); contradiction|]).
    unfold node_at, cell_at in E. cbn in E. destruct x; discriminate.
  - intros y n E. destruct y as [|[|[|[|[|[|[|[|[|y]]]]]]]]]; try (left; cbn; auto 9; fail); try right.
    + apply (reach_kid (x := 1) (n := NList 0 8)); [exact R1|reflexivity|left; reflexivity].
    + exact R1.
    + apply reach_root. left. reflexivity.
    + apply (reach_kid (x := 4) (n := NList 7 1)); [apply reach_root; left|reflexivity|left]; reflexivity.
    + apply (reach_kid (x := 1) (n := NList 0 8)); [exact R1|reflexivity|right; left; reflexivity].
    + unfold node_at, cell_at in E. cbn in E. destruct y; discriminate.
  - intros [|]; eexists; (split; [vm_compute; reflexivity|repeat constructor]).
Qed.

(** [shared_leaf] with all its references in a value; nothing else refers to it.  A depth of two is enough. *)
Example C66_case_unshared : consistent shared_leaf (flat_map fields [inl (NComb 0 3 : node nat nat)] ++ []) /\
  (forall y, reach shared_leaf [0; 3] y -> shared_branch shared_leaf y = false) /\
  rc_results_drop true 13 2 [inl (NComb 0 3)] shared_leaf = Ok (tt, Heap
    [None; Some (Cell 0 1 None); None; None; None; None; None; None; None; None] [50; 30]).
Proof.
  destruct C45_case_unshared as (HC & _). split; [exact HC|]. split; [|vm_compute; reflexivity].
  intros y _. do 6 (destruct y as [|y]; [reflexivity|]). destruct y; reflexivity.
Qed.

(** [two_lists] is consistent by [C36_case], and meets the other hypotheses by [C45_case]: a bare reference to (2) is the last one. *)
Example C66_case_bare : bare_drop false 21 3 2 two_lists = Ok (tt, Heap
    [Some (Cell 1 0 (Some (NLeaf (Some 100)))); Some (Cell 1 0 (Some (NList 0 8))); None; Some (Cell 0 1 None);
     Some (Cell 1 0 (Some (NList 7 1))); None; None; Some (Cell 1 0 (Some (NLeaf (Some 103)))); Some (Cell 1 0 (Some (NLeaf None))); None] [101; 102]) /\
  bare_drop true 13 2 0 shared_leaf = Ok (tt, Heap
    [None; Some (Cell 0 1 None); None; Some (Cell 1 0 (Some (NLeaf (Some 30)))); None; None; None; None] [50]).
Proof. split; vm_compute; reflexivity. Qed.
