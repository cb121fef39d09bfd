(** Dropping datums: C33 to C36 and C45. *)
From Coq Require Import List Arith Lia Permutation Bool.
From Verif.Model Require Import Prelude Drop DropShared DropRc.
From Verif.Spec Require Import Drops.
From Verif.Proofs Require Import DropFacts DropSharedFacts HeapFacts DropRcFacts DropDeep DropRcDepth.
Import ListNotations.

(** C33: dropping a box with any tree of datums ends, after at most two
    iterations per branch; all memory is freed and all values are dropped, once each.
    A depth of two is enough: drops within a drop have no drops within. *)
Theorem C33_box : forall X (r : bref X) fuel depth, 2 * branch_count r <= fuel -> 2 <= depth ->
  exists evs, box_drop fuel depth r [] = Ok (tt, evs) /\ Permutation evs (contents r).
Proof.
  intros X r fuel depth HF HD. destruct depth as [|[|depth]]; [lia|lia|]. apply (@box_drop_spec X fuel depth r []). exact HF.
Qed.

(** C34: whatever the other owners do at any time, dropping a shared tree ends
    without a panic.  All of it is freed or dropped once each, or is below a
    reference that was released because it was not the last one; those are references of the tree as it was. *)
Theorem C34_shared : forall X (oracle : nat -> bool) (r : sref X) fuel depth, untouched r ->
  s_branch_count r < depth -> s_branch_count r * s_branch_count r + s_branch_count r < fuel ->
  exists evs k, s_drop oracle fuel depth r (SState 0 []) = Ok (tt, SState k evs) /\
    Permutation (flat_map accounts evs) (s_contents r) /\
    (forall r', In (Released r') evs -> In r' (references r)).
Proof.
  intros X oracle r fuel depth HU HD HF.
  destruct (s_drop_spec oracle (SState 0 []) HU HD HF) as (evs & [k l] & E & HL & HP & HR).
  cbn in HL. subst l. eauto 6.
Qed.

(** C35 is false: for every depth there is a heap in which dropping one reference
    recurses deeper than that, although its data is only shared by one other
    reference.  (With more depth the drop ends: C36.) *)
Theorem C35_refuted : forall X arc bound, exists (h : heap X) x K, consistent h (x :: K) /\
  length (cells h) = bound + 3 /\
  forall fuel depth, depth <= bound -> rc_drop arc fuel depth x h = OutOfFuel.
Proof.
  intros X arc n. exists (comb n), (n + 2), [0]. split; [apply comb_consistent|]. split; [apply comb_length|].
  intros fuel depth HD. apply comb_deep. exact HD.
Qed.

(** C36: one reference of a heap without cycles is dropped; [K] are the others. *)
Theorem C36_rc : forall X arc (h : heap X) K x fuel depth, consistent h (x :: K) ->
  branch_cells h < depth -> branch_cells h * branch_cells h + branch_cells h < fuel ->
  exists h', rc_drop arc fuel depth x h = Ok (tt, h') /\ released K h h'.
Proof.
  intros X arc h K x fuel depth HC HD HF.
  destruct (rc_drop_after arc (fuel := fuel) (depth := depth) HC) as ([] & h' & E & HA); [exact HD|unfold bc; lia|].
  exists h'. split; [exact E|]. apply (after_released HC HA).
Qed.

(** C45: the depth of the recursion is bounded by the sharing.  [own] has the
    datums that cannot be reached with the other references; with a depth of two
    more than the number of references in these to branches that have further
    references, dropping does all that C36 says. *)
Theorem C45_depth : forall X arc (h : heap X) K x own fuel depth, consistent h (x :: K) ->
  (forall y n, node_at h y = Some n -> In y own \/ reach h K y) ->
  2 + shared_refs h own <= depth -> branch_cells h * branch_cells h + branch_cells h < fuel ->
  exists h', rc_drop arc fuel depth x h = Ok (tt, h') /\ released K h h'.
Proof.
  intros X arc h K x own fuel depth HC HO HD HF.
  destruct (@rc_drop_depth X arc fuel depth h K x own HC HO HD) as ([] & h' & E & HA); [unfold bc; lia|].
  exists h'. split; [exact E|]. apply (after_released HC HA).
Qed.

(** As with boxes, a depth of two is enough for all that is not shared, also
    when there are weak references to it or when leaves are shared. *)
Theorem C45_unshared : forall X arc (h : heap X) K x fuel depth, consistent h (x :: K) ->
  (forall y, reach h [x] y -> shared_branch h y = false) ->
  2 <= depth -> branch_cells h * branch_cells h + branch_cells h < fuel ->
  exists h', rc_drop arc fuel depth x h = Ok (tt, h') /\ released K h h'.
Proof.
  intros X arc h K x fuel depth HC HU HD HF.
  destruct (@rc_drop_unshared X arc fuel depth h K x HC HU HD) as ([] & h' & E & HA); [unfold bc; lia|].
  exists h'. split; [exact E|]. apply (after_released HC HA).
Qed.

(** For every number of such references there is a heap in which the bound
    cannot be lowered by more than two. *)
Theorem C45_tight : forall X arc n, exists (h : heap X) x K own, consistent h (x :: K) /\
  (forall y m, node_at h y = Some m -> In y own \/ reach h K y) /\ shared_refs h own = S n /\
  forall fuel depth, depth <= n -> rc_drop arc fuel depth x h = OutOfFuel.
Proof.
  intros X arc n. exists (comb n), (n + 2), [0], (seq 2 (n + 1)). split; [apply comb_consistent|]. split; [apply comb_own|].
  split; [apply comb_shared|]. intros fuel depth HD. apply comb_deep. exact HD.
Qed.

Print Assumptions C33_box.
Print Assumptions C34_shared.
Print Assumptions C35_refuted.
Print Assumptions C36_rc.
Print Assumptions C45_depth.
Print Assumptions C45_unshared.
Print Assumptions C45_tight.

(** * Cases *)

(** A branch of a branch and a list. *)
Definition box_tree : bref nat :=
  BRef 0 (NComb (BRef 1 (NList (BRef 2 (NLeaf (Some 20))) (BRef 3 (NLeaf None))))
                (BRef 4 (NList (BRef 5 (NLeaf (Some 50))) (BRef 6 (NList (BRef 7 (NLeaf (Some 70))) (BRef 8 (NLeaf None))))))).

(** The left side of [shared_tree] is a shared list; what [alternating] answers
    changes from one attempt to the next. *)
Definition shared_tree : sref nat :=
  SRef 0 false (NComb (SRef 1 false (NList (SRef 2 false (NLeaf (Some 20))) (SRef 3 false (NLeaf None))))
                      (SRef 4 false (NList (SRef 5 false (NList (SRef 6 false (NLeaf (Some 60))) (SRef 7 false (NLeaf None)))) (SRef 8 false (NLeaf None))))).
Definition alternating (k : nat) : bool := match k with 0 => true | _ => Nat.odd k end.

(** A list (2, 3) with its tail (1) shared with another list (4), and a weak
    reference to (3). *)
Definition two_lists : heap nat := Heap
  [Some (Cell 1 0 (Some (NLeaf (Some 100)))); Some (Cell 2 0 (Some (NList 0 8)));
   Some (Cell 1 0 (Some (NList 5 3))); Some (Cell 1 1 (Some (NList 6 1)));
   Some (Cell 1 0 (Some (NList 7 1)));
   Some (Cell 1 0 (Some (NLeaf (Some 101)))); Some (Cell 1 0 (Some (NLeaf (Some 102)))); Some (Cell 1 0 (Some (NLeaf (Some 103))));
   Some (Cell 1 0 (Some (NLeaf None)))] [].

Example C33_case : branch_count box_tree = 4 /\
  box_drop 8 2 box_tree [] = Ok (tt, [Dropped 20; Freed 2; Freed 1; Freed 3; Freed 4; Dropped 50; Freed 5; Freed 6;
                                      Freed 8; Dropped 70; Freed 7; Freed 0]).
Proof. split; vm_compute; reflexivity. Qed.

Example C34_case : untouched shared_tree /\ s_branch_count shared_tree = 4 /\
  s_drop alternating 21 5 shared_tree (SState 0 []) =
    Ok (tt, SState 14 [Did (Freed 8); Released (SRef 6 false (NLeaf (Some 60))); Did (Freed 7); Did (Freed 5); Did (Freed 4);
                       Released (SRef 3 false (NLeaf None)); Did (Freed 1); Did (Dropped 20); Did (Freed 2); Did (Freed 0)]).
Proof.
  split; [|split; vm_compute; reflexivity]. intros id own n HI. cbn in HI.
  repeat (destruct HI as [[= <- <- <-]|HI]; [reflexivity|]). contradiction.
Qed.

Example C35_case : rc_drop (X:=nat) false 100 5 7 (comb 5) = OutOfFuel /\ rc_drop (X:=nat) true 100 5 7 (comb 5) = OutOfFuel /\
  (exists h', rc_drop (X:=nat) false 100 8 7 (comb 5) = Ok (tt, h')) /\ branch_cells (comb (X:=nat) 5) = 7.
Proof. split; [vm_compute; reflexivity|]. split; [vm_compute; reflexivity|]. split; [eexists; vm_compute; reflexivity|reflexivity]. Qed.

Example C36_case : consistent two_lists [2; 4] /\ branch_cells two_lists = 4 /\ reach two_lists [4] 0 /\ ~ reach two_lists [4] 3 /\
  rc_drop false 21 5 2 two_lists = Ok (tt, Heap
    [Some (Cell 1 0 (Some (NLeaf (Some 100)))); Some (Cell 1 0 (Some (NList 0 8))); None; Some (Cell 0 1 None);
     Some (Cell 1 0 (Some (NList 7 1))); None; None; Some (Cell 1 0 (Some (NLeaf (Some 103)))); Some (Cell 1 0 (Some (NLeaf None))); None] [101; 102]).
Proof.
  split; [|split; [vm_compute; reflexivity|split; [|split; [|vm_compute; reflexivity]]]].
  - split.
    + intros x c E. do 9 (destruct x as [|x]; [injection E as <-; vm_compute; split; [reflexivity|split; discriminate]|]).
      unfold cell_at in E. cbn in E. destruct x; discriminate.
    + intros x HI. vm_compute in HI. repeat (destruct HI as [<-|HI]; [discriminate|]). contradiction.
    + exists (fun x => match x with 1 => 1 | 3 => 2 | 2 => 3 | 4 => 2 | _ => 0 end). intros x n y E HI.
      do 9 (destruct x as [|x]; [injection E as <-; cbn in HI; repeat (destruct HI as [<-|HI]; [lia|]); contradiction|]).
      unfold node_at, cell_at in E. cbn in E. destruct x; discriminate.
  - apply (reach_kid (x := 1) (n := NList 0 8)); [|reflexivity|left; reflexivity].
    apply (reach_kid (x := 4) (n := NList 7 1)); [apply reach_root; left|reflexivity|right; left]; reflexivity.
  - assert (G : forall y, reach two_lists [4] y -> In y [4; 7; 1; 0; 8]).
    { intros y HR. induction HR as [x [<-|[]]|x n y HR IH E HI]; [left; reflexivity|].
      cbn in IH. repeat (destruct IH as [<-|IH]; [injection E as <-; cbn in HI; repeat (destruct HI as [<-|HI]; [cbn; auto 9|]); contradiction|]). contradiction. }
    intros HR. specialize (G _ HR). cbn in G. repeat (destruct G as [G|G]; [discriminate|]). contradiction.
Qed.

Example C45_case : (forall y n, node_at two_lists y = Some n -> In y [2; 3; 5; 6] \/ reach two_lists [4] y) /\
  shared_refs two_lists [2; 3; 5; 6] = 1 /\ rc_drop false 21 3 2 two_lists = rc_drop false 21 5 2 two_lists.
Proof.
  assert (R1 : reach two_lists [4] 1).
  { apply (reach_kid (x := 4) (n := NList 7 1)); [apply reach_root; left|reflexivity|right; left]; reflexivity. }
  split; [|split; vm_compute; reflexivity]. intros y n E.
  destruct y as [|[|[|[|[|[|[|[|[|y]]]]]]]]]; try (left; cbn; auto 9; fail); try right.
  - apply (reach_kid (x := 1) (n := NList 0 8)); [exact R1|reflexivity|left; reflexivity].
  - exact R1.
  - apply reach_root. left. reflexivity.
  - apply (reach_kid (x := 4) (n := NList 7 1)); [apply reach_root; left|reflexivity|left]; reflexivity.
  - apply (reach_kid (x := 1) (n := NList 0 8)); [exact R1|reflexivity|right; left; reflexivity].
  - unfold node_at, cell_at in E. cbn in E. destruct y; discriminate.
Qed.

(** A branch (0) of a list (1), with a weak reference to it, and a branch (2); they
    share a leaf (3), which has one more reference. *)
Definition shared_leaf : heap nat := Heap
  [Some (Cell 1 0 (Some (NComb 1 2))); Some (Cell 1 1 (Some (NList 3 4))); Some (Cell 1 0 (Some (NComb 3 5)));
   Some (Cell 3 0 (Some (NLeaf (Some 30)))); Some (Cell 1 0 (Some (NLeaf None))); Some (Cell 1 0 (Some (NLeaf (Some 50))))] [].

Example C45_case_unshared : consistent shared_leaf [0; 3] /\ (forall y, reach shared_leaf [0] y -> shared_branch shared_leaf y = false) /\
  branch_cells shared_leaf = 3 /\
  rc_drop true 13 2 0 shared_leaf = Ok (tt, Heap
    [None; Some (Cell 0 1 None); None; Some (Cell 1 0 (Some (NLeaf (Some 30)))); None; None; None; None; None; None] [50]).
Proof.
  split; [|split; [|split; vm_compute; reflexivity]].
  - split.
    + intros x c E. do 6 (destruct x as [|x]; [injection E as <-; vm_compute; split; [reflexivity|split; discriminate]|]).
      unfold cell_at in E. cbn in E. destruct x; discriminate.
    + intros x HI. vm_compute in HI. repeat (destruct HI as [<-|HI]; [discriminate|]). contradiction.
    + exists (fun x => match x with 0 => 2 | 1 | 2 => 1 | _ => 0 end). intros x n y E HI.
      do 6 (destruct x as [|x]; [injection E as <-; cbn in HI; repeat (destruct HI as [<-|HI]; [lia|]); contradiction|]).
      unfold node_at, cell_at in E. cbn in E. destruct x; discriminate.
  - intros y _. do 6 (destruct y as [|y]; [reflexivity|]). destruct y; reflexivity.
Qed.
