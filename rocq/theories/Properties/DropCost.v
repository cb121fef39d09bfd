(** The work of dropping datums: C50. *)
From Coq Require Import List Arith Lia Permutation Bool.
From Verif.Model Require Import Prelude Drop DropShared DropRc DropCost.
From Verif.Spec Require Import Drops.
From Verif.Proofs Require Import DropFacts DropSharedFacts HeapFacts DropRcFacts DropCostFacts DropCostTree DropCostRc DropCostLong DropCostUnshared.
From Verif.Properties Require Import Drop.
Import ListNotations.

(** C50: what is counted are the operations of the references: each look at a
    datum, each attempt to take one and each change of one.  (The drop of a
    reference begins with a look, so that all drops are counted too.) *)

(** Dropping a box takes at most eleven operations per branch, and one. *)
Theorem C50_box : forall X (r : bref X) fuel depth, 2 * branch_count r <= fuel -> 2 <= depth ->
  exists evs w, box_work fuel depth r ([], 0) = Ok (tt, (evs, w)) /\ box_drop fuel depth r [] = Ok (tt, evs) /\
    w <= 11 * branch_count r + 1.
Proof.
  intros X r fuel depth HF HD. destruct (@C33_box X r fuel depth HF HD) as (evs & E & _).
  pose proof (erases_box fuel depth r [] 0) as HE. rewrite E in HE. destruct HE as (w & EW & _). cbn [Nat.add] in EW.
  exists evs, w. split; [exact EW|]. split; [exact E|]. pose proof (@pays_box X fuel depth r [] 0) as HP. rewrite EW in HP.
  destruct HP as (k & -> & HP). exact HP.
Qed.

(** Dropping a shared tree, whatever the other owners do at any time, takes a
    number of operations at most quadratic in its branches. *)
Theorem C50_shared : forall X (oracle : nat -> bool) (r : sref X) fuel depth, untouched r ->
  s_branch_count r < depth -> s_branch_count r * s_branch_count r + s_branch_count r < fuel ->
  exists st w, s_work oracle fuel depth r (SState 0 [], 0) = Ok (tt, (st, w)) /\
    s_drop oracle fuel depth r (SState 0 []) = Ok (tt, st) /\
    w <= 5 * (s_branch_count r * s_branch_count r) + 11 * s_branch_count r + 2.
Proof.
  intros X oracle r fuel depth HU HD HF. destruct (@C34_shared X oracle r fuel depth HU HD HF) as (evs & k & E & _).
  pose proof (erases_shared oracle fuel depth r (SState 0 []) 0) as HE. rewrite E in HE. destruct HE as (w & EW & _). cbn [Nat.add] in EW.
  exists (SState k evs), w. split; [exact EW|]. split; [exact E|].
  pose proof (@pays_s_drop X oracle (s_branch_count r) fuel depth r (SState 0 []) (Nat.le_refl _) 0) as HP. rewrite EW in HP.
  destruct HP as (j & -> & HP). cbn [Nat.add]. lia.
Qed.

(** Dropping one reference of a heap takes a number of operations at most quadratic
    in the branches that are freed; the size of what is kept does not matter. *)
Theorem C50_rc : forall X arc (h : heap X) K x fuel depth, consistent h (x :: K) ->
  branch_cells h < depth -> branch_cells h * branch_cells h + branch_cells h < fuel ->
  exists h' w freed, rc_work arc fuel depth x (h, 0) = Ok (tt, (h', w)) /\
    rc_drop arc fuel depth x h = Ok (tt, h') /\ released K h h' /\
    branch_cells h = branch_cells h' + freed /\ w <= 5 * (freed * freed) + 11 * freed + 2.
Proof.
  intros X arc h K x fuel depth HC HD HF. destruct (@C36_rc X arc h K x fuel depth HC HD HF) as (h' & E & HR).
  pose proof (erases_rc arc fuel depth x h 0) as HE. rewrite E in HE. destruct HE as (w & EW & _). cbn [Nat.add] in EW.
  destruct (rc_work_bound arc fuel depth HC EW) as (HB & HW). unfold bc in *.
  exists h', w, (branch_cells h - branch_cells h'). split; [exact EW|]. split; [exact E|]. split; [exact HR|]. split; [lia|exact HW].
Qed.

(** It is linear, as for boxes, if no branch that can be reached has other
    references; a depth of two is then enough. *)
Theorem C50_unshared : forall X arc (h : heap X) K x fuel depth, consistent h (x :: K) ->
  (forall y, reach h [x] y -> shared_branch h y = false) ->
  2 <= depth -> branch_cells h * branch_cells h + branch_cells h < fuel ->
  exists h' w freed, rc_work arc fuel depth x (h, 0) = Ok (tt, (h', w)) /\
    rc_drop arc fuel depth x h = Ok (tt, h') /\ released K h h' /\
    branch_cells h = branch_cells h' + freed /\ w <= 11 * freed + 1.
Proof.
  intros X arc h K x fuel depth HC HU HD HF. destruct (@C45_unshared X arc h K x fuel depth HC HU HD HF) as (h' & E & HR).
  pose proof (erases_rc arc fuel depth x h 0) as HE. rewrite E in HE. destruct HE as (w & EW & _). cbn [Nat.add] in EW.
  destruct (rc_work_bound arc fuel depth HC EW) as (HB & _). unfold bc in *.
  assert (HW : w + 11 * branch_cells h' <= 11 * branch_cells h + 1).
  { apply (@rc_work_unshared X arc fuel depth h K x h' w HC HU); [unfold bc; lia|exact EW]. }
  exists h', w, (branch_cells h - branch_cells h'). split; [exact EW|]. split; [exact E|]. split; [exact HR|]. split; lia.
Qed.

(** It is not linear in general: for every number there is a list of so many cells and three
    more, with the elements and the tail shared, whose drop takes quadratic work,
    no matter how much fuel and depth is given. *)
Theorem C50_quadratic : forall X arc n, exists (h : heap X) x K, consistent h (x :: K) /\ length (cells h) = n + 3 /\
  forall fuel depth, branch_cells h < depth -> branch_cells h * branch_cells h + branch_cells h < fuel ->
  exists h' w, rc_work arc fuel depth x (h, 0) = Ok (tt, (h', w)) /\ rc_drop arc fuel depth x h = Ok (tt, h') /\
    2 * ((n + 1) * n) <= w.
Proof.
  intros X arc n. exists (long n), (n + 2), [0]. split; [apply long_consistent|]. split; [apply long_length|].
  intros fuel depth HD HF. destruct (@C50_rc X arc (long n) [0] (n + 2) fuel depth (long_consistent n) HD HF) as (h' & w & _ & EW & E & _).
  exists h', w. split; [exact EW|]. split; [exact E|]. exact (long_work _ _ _ _ EW).
Qed.

(** No multiple of the number of cells is enough. *)
Theorem C50_refuted : forall X arc c, exists (h : heap X) x K, consistent h (x :: K) /\
  forall fuel depth, branch_cells h < depth -> branch_cells h * branch_cells h + branch_cells h < fuel ->
  exists h' w, rc_work arc fuel depth x (h, 0) = Ok (tt, (h', w)) /\ rc_drop arc fuel depth x h = Ok (tt, h') /\
    c * length (cells h) < w.
Proof.
  intros X arc c. destruct (@C50_quadratic X arc (c + 2)) as (h & x & K & HC & HL & HQ). exists h, x, K. split; [exact HC|].
  intros fuel depth HD HF. destruct (HQ fuel depth HD HF) as (h' & w & EW & E & HW). exists h', w. split; [exact EW|]. split; [exact E|]. rewrite HL. nia.
Qed.

(** The counter is an addition: the code with it does and returns what the code
    without it does, with every fuel and depth, also if it does not end. *)
Theorem C50_counter : forall X arc fuel depth x (h : heap X),
  rc_drop arc fuel depth x h =
    match rc_work arc fuel depth x (h, 0) with
    | Ok (u, (h', _)) => Ok (u, h')
    | Err e => Err e
    | Panic => Panic
    | OutOfFuel => OutOfFuel
    end.
Proof.
  intros X arc fuel depth x h. pose proof (erases_rc arc fuel depth x h 0) as HE. destruct (rc_drop arc fuel depth x h) as [[a h']|e| |].
  - destruct HE as (k & -> & _). reflexivity.
  - destruct e.
  - rewrite HE. reflexivity.
  - rewrite HE. reflexivity.
Qed.

Print Assumptions C50_box.
Print Assumptions C50_shared.
Print Assumptions C50_rc.
Print Assumptions C50_unshared.
Print Assumptions C50_quadratic.
Print Assumptions C50_refuted.
Print Assumptions C50_counter.

(** * Cases *)
Definition work_of {H} (r : res Empty_set (unit * (H * nat))) : option nat := match r with Ok (_, (_, w)) => Some w | _ => None end.

Example C50_case_box : branch_count box_tree = 4 /\ work_of (box_work 8 2 box_tree ([], 0)) = Some 25.
Proof. split; vm_compute; reflexivity. Qed.

Example C50_case_shared : s_branch_count shared_tree = 4 /\ work_of (s_work alternating 21 5 shared_tree (SState 0 [], 0)) = Some 26.
Proof. split; vm_compute; reflexivity. Qed.

(** [two_lists] is consistent by [C36_case]; two branches are freed. *)
Example C50_case_rc : work_of (rc_work false 21 5 2 (two_lists, 0)) = Some 13.
Proof. vm_compute. reflexivity. Qed.

(** [shared_leaf] meets the hypotheses by [C45_case_unshared]; three branches are freed. *)
Example C50_case_unshared : work_of (rc_work true 13 2 0 (shared_leaf, 0)) = Some 20.
Proof. vm_compute. reflexivity. Qed.

Example C50_case_long : length (cells (long (X := nat) 10)) = 13 /\ branch_cells (long (X := nat) 10) = 12 /\
  work_of (rc_work (X := nat) true 200 13 12 (long 10, 0)) = Some 305 /\
  work_of (rc_work (X := nat) true 1000 23 22 (long 20, 0)) = Some 1000.
Proof. split; [reflexivity|]. split; [reflexivity|]. split; vm_compute; reflexivity. Qed.
