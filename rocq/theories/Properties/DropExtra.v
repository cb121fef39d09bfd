(** Dropping boxes when texts or extras hold boxes themselves: C67. *)
From Coq Require Import List Arith Lia Permutation.
From Verif.Model Require Import Prelude Drop DropValue DropExtra.
From Verif.Spec Require Import Drops DropExtras.
From Verif.Proofs Require Import DropFacts DropExtraFacts.
Import ListNotations.

(** C67: dropping a box ends, frees all memory and drops all values, once each,
    also if the values in leaves hold boxes, which may again hold values that do.  The depth is at
    most two for every level of such trees in values. *)
Theorem C67_extras : forall V (r : bref (deep V)) fuel depth, 2 * most_branches r <= fuel -> 2 * S (level r) <= depth ->
  exists evs, deep_drop fuel depth r [] = Ok (tt, evs) /\ Permutation evs (everything r).
Proof. intros V r fuel depth HF HD. apply (deep_drop_all r [] HF HD). Qed.

(** The depth is not bounded by a constant as it is without (C33): for every number there
    is a value in a box in a value and so on of that many levels, whose drop
    recurses deeper than that number. *)
Theorem C67_refuted : forall V (v : V) n, exists r : bref (deep V), level r = n /\ length (everything r) = 2 * (n + 1) /\
  forall fuel depth, depth <= n -> deep_drop fuel depth r [] = OutOfFuel.
Proof.
  intros V v n. exists (nested v n). split; [|split; [|intros fuel depth HD; apply nested_deep; exact HD]].
  - induction n as [|n IH]; [reflexivity|]. unfold level in *. cbn [nested max_leaf level_of map list_max fold_right]. rewrite IH. lia.
  - induction n as [|n IH]; [reflexivity|]. unfold everything in *. cbn [nested with_leaves everything_of flat_map length]. rewrite app_nil_r, IH. lia.
Qed.

Print Assumptions C67_extras.
Print Assumptions C67_refuted.

(** * Cases *)

(** A combination of an extra (1) and a list.  The extra holds a list (10) and a leaf (20), which holds another leaf. *)
Definition extra_tree : bref (deep nat) :=
  BRef 0 (NComb
    (BRef 1 (NLeaf (Some (Deep 100
      [BRef 10 (NList (BRef 11 (NLeaf (Some (Deep 110 [])))) (BRef 12 (NLeaf None)));
       BRef 20 (NLeaf (Some (Deep 200 [BRef 21 (NLeaf (Some (Deep 210 [])))])))]))))
    (BRef 2 (NList (BRef 3 (NLeaf (Some (Deep 300 [])))) (BRef 4 (NLeaf None))))).
Example C67_case : level extra_tree = 2 /\ most_branches extra_tree = 2 /\
  deep_drop 4 6 extra_tree [] = Ok (tt, [Dropped 100; Freed 12; Dropped 110; Freed 11; Freed 10; Dropped 200; Dropped 210; Freed 21; Freed 20;
    Freed 1; Freed 2; Freed 4; Dropped 300; Freed 3; Freed 0]) /\
  length (everything extra_tree) = 15 /\
  deep_drop 4 3 extra_tree [] = OutOfFuel.
Proof. repeat split; vm_compute; reflexivity. Qed.

Example C67_case_nested : deep_drop 100 5 (nested 7 5) [] = OutOfFuel /\ exists evs, deep_drop 100 12 (nested 7 5) [] = Ok (tt, evs).
Proof. split; [vm_compute; reflexivity|eexists; vm_compute; reflexivity]. Qed.
