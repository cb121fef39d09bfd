(** Sources one after the other. *)
From Coq Require Import List NArith Arith.
From Verif.Model Require Import Prelude Parser Iter Utf8 PosStr.
From Verif.Spec Require Import Contract Grammar Balance.
From Verif.Proofs Require Import Sim Refine.
Import ListNotations.
Set Implicit Arguments.

(** The first does not end in the middle of an escape, and: one of them is empty, or
    the first ends with an unescaped nest end, or the second starts with a nest
    start. *)
Definition separate {Pos} (cc : classifier) (u v : list (item Pos)) : Prop :=
  esc_after cc false u = false /\
  (u = [] \/ v = [] \/ (exists u' y, u = u' ++ [y] /\ ends cc y /\ esc_after cc false u' = false) \/
   (exists y v', v = y :: v' /\ starts cc y)).

(** The position [p] is [k] characters, or [b] bytes, further in its string than [p']
    is in its own. *)
Definition moved (k b : N) (p p' : strpos) : Prop :=
  sp_char p = (sp_char p' + k)%N /\ sp_byte p = (sp_byte p' + b)%N.

(** Bindings that do not depend on where in the source a form is: they do the same
    with texts of the same characters that are only moved. *)
Definition position_blind {W ET CE} (bnd : bindings W (list (item strpos)) ET strpos CE) : Prop :=
  forall k b, bindings_sim bnd bnd False eq (Forall2 (item_rel (moved k b))) eq (moved k b) eq.
