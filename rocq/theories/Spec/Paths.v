(** Paths in datums. *)
From Coq Require Import List NArith.
From Verif.Model Require Import Prelude.
Import ListNotations.
Set Implicit Arguments.

(** [side_edges d n]: there is a path from [d] downwards with [n] operands or
    element edges (and any number of operator and next edges). *)
Inductive side_edges {TT ET : Type} : datum TT ET -> nat -> Prop :=
| se_here d : side_edges d 0
| se_operator rtr rnds n : side_edges rtr n -> side_edges (DComb rtr rnds) n
| se_operands rtr rnds n : side_edges rnds n -> side_edges (DComb rtr rnds) (S n)
| se_elem e l n : side_edges e n -> side_edges (DList e l) (S n)
| se_next e l n : side_edges l n -> side_edges (DList e l) n.

(** A datum without parts. *)
Definition leaf {TT ET} (d : datum TT ET) : Prop :=
  match d with DComb _ _ | DList _ _ => False | _ => True end.

(** The list of these elements. *)
Fixpoint list_datum {TT ET} (ds : list (datum TT ET)) : datum TT ET :=
  match ds with [] => DEmptyList | d :: ds' => DList d (list_datum ds') end.

(** [n] nests, each the operator of the one around it, with operands [l]. *)
Fixpoint operator_nests {TT ET} (n : nat) (d l : datum TT ET) : datum TT ET :=
  match n with O => d | S n' => DComb (operator_nests n' d l) l end.

(** [n] nests, each the only operand of the one around it. *)
Fixpoint operand_nests {TT ET} (n : nat) (d : datum TT ET) : datum TT ET :=
  match n with O => d | S n' => DComb d (DList (operand_nests n' d) DEmptyList) end.

(** [edges d n]: there is a path from [d] downwards with [n] edges of any kind. *)
Inductive edges {TT ET : Type} : datum TT ET -> nat -> Prop :=
| ed_here d : edges d 0
| ed_operator rtr rnds n : edges rtr n -> edges (DComb rtr rnds) (S n)
| ed_operands rtr rnds n : edges rnds n -> edges (DComb rtr rnds) (S n)
| ed_elem e l n : edges e n -> edges (DList e l) (S n)
| ed_next e l n : edges l n -> edges (DList e l) (S n).
