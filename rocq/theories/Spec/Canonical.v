(** Datums of the base syntax in canonical shape. *)
From Coq Require Import List NArith.
From Verif.Model Require Import Prelude Parser.
Import ListNotations.
Set Implicit Arguments.

Section Canonical.
Context {C ET : Type}.
(** Texts are lists of characters (with or without positions). *)
Local Notation dat := (datum (list C) ET).

(** A list of operands as a datum: list cells ended by the empty list. *)
Definition proper_list (ds : list dat) : dat := fold_right DList DEmptyList ds.

(** [canon_seq b ds]: a sequence of nonempty texts and nests without texts next to
    each other; [b]: a text comes directly before. *)
Inductive canon_seq : bool -> list dat -> Prop :=
| cs_nil b : canon_seq b []
| cs_text t ds : t <> [] -> canon_seq true ds -> canon_seq false (DText t :: ds)
| cs_nest b d ds : canon_nest d -> canon_seq false ds -> canon_seq b (d :: ds)
with canon_nest : dat -> Prop :=
| cn_empty : canon_nest DEmptyNest
| cn_comb d ds : canon_operator d -> canon_seq false ds -> canon_nest (DComb d (proper_list ds))
with canon_operator : dat -> Prop :=
| co_text t : t <> [] -> canon_operator (DText t)
| co_nest d : canon_nest d -> canon_operator d.

(** A canonical sequence in which the last text may be empty (as for an input that
    ends with an escape character). *)
Definition canon_input (b : bool) (ds : list dat) : Prop :=
  canon_seq b ds \/
  exists ds', ds = ds' ++ [DText []] /\ forall t, t <> [] -> canon_seq b (ds' ++ [DText t]).

(** Items of a whole iteration: canonical sequences between errors about
    unbalanced nest ends; an unclosed nest is the last item. *)
Inductive canon_items {Pos CE} : list (dat + error Pos CE) -> Prop :=
| ci_end ds : canon_input false ds -> canon_items (map inl ds)
| ci_missing ds : canon_seq false ds -> canon_items (map inl ds ++ [inr MissingEndChar])
| ci_unbalanced ds p rest : canon_seq false ds -> canon_items rest ->
    canon_items (map inl ds ++ inr (UnbalancedEndChar p) :: rest).
End Canonical.

Scheme canon_seq_mind := Minimality for canon_seq Sort Prop
  with canon_nest_mind := Minimality for canon_nest Sort Prop
  with canon_operator_mind := Minimality for canon_operator Sort Prop.
Combined Scheme canon_mind from canon_seq_mind, canon_nest_mind, canon_operator_mind.
