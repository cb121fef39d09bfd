(** The lexicographic order of character sequences. *)
From Coq Require Import List NArith.
From Verif.Model Require Import Prelude.
Import ListNotations.
Set Implicit Arguments.

(** [u] comes before [v]: it is a proper prefix, or the first difference is a
    smaller character. *)
Definition lex_lt (u v : list char) : Prop :=
  exists p, (u = p /\ exists c r, v = p ++ c :: r) \/
            (exists a b r r', u = p ++ a :: r /\ v = p ++ b :: r' /\ (a < b)%N).
