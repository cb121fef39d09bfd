(** Writing datums in the notation. *)
From Coq Require Import List NArith Bool.
From Verif.Model Require Import Prelude Parser.
Import ListNotations.
Set Implicit Arguments.

(** One character of each class. *)
Record delimiters : Type := Delimiters { d_start : char; d_end : char; d_escape : char; d_white : char }.
Record delimiters_of (cc : classifier) (k : delimiters) : Prop := {
  do_start : is_nest_start cc (d_start k) = true;
  do_end : is_nest_end cc (d_end k) = true;
  do_escape : is_nest_escape cc (d_escape k) = true;
  do_white : is_whitespace cc (d_white k) = true }.

Section Render.
Context {ET : Type} (cc : classifier) (k : delimiters).

(** Characters that must be escaped in a text. *)
Definition special (c : char) : bool :=
  is_nest_start cc c || is_nest_end cc c || is_nest_escape cc c.

(** The escape character before every character that satisfies [p]. *)
Definition escape_where (p : char -> bool) (s : list char) : list char :=
  flat_map (fun c => if p c then [d_escape k; c] else [c]) s.

Definition escape_text : list char -> list char := escape_where special.
(** In operator position whitespace must be escaped too. *)
Definition escape_operator : list char -> list char :=
  escape_where (fun c => special c || is_whitespace cc c).

(** A datum where a form is expected, where an operator is expected, or as the list of
    operands. *)
Inductive place : Type := AsForm | AsOperator | AsOperands.
Fixpoint render (p : place) (d : datum (list char) ET) : list char :=
  match d with
  | DText t => match p with AsOperator => escape_operator t | _ => escape_text t end
  | DEmptyNest => [d_start k; d_end k]
  | DComb a b => d_start k :: render AsOperator a ++ d_white k :: render AsOperands b ++ [d_end k]
  | DList e n => render AsForm e ++ render AsOperands n
  | DEmptyList => []
  | DExtra _ => []
  end.

Definition render_all (ds : list (datum (list char) ET)) : list char := flat_map (render AsForm) ds.
End Render.
