(** How deep unescaped nest delimiters nest in a source: a counter over its
    characters (unmatched ends do not count). *)
From Coq Require Import List NArith Bool.
From Verif.Model Require Import Prelude Parser.
Import ListNotations.
Set Implicit Arguments.

Section Nesting.
Context {Pos : Type} (cc : classifier).

(** [deepest esc d s]: the largest value of the counter, which is [d] now; [esc]:
    the character before escapes. *)
Fixpoint deepest (esc : bool) (d : nat) (s : list (item Pos)) : nat :=
  match s with
  | [] => d
  | x :: s' =>
      if esc then deepest false d s'
      else if is_nest_escape cc (it_ch x) then deepest true d s'
      else if is_nest_start cc (it_ch x) then deepest false (S d) s'
      else if is_nest_end cc (it_ch x) then Nat.max d (deepest false (Nat.pred d) s')
      else deepest false d s'
  end.

Definition nesting (s : list (item Pos)) : nat := deepest false 0 s.
End Nesting.
