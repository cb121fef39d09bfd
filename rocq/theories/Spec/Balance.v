(** Whether the unescaped nest delimiters of a source are balanced: a counter
    over its characters. *)
From Coq Require Import List NArith Bool.
From Verif.Model Require Import Prelude Parser.
Import ListNotations.
Set Implicit Arguments.

Inductive verdict (Pos : Type) : Type :=
| Balanced
| Unmatched (p : Pos)  (** the first nest end without a nest start, at [p] *)
| Unclosed.            (** the input ends inside a nest *)
Arguments Balanced {Pos}.
Arguments Unmatched {Pos} _.
Arguments Unclosed {Pos}.

Section Balance.
Context {Pos : Type} (cc : classifier).

(** [scan esc d s]: [d] nests are open; [esc]: the character before escapes. *)
Fixpoint scan (esc : bool) (d : N) (s : list (item Pos)) : verdict Pos :=
  match s with
  | [] => if (d =? 0)%N then Balanced else Unclosed
  | x :: s' =>
      if esc then scan false d s'
      else if is_nest_escape cc (it_ch x) then scan true d s'
      else if is_nest_start cc (it_ch x) then scan false (d + 1) s'
      else if is_nest_end cc (it_ch x) then
        if (d =? 0)%N then Unmatched (it_pos x) else scan false (d - 1) s'
      else scan false d s'
  end.

(** Whether a character after [s] would be escaped. *)
Fixpoint esc_after (esc : bool) (s : list (item Pos)) : bool :=
  match s with
  | [] => esc
  | x :: s' => esc_after (if esc then false else is_nest_escape cc (it_ch x)) s'
  end.

(** [s] without the characters that escape the next one. *)
Fixpoint unescape (esc : bool) (s : list (item Pos)) : list (item Pos) :=
  match s with
  | [] => []
  | x :: s' => if negb esc && is_nest_escape cc (it_ch x) then unescape true s' else x :: unescape false s'
  end.

Definition balance (s : list (item Pos)) : verdict Pos := scan false 0 s.

End Balance.
