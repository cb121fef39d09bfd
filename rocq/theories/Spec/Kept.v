(** Which characters of an input end up in texts, decided by reading the input
    once from left to right. *)
From Coq Require Import List NArith Bool.
From Verif.Model Require Import Prelude Parser.
Import ListNotations.
Set Implicit Arguments.

(** Where in the innermost open nest (or outside all nests, [InForms]) the
    reader is: before the operator, inside an operator text, directly after an
    operator nest, or among the operands. *)
Inductive where_ : Type := BeforeOperator | InOperator | AfterOperator | InForms.

Section Kept.
Context {Pos : Type} (cc : classifier).

(** The position after a form that starts at this position. *)
Definition after_nest (p : where_) : where_ :=
  match p with BeforeOperator => AfterOperator | _ => InForms end.
Definition after_char (p : where_) : where_ :=
  match p with BeforeOperator | InOperator => InOperator | _ => InForms end.

(** Reader: enclosing positions to return to, position, whether the previous
    character escapes. *)
Record reader : Type := Reader { rd_outer : list where_; rd_at : where_; rd_esc : bool }.

(** Reading one character: whether it is kept, and the reader after. *)
Definition read (r : reader) (x : item Pos) : bool * reader :=
  let c := it_ch x in
  let keep := (true, Reader (rd_outer r) (after_char (rd_at r)) false) in
  if rd_esc r then keep
  else if is_nest_escape cc c then (false, Reader (rd_outer r) (rd_at r) true)
  else if is_nest_start cc c then (false, Reader (after_nest (rd_at r) :: rd_outer r) BeforeOperator false)
  else if is_nest_end cc c then
    (false, match rd_outer r with
            | p :: o => Reader o p false
            | [] => r
            end)
  else if is_whitespace cc c then
    match rd_at r with
    | BeforeOperator => (false, r)
    | InOperator | AfterOperator => (false, Reader (rd_outer r) InForms false)
    | InForms => keep
    end
  else keep.

Fixpoint read_all (r : reader) (s : list (item Pos)) : list (item Pos) * reader :=
  match s with
  | [] => ([], r)
  | x :: s' => let (k, r1) := read r x in
               let (l, r2) := read_all r1 s' in
               (if k then x :: l else l, r2)
  end.

Definition kept (s : list (item Pos)) : list (item Pos) := fst (read_all (Reader [] InForms false) s).
End Kept.

(** All characters in the texts of a datum, in order. *)
Fixpoint texts_of {C ET} (d : datum (list C) ET) : list C :=
  match d with
  | DText t => t
  | DComb a b => texts_of a ++ texts_of b
  | DList a b => texts_of a ++ texts_of b
  | _ => []
  end.
