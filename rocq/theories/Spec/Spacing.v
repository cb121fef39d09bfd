(** Sources that differ only in the whitespace directly after nest starts. *)
From Coq Require Import List NArith.
From Verif.Model Require Import Prelude Parser Utf8.
From Verif.Spec Require Import Grammar.
From Verif.Proofs Require Import Sim.
Import ListNotations.
Set Implicit Arguments.

Section Spacing.
Context {P1 P2 : Type} (cc : classifier) (Rp : P1 -> P2 -> Prop).

(** [respaced s1 s2]: the same characters, at positions related by [Rp], except
    that any whitespace [ws1] directly after an unescaped nest start in [s1] may
    be any other whitespace [ws2] in [s2]. *)
Inductive respaced : list (item P1) -> list (item P2) -> Prop :=
| sp_nil : respaced [] []
| sp_char x1 x2 s1 s2 : ~ starts cc x1 -> ~ escapes cc x1 -> item_rel Rp x1 x2 ->
    respaced s1 s2 -> respaced (x1 :: s1) (x2 :: s2)
| sp_dangling x1 x2 : escapes cc x1 -> item_rel Rp x1 x2 -> respaced [x1] [x2]
| sp_escaped x1 x2 y1 y2 s1 s2 : escapes cc x1 -> item_rel Rp x1 x2 -> item_rel Rp y1 y2 ->
    respaced s1 s2 -> respaced (x1 :: y1 :: s1) (x2 :: y2 :: s2)
| sp_start x1 x2 ws1 ws2 s1 s2 : starts cc x1 -> item_rel Rp x1 x2 ->
    Forall (white cc) ws1 -> Forall (white cc) ws2 ->
    respaced s1 s2 -> respaced (x1 :: ws1 ++ s1) (x2 :: ws2 ++ s2).
End Spacing.

(** No operator is bound to an operative (which gets the source text of its
    operands, and so sees all whitespace in it). *)
Definition no_operatives {W TT ET Pos CE} (bnd : bindings W TT ET Pos CE) : Prop :=
  forall d f, bnd d <> Some (Operative f).

(** Whether a character after [u] would be escaped. *)
Fixpoint esc_chars (cc : classifier) (esc : bool) (u : str) : bool :=
  match u with
  | [] => esc
  | c :: u' => esc_chars cc (if esc then false else is_nest_escape cc c) u'
  end.
