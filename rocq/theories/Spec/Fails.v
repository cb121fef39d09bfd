(** Where in a source a combiner fails. *)
From Coq Require Import List NArith Bool.
From Verif.Model Require Import Prelude Parser.
From Verif.Spec Require Import Grammar.
Import ListNotations.
Set Implicit Arguments.

Section Fails.
Context {W ET Pos CE : Type}.
Local Notation source := (list (item Pos)).
Context (cc : classifier) (bnd : bindings W source ET Pos CE).

(** [fails w s e w']: [s] is the start of a nest form, up to and including the nest
    form in it, at any depth, whose combiner is the first to fail, with [e]. *)
Inductive fails : W -> source -> error Pos CE -> W -> Prop :=
| fails_here w s e w' : nest cc bnd w s (inr e) w' -> fails w s e w'
| fails_operator w x l w1 s e w' :
    starts cc x -> lead cc bnd w l w1 -> fails w1 s e w' -> fails w (x :: l ++ s) e w'
| fails_operand w x l w1 h d is_text w2 sp body ds w3 b s e w' :
    starts cc x -> lead cc bnd w l w1 -> head cc bnd w1 h d is_text w2 ->
    match bnd d with Some (Operative _) => False | _ => True end ->
    sep cc is_text sp (body ++ s) -> forms cc bnd false false w2 body ds w3 b ->
    fails w3 s e w' -> fails w (x :: l ++ h ++ sp ++ body ++ s) e w'.
End Fails.
