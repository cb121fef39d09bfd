(** Sources that end inside a nest form, and the items of any source at all. *)
From Coq Require Import List NArith Bool.
From Verif.Model Require Import Prelude Parser.
From Verif.Spec Require Import Grammar Balance Fails.
Import ListNotations.
Set Implicit Arguments.

Section Unclosed.
Context {W ET Pos CE : Type}.
Local Notation source := (list (item Pos)).
Local Notation text := (list (item Pos)).
Context (cc : classifier) (bnd : bindings W source ET Pos CE).

(** [unclosed w s w']: [s] is the start of a nest form and ends inside it, at any
    depth; no combiner fails in it, and those of the forms in it that are complete
    take the state from [w] to [w']. *)
Inductive unclosed : W -> source -> W -> Prop :=
| uc_lead w x l w' :
    starts cc x -> lead cc bnd w l w' -> unclosed w (x :: l) w'
| uc_operator w x l w1 s w' :
    starts cc x -> lead cc bnd w l w1 -> unclosed w1 s w' -> unclosed w (x :: l ++ s) w'
| uc_dangling w x l w' h t z :
    starts cc x -> lead cc bnd w l w' -> raw cc (operator_delimiter cc) h t -> escapes cc z ->
    unclosed w (x :: l ++ h ++ [z]) w'
| uc_operands w x l w1 h d is_text w2 sp body ds w' b :
    starts cc x -> lead cc bnd w l w1 -> head cc bnd w1 h d is_text w2 ->
    match bnd d with Some (Operative _) => False | _ => True end ->
    sep cc is_text sp body -> forms cc bnd true false w2 body ds w' b ->
    unclosed w (x :: l ++ h ++ sp ++ body) w'
| uc_operand w x l w1 h d is_text w2 sp body ds w3 b s w' :
    starts cc x -> lead cc bnd w l w1 -> head cc bnd w1 h d is_text w2 ->
    match bnd d with Some (Operative _) => False | _ => True end ->
    sep cc is_text sp (body ++ s) -> forms cc bnd false false w2 body ds w3 b ->
    unclosed w3 s w' -> unclosed w (x :: l ++ h ++ sp ++ body ++ s) w'
| uc_operative w x l w1 h d is_text w' f sp body :
    starts cc x -> lead cc bnd w l w1 -> head cc bnd w1 h d is_text w' -> bnd d = Some (Operative f) ->
    sep cc is_text sp body -> (forall p, balance cc body <> Unmatched p) ->
    unclosed w (x :: l ++ h ++ sp ++ body) w'.

(** [run w s items w']: [items] is all that is returned for [s], and what the
    combiners do takes their state from [w] to [w'].  After an error: the rest of
    the source behind the combination whose combiner failed, or behind the end
    delimiter that does not match.  A text directly before such a delimiter is
    lost. *)
Inductive run : W -> source -> list (datum text ET + error Pos CE) -> W -> Prop :=
| run_all w s ds w' :
    input cc bnd w s ds w' -> run w s (map inl ds) w'
| run_fails w u ds w1 b f e w2 r items w' :
    forms cc bnd false false w u ds w1 b -> fails cc bnd w1 f e w2 -> run w2 r items w' ->
    run w (u ++ f ++ r) (map inl ds ++ inr e :: items) w'
| run_unmatched w u ds w1 b x r items w' :
    forms cc bnd false false w u ds w1 b -> ends cc x -> run w1 r items w' ->
    run w (u ++ x :: r) (map inl (if b then removelast ds else ds) ++ inr (UnbalancedEndChar (it_pos x)) :: items) w'
| run_unclosed w u ds w1 b s w' :
    forms cc bnd false false w u ds w1 b -> unclosed w1 s w' ->
    run w (u ++ s) (map inl ds ++ [inr MissingEndChar]) w'.
End Unclosed.
