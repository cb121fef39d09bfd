(** The notation's grammar with the meaning of each form, written independently of
    the parser.  Sources and texts are lists of items (characters with their
    positions).  [W] is the state of the combiners: forms are evaluated from
    left to right, operators before operands, innermost first. *)
From Coq Require Import List NArith Bool.
From Verif.Model Require Import Prelude Parser.
Import ListNotations.
Set Implicit Arguments.

(** "Do not make more than one of the predicate methods return [true] for the
    same [char]", core/src/parser.rs 47-48. *)
Record disjoint_classes (cc : classifier) : Prop := {
  dc_start : forall c, is_nest_start cc c = true ->
    is_nest_end cc c = false /\ is_nest_escape cc c = false /\ is_whitespace cc c = false;
  dc_end : forall c, is_nest_end cc c = true ->
    is_nest_escape cc c = false /\ is_whitespace cc c = false;
  dc_escape : forall c, is_nest_escape cc c = true -> is_whitespace cc c = false }.

Section Grammar.
Context {W ET Pos CE : Type}.
Local Notation source := (list (item Pos)).
Local Notation text := (list (item Pos)).
Local Notation dat := (datum text ET).
Context (cc : classifier) (bnd : bindings W text ET Pos CE).

Definition starts (x : item Pos) : Prop := is_nest_start cc (it_ch x) = true.
Definition ends (x : item Pos) : Prop := is_nest_end cc (it_ch x) = true.
Definition escapes (x : item Pos) : Prop := is_nest_escape cc (it_ch x) = true.
Definition white (x : item Pos) : Prop := is_whitespace cc (it_ch x) = true.

(** Characters that can not occur unescaped in a text, and in an operator text. *)
Definition delimiter (c : char) : bool := is_nest_start cc c || is_nest_end cc c.
Definition operator_delimiter (c : char) : bool := is_whitespace cc c || delimiter c.

(** [raw stop s t]: [s] is a text in source form, [t] its characters. *)
Inductive raw (stop : char -> bool) : source -> text -> Prop :=
| raw_nil : raw stop [] []
| raw_plain x s t :
    stop (it_ch x) = false -> ~ escapes x -> raw stop s t -> raw stop (x :: s) (x :: t)
| raw_escaped x y s t : escapes x -> raw stop s t -> raw stop (x :: y :: s) (y :: t).

(** [quoted s t]: [s] is unparsed operands text, with balanced nests in it; [t]
    is [s] without the escaping characters. *)
Inductive quoted : source -> text -> Prop :=
| q_nil : quoted [] []
| q_plain x s t :
    delimiter (it_ch x) = false -> ~ escapes x -> quoted s t -> quoted (x :: s) (x :: t)
| q_escaped x y s t : escapes x -> quoted s t -> quoted (x :: y :: s) (y :: t)
| q_nest a s1 t1 b s2 t2 :
    starts a -> quoted s1 t1 -> ends b -> quoted s2 t2 ->
    quoted (a :: s1 ++ b :: s2) (a :: t1 ++ b :: t2).

(** The datum for a list of operands. *)
Definition dlist (ds : list dat) : dat := fold_right DList DEmptyList ds.

(** [sep is_text sp body]: [sp] separates the operator (a text if [is_text],
    otherwise a nest) from the operands: one whitespace character, or nothing if
    the operands can not be mistaken for it or for more of the operator. *)
Definition sep (is_text : bool) (sp body : source) : Prop :=
  (exists x, sp = [x] /\ white x) \/
  (sp = [] /\ match body with
              | [] => True
              | x :: _ => if is_text then starts x else ~ white x
              end).

(** [forms eof b w s ds w' b']: [s] is a sequence of forms with values [ds],
    taking the combiners' state from [w] to [w'].  [b]: a text comes directly
    before; [b']: a text comes last.  [eof]: [s] is followed by the end of input
    and not inside a nest, which allows a dangling escape character.

    [nest w s r w']: [s] is a nest form from its start to its end delimiter; [r]
    its value: [inl (Some d)], [inl None] (removed by a combiner) or [inr e] (a
    combiner's error).

    [lead w s w']: [s] is whitespace, and forms that are removed, before an
    operator.

    [head w s d is_text w']: [s] is an operator form with value [d]. *)
Inductive forms : bool -> bool -> W -> source -> list dat -> W -> bool -> Prop :=
| f_nil eof b w : forms eof b w [] [] w b
| f_text eof w s t s' ds w' b' :
    s <> [] -> raw delimiter s t -> forms eof true w s' ds w' b' ->
    forms eof false w (s ++ s') (DText t :: ds) w' b'
| f_dangling w s t x :
    raw delimiter s t -> escapes x ->
    forms true false w (s ++ [x]) [DText t] w true
| f_nest eof b w s d w1 s' ds w' b' :
    nest w s (inl (Some d)) w1 -> forms eof false w1 s' ds w' b' ->
    forms eof b w (s ++ s') (d :: ds) w' b'
| f_removed eof b w s w1 s' ds w' b' :
    nest w s (inl None) w1 -> forms eof false w1 s' ds w' b' ->
    forms eof b w (s ++ s') ds w' b'
with nest : W -> source -> option dat + error Pos CE -> W -> Prop :=
| n_empty w x l y w' :
    starts x -> lead w l w' -> ends y ->
    nest w (x :: l ++ [y]) (inl (Some DEmptyNest)) w'
| n_unbound w x l w1 h d is_text w2 sp body ds w' b' y :
    starts x -> lead w l w1 -> head w1 h d is_text w2 -> bnd d = None ->
    sep is_text sp body -> forms false false w2 body ds w' b' -> ends y ->
    nest w (x :: l ++ h ++ sp ++ body ++ [y]) (inl (Some (DComb d (dlist ds)))) w'
| n_applicative w x l w1 h d is_text w2 f sp body ds w3 b' y r w' :
    starts x -> lead w l w1 -> head w1 h d is_text w2 -> bnd d = Some (Applicative f) ->
    sep is_text sp body -> forms false false w2 body ds w3 b' -> ends y ->
    f d (dlist ds) w3 = (r, w') ->
    nest w (x :: l ++ h ++ sp ++ body ++ [y]) r w'
| n_operative w x l w1 h d is_text w2 f sp body t y r w' :
    starts x -> lead w l w1 -> head w1 h d is_text w2 -> bnd d = Some (Operative f) ->
    sep is_text sp body -> quoted body t -> ends y ->
    f d t w2 = (r, w') ->
    nest w (x :: l ++ h ++ sp ++ body ++ [y]) r w'
with lead : W -> source -> W -> Prop :=
| l_nil w : lead w [] w
| l_white w x s w' : white x -> lead w s w' -> lead w (x :: s) w'
| l_removed w s w1 s' w' :
    nest w s (inl None) w1 -> lead w1 s' w' -> lead w (s ++ s') w'
with head : W -> source -> dat -> bool -> W -> Prop :=
| h_text w s t : s <> [] -> raw operator_delimiter s t -> head w s (DText t) true w
| h_nest w s d w' : nest w s (inl (Some d)) w' -> head w s d false w'.

(** A whole input. *)
Definition input (w : W) (s : source) (ds : list dat) (w' : W) : Prop :=
  exists b', forms true false w s ds w' b'.

End Grammar.

Scheme forms_mind := Minimality for forms Sort Prop
  with nest_mind := Minimality for nest Sort Prop
  with lead_mind := Minimality for lead Sort Prop
  with head_mind := Minimality for head Sort Prop.
Combined Scheme grammar_mind from forms_mind, nest_mind, lead_mind, head_mind.
