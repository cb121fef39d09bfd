(** Where in a nest form another nest form is. *)
From Coq Require Import List NArith Bool.
From Verif.Model Require Import Prelude Parser.
From Verif.Spec Require Import Grammar Balance.
Import ListNotations.
Set Implicit Arguments.

Section Inside.
Context {W ET Pos CE : Type}.
Local Notation source := (list (item Pos)).
Local Notation dat := (datum source ET).
Local Notation result := (option dat + error Pos CE)%type.
Context (cc : classifier) (bnd : bindings W source ET Pos CE).

(** The operator [d], which is not an operative, on parsed operands. *)
Definition applied (d : dat) (ds : list dat) (w : W) (r : result) (w' : W) : Prop :=
  match bnd d with
  | None => r = inl (Some (DComb d (dlist ds))) /\ w' = w
  | Some (Applicative f) => f d (dlist ds) w = (r, w')
  | Some (Operative _) => False
  end.

Definition option_list (o : option dat) : list dat := match o with Some d => [d] | None => [] end.

(** [inside w1 s r1 w2 w S r w']: [S] is a nest form with [s] in it, at any depth.
    Provided that the value of [s] is [r1], taking the combiners' state from [w1]
    to [w2], the value of [S] is [r], taking it from [w] to [w'].  Nothing is
    assumed about [s] itself. *)
Inductive inside (w1 : W) (s : source) (r1 : result) (w2 : W) : W -> source -> result -> W -> Prop :=
| in_itself : inside w1 s r1 w2 w1 s r1 w2
| in_lead w x l wa S wb rest r w' :
    starts cc x -> lead cc bnd w l wa -> inside w1 s r1 w2 wa S (inl None) wb -> nest cc bnd wb (x :: rest) r w' ->
    inside w1 s r1 w2 w (x :: l ++ S ++ rest) r w'
| in_operator w x l wa S d wb sp body ds wc b y r w' :
    starts cc x -> lead cc bnd w l wa -> inside w1 s r1 w2 wa S (inl (Some d)) wb ->
    sep cc false sp body -> forms cc bnd false false wb body ds wc b -> ends cc y -> applied d ds wc r w' ->
    inside w1 s r1 w2 w (x :: l ++ S ++ sp ++ body ++ [y]) r w'
| in_operator_quoted w x l wa S d wb f sp body y r w' :
    starts cc x -> lead cc bnd w l wa -> inside w1 s r1 w2 wa S (inl (Some d)) wb ->
    bnd d = Some (Operative f) -> sep cc false sp body ->
    balance cc body = Balanced -> esc_after cc false body = false -> ends cc y ->
    f d (unescape cc false body) wb = (r, w') ->
    inside w1 s r1 w2 w (x :: l ++ S ++ sp ++ body ++ [y]) r w'
| in_operand w x l wa h d is_text wb sp u ds wc b S o wd v ds' we b' y r w' :
    starts cc x -> lead cc bnd w l wa -> head cc bnd wa h d is_text wb -> sep cc is_text sp (u ++ S ++ v) ->
    forms cc bnd false false wb u ds wc b -> inside w1 s r1 w2 wc S (inl o) wd ->
    forms cc bnd false false wd v ds' we b' -> ends cc y -> applied d (ds ++ option_list o ++ ds') we r w' ->
    inside w1 s r1 w2 w (x :: l ++ h ++ sp ++ (u ++ S ++ v) ++ [y]) r w'.
End Inside.
