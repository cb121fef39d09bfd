(** What a parser does at a form, and how results of two parsers agree. *)
From Coq Require Import List NArith.
From Verif.Model Require Import Prelude Parser Iter.
From Verif.Spec Require Import Contract Run Lawful.
From Verif.Proofs Require Import Sim Refine.
Import ListNotations.
Set Implicit Arguments.

(** No combiner ever returns this error. *)
Definition no_combiner_returns {W TT ET Pos CE} (bnd : bindings W TT ET Pos CE) (e : error Pos CE) : Prop :=
  forall d c, bnd d = Some c ->
  match c with
  | Operative f => forall d t w w', f d t w <> (inr e, w')
  | Applicative f => forall d l w w', f d l w <> (inr e, w')
  end.

Section Outcome.
Context {S A TT ET Pos CE W AE AC : Type}.
Local Notation text := (list (item Pos)).
Context (umax : N) (cc : classifier) (so : stream_ops S A TT Pos) (co : concat_ops A TT)
        (ao : alloc_ops A TT ET) (bnd : bindings A TT ET Pos CE).
Context (view : A -> W) (Rs : S -> text -> text -> Prop) (Rt : TT -> text -> Prop)
        (Rx : ET -> AE -> Prop) (Rc : CE -> AC -> Prop).

(** Two lists of items stand for the same abstract items. *)
Definition agree (items1 items2 : list (datum TT ET + error Pos CE)) : Prop :=
  exists aitems : list (datum text AE + error Pos AC),
    Forall2 (pitem_rel Rt Rx eq Rc) items1 aitems /\ Forall2 (pitem_rel Rt Rx eq Rc) items2 aitems.

(** [outcome st r rest w']: a datum is returned by [next], and so is an error, and
    the parser goes on with [rest] and the combiners' state [w'].  If there
    is neither then the items are those of [rest]. *)
Definition outcome (st : pstate S A) (r : option (datum text AE) + error Pos AC) (rest : text) (w' : W) : Prop :=
  match r with
  | inl (Some ad) => exists d st', nexts umax cc so co ao bnd st [Some (inl d)] st' /\
      datum_rel Rt Rx d ad /\ starts_on Rs view st' rest w'
  | inr ae => exists e st', nexts umax cc so co ao bnd st [Some (inr e)] st' /\
      error_rel eq Rc e ae /\ starts_on Rs view st' rest w'
  | inl None => forall st0 items0 st0', starts_on Rs view st0 rest w' ->
      iterates umax cc so co ao bnd st0 items0 st0' ->
      exists items st', iterates umax cc so co ao bnd st items st' /\ agree items items0 /\
        view (ps_alloc st') = view (ps_alloc st0')
  end.
End Outcome.
