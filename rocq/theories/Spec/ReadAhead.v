(** How far a source stream has read ahead of what it has given out. *)
From Coq Require Import List NArith.
From Verif.Model Require Import Prelude Parser.
Set Implicit Arguments.

(** [Rd s b]: nothing beyond the items given out has been asked of what the
    stream reads from, except that with [b] the next item may have been.
    Looking at an item reads it; giving it out uses it up; the accumulated text is
    made without reading. *)
Record reads_ahead {S A TT Pos} (so : stream_ops S A TT Pos) (Rd : S -> bool -> Prop) : Prop := {
  rd_weaken : forall s, Rd s false -> Rd s true;
  rd_peek : forall s b o s', Rd s b -> s_peek so s = (Ok o, s') -> Rd s' true;
  rd_next : forall s b o s', Rd s b -> s_next so s = (Ok o, s') ->
    Rd s' match o with Some _ => false | None => true end;
  rd_next_accum : forall s a b o s' a', Rd s b -> s_next_accum so s a = (Ok o, (s', a')) ->
    Rd s' match o with Some _ => false | None => true end;
  rd_next_accum_err : forall s a b e s' a', Rd s b -> s_next_accum so s a = (Err e, (s', a')) -> Rd s' true;
  rd_accum_done : forall s a b t s' a', Rd s b -> s_accum_done so s a = (Ok t, (s', a')) -> Rd s' b;
  rd_accum_done_err : forall s a b e s' a', Rd s b -> s_accum_done so s a = (Err e, (s', a')) -> Rd s' b }.

(** Errors known as soon as a character has been read, and that are not due to
    the end of the source or to a lack of memory. *)
Definition at_a_character {Pos CE} (e : error Pos CE) : Prop :=
  match e with
  | UnbalancedEndChar _ | FailedCombiner _ => True
  | MissingEndChar | FailedAlloc _ | FailedDerefTryMut => False
  end.
