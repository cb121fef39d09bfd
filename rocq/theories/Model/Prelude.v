(** Common vocabulary of the model: characters, source items, results with
    explicit panics, and datum / error types.  Definitions only. *)
From Coq Require Import List NArith Bool.
Import ListNotations.
Set Implicit Arguments.

(** A Rust [char]: modelled as a number.  Where it matters (UTF-8) it is
    required to be a Unicode scalar value, see [Utf8.v]. *)
Definition char := N.

(** [SourceIterItem], core/src/lib.rs 137-143. *)
Record item (Pos : Type) : Type := Item { it_ch : char; it_pos : Pos }.
Arguments Item {Pos} _ _.
Arguments it_ch {Pos} _.
Arguments it_pos {Pos} _.

(** Outcome of running a piece of Rust code.
    [Ok]/[Err] are the two cases of Rust's [Result] (for functions that do not
    return [Result], [E] is [Empty_set]).  [Panic] is any panic, including a failed
    [debug_assert!], [unreachable!], [unwrap] of [None], an out-of-range slice
    and arithmetic over/underflow (checked, as in debug builds).  [OutOfFuel] is an artefact of
    the model: the recursion bound given by the caller was too small. *)
Inductive res (E X : Type) : Type :=
| Ok (x : X)
| Err (e : E)
| Panic
| OutOfFuel.
Arguments Ok {E X} _.
Arguments Err {E X} _.
Arguments Panic {E X}.
Arguments OutOfFuel {E X}.

Definition res_bind {E X Y} (r : res E X) (k : X -> res E Y) : res E Y :=
  match r with Ok x => k x | Err e => Err e | Panic => Panic | OutOfFuel => OutOfFuel end.

Definition res_map {E X Y} (f : X -> Y) (r : res E X) : res E Y :=
  match r with Ok x => Ok (f x) | Err e => Err e | Panic => Panic | OutOfFuel => OutOfFuel end.

(** Change the error type. *)
Definition res_map_err {E E' X} (f : E -> E') (r : res E X) : res E' X :=
  match r with Ok x => Ok x | Err e => Err (f e) | Panic => Panic | OutOfFuel => OutOfFuel end.

(** A computation without [Err] used where an error type is expected. *)
Definition no_err {E X} (r : res Empty_set X) : res E X :=
  match r with Ok x => Ok x | Err e => match e with end | Panic => Panic | OutOfFuel => OutOfFuel end.

(** [AllocError], core/src/parser.rs 29-32. *)
Inductive alloc_error : Type := AllocExhausted.

(** [Error], core/src/error.rs 12-24.  ([ParserExtension]-like variants do not
    exist; [CE] is the combiner error type.) *)
Inductive error (Pos CE : Type) : Type :=
| UnbalancedEndChar (p : Pos)
| MissingEndChar
| FailedAlloc (e : alloc_error)
| FailedDerefTryMut
| FailedCombiner (e : CE).
Arguments UnbalancedEndChar {Pos CE} _.
Arguments MissingEndChar {Pos CE}.
Arguments FailedAlloc {Pos CE} _.
Arguments FailedDerefTryMut {Pos CE}.
Arguments FailedCombiner {Pos CE} _.

(** [Datum], core/src/datum.rs 17-46.  Simplification: a [DatumRef] (Box, Rc,
    Arc, or mutable borrow of a slot) is modelled by the datum it refers to
    (value semantics of ownership). *)
Inductive datum (TT ET : Type) : Type :=
| DText (t : TT)
| DComb (operator operands : datum TT ET)
| DEmptyNest
| DList (elem next : datum TT ET)
| DEmptyList
| DExtra (x : ET).
Arguments DText {TT ET} _.
Arguments DComb {TT ET} _ _.
Arguments DEmptyNest {TT ET}.
Arguments DList {TT ET} _ _.
Arguments DEmptyList {TT ET}.
Arguments DExtra {TT ET} _.
