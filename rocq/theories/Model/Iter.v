(** Consuming a [ParseIter]. *)
From Coq Require Import List NArith.
From Verif.Model Require Import Prelude Parser.
Import ListNotations.
Set Implicit Arguments.

Section Iter.
Context {S A TT ET Pos CE : Type}.
Context (umax : N) (cc : classifier) (so : stream_ops S A TT Pos) (co : concat_ops A TT)
        (ao : alloc_ops A TT ET) (bnd : bindings A TT ET Pos CE).

(** [ParseIterItem], core/src/lib.rs 262-271: [inl] is [Ok], [inr] is [Err]. *)
Definition parse_item : Type := datum TT ET + error Pos CE.

(** [ParseIter::next], core/src/lib.rs 256-258: [transpose]. *)
Definition iter_next (fuel : nat) (st : pstate S A)
  : res Empty_set (option parse_item) * pstate S A :=
  match do_next umax cc so co ao bnd fuel st with
  | (Ok None, st') => (Ok None, st')
  | (Ok (Some d), st') => (Ok (Some (inl d)), st')
  | (Err e, st') => (Ok (Some (inr e)), st')
  | (Panic, st') => (Panic, st')
  | (OutOfFuel, st') => (OutOfFuel, st')
  end.

(** A [for] loop (or [collect]) over a [ParseIter] (its [Iterator] impl,
    core/src/lib.rs 244-259): all items up to the first [None], going on after
    errors.  [n] bounds the number of calls of [next]. *)
Fixpoint iter_collect (n fuel : nat) (st : pstate S A)
  : res Empty_set (list parse_item) * pstate S A :=
  match n with
  | O => (OutOfFuel, st)
  | Datatypes.S n' =>
      match iter_next fuel st with
      | (Ok None, st') => (Ok [], st')
      | (Ok (Some x), st') =>
          let (r, st'') := iter_collect n' fuel st' in (res_map (cons x) r, st'')
      | (Err e, st') => (Err e, st')
      | (Panic, st') => (Panic, st')
      | (OutOfFuel, st') => (OutOfFuel, st')
      end
  end.

(** [r.is_err()] *)
Definition is_err (x : parse_item) : bool :=
  match x with inl _ => false | inr _ => true end.

(** The closure given to [take_while], src/common/helper.rs 17-26 and
    core/src/premade/inmem.rs 265-275: returns whether to go on and the new
    value of [already_errored]. *)
Definition keep_until_err (already_errored : bool) (x : parse_item) : bool * bool :=
  if already_errored then (false, already_errored)
  else (true, if is_err x then true else already_errored).

(** [pi.take_while(..).collect()], src/common/helper.rs 7-28: [take_while] calls
    [next] of the underlying iterator, then the closure, and stops at the first
    rejected item (which is dropped). *)
Fixpoint take_while_collect (n fuel : nat) (already_errored : bool) (st : pstate S A)
  : res Empty_set (list parse_item) * pstate S A :=
  match n with
  | O => (OutOfFuel, st)
  | Datatypes.S n' =>
      match iter_next fuel st with
      | (Ok None, st') => (Ok [], st')
      | (Ok (Some x), st') =>
          let (go, ae) := keep_until_err already_errored x in
          if go
          then let (r, st'') := take_while_collect n' fuel ae st' in
               (res_map (cons x) r, st'')
          else (Ok [], st')
      | (Err e, st') => (Err e, st')
      | (Panic, st') => (Panic, st')
      | (OutOfFuel, st') => (OutOfFuel, st')
      end
  end.

(** [collect_up_to_first_err], src/common/helper.rs 7-28. *)
Definition collect_up_to_first_err (n fuel : nat) (st : pstate S A) :=
  take_while_collect n fuel false st.

End Iter.
