(** The parser when combiners panic and the caller of [ParseIter::next] catches the
    panic ([std::panic::catch_unwind]) and goes on using the iterator.

    A combiner that panics is one that returns the error [FailedCombiner None]
    here (other errors of combiners are [FailedCombiner (Some ce)]), and a call of
    [next] that unwinds returns it.  Unwinding leaves every function like an error
    does at a [?], core/src/lib.rs 308-557, with what was done by way of [&mut]
    arguments kept.  The one difference is [*ndepth -= 1], core/src/lib.rs 337, which
    is done after [parse_nested] has returned an error but not when it unwinds.
    Simplification: what is dropped by unwinding has no effects (see Drop.v). *)
From Coq Require Import List NArith Bool.
From Verif.Model Require Import Prelude Parser Iter.
Import ListNotations.
Set Implicit Arguments.

(** The error that stands for a panic of a combiner, for core/src/combiner.rs
    34, 44. *)
Definition unwinding {Pos CE} (e : error Pos (option CE)) : bool :=
  match e with FailedCombiner None => true | _ => false end.

Section Unwind.
Context {S A TT ET Pos CE : Type}.
Context (umax : N).
Context (cc : classifier).
Context (so : stream_ops S A TT Pos).
Context (co : concat_ops A TT).
Context (ao : alloc_ops A TT ET).
Context (bnd : bindings A TT ET Pos (option CE)).

Local Notation "x <- m ;; k" := (bind m (fun x => k)) (at level 61, m at next level, right associativity).
Local Notation "m ;;; k" := (bind m (fun _ => k)) (at level 61, right associativity).

(** As [finally] of Parser.v, core/src/lib.rs 335-344, but [fin] is not run when
    [m] unwinds. *)
Definition unless_unwinding {X} (m : M (S:=S) (A:=A) (Pos:=Pos) (CE:=option CE) X) (fin : M unit) : M X := fun st =>
  match m st with
  | (Ok x, st') => bind fin (fun _ => ret x) st'
  | (Err e, st') => if unwinding e then (Err e, st') else bind fin (fun _ => raise e) st'
  | r => r
  end.

(** [parse_next] core/src/lib.rs 308-358, [parse_nested] 448-522,
    [parse_all] 524-557, as in Parser.v but with [unless_unwinding]. *)
Fixpoint unw_next (fuel : nat) (m : mode) : M (option (datum TT ET)) :=
  match fuel with
  | O => nofuel
  | Datatypes.S f =>
      (if is_operator_mode m
       then skip_whitespace cc so f else ret tt) ;;;
      o <- peek so ;;
      match o with
      | None =>
          d <- get_depth ;;
          if (d =? 0)%N then ret None else raise MissingEndChar
      | Some it =>
          let ch := it_ch it in
          if is_nest_start cc ch then
            incr_depth umax ;;;
            r <- unless_unwinding (unw_nested f) decr_depth ;;
            match r with
            | None => unw_next f m (* continue *)
            | Some d => ret (Some d)
            end
          else if is_nest_end cc ch then
            d <- get_depth ;;
            check_end_char cc so d ;;;
            ret None
          else
            t <- parse_text umax cc so co f m ;;
            ret (Some (DText t))
      end
  end
with unw_nested (fuel : nat) : M (option (datum TT ET)) :=
  match fuel with
  | O => nofuel
  | Datatypes.S f =>
      start <- next so ;;
      assert (match start with Some it => is_nest_start cc (it_ch it) | None => false end) ;;;
      operator <- unw_next f Operator ;;
      o <- peek so ;;
      (match o with
       | Some it => if is_whitespace cc (it_ch it) then next so ;;; ret tt else ret tt
       | None => ret tt
       end) ;;;
      match operator with
      | Some operator =>
          match bnd operator with
          | Some (Operative opr) =>
              operands <- parse_text umax cc so co f Operands ;;
              nest_end cc so ;;;
              call (opr operator operands)
          | Some (Applicative apl) =>
              arguments <- unw_all f Base ;;
              nest_end cc so ;;;
              call (apl operator arguments)
          | None =>
              operands <- unw_all f Base ;;
              nest_end cc so ;;;
              r1 <- new_datum ao operator ;;
              r2 <- new_datum ao operands ;;
              ret (Some (DComb r1 r2))
          end
      | None =>
          nest_end cc so ;;;
          ret (Some DEmptyNest)
      end
  end
with unw_all (fuel : nat) (m : mode) : M (datum TT ET) :=
  match fuel with
  | O => nofuel
  | Datatypes.S f =>
      it <- unw_next f m ;;
      match it with
      | Some next_it =>
          e <- new_datum ao next_it ;;
          n <- new_datum ao DEmptyList ;;
          st_ok <- (fun st => (Ok (a_get_mut ao n (ps_alloc st)), st)) ;;
          (if st_ok
           then rest <- unw_all f m ;; ret (DList e rest)
           else raise FailedDerefTryMut)
      | None => ret DEmptyList
      end
  end.

(** One call of [ParseIter::next], core/src/lib.rs 256-258, under
    [catch_unwind]: [Some (inr (FailedCombiner None))] is a caught panic. *)
Definition unw_iter_next (fuel : nat) (st : pstate S A)
  : res Empty_set (option (datum TT ET + error Pos (option CE))) * pstate S A :=
  match unw_next fuel Base st with
  | (Ok None, st') => (Ok None, st')
  | (Ok (Some d), st') => (Ok (Some (inl d)), st')
  | (Err e, st') => (Ok (Some (inr e)), st')
  | (Panic, st') => (Panic, st')
  | (OutOfFuel, st') => (OutOfFuel, st')
  end.
End Unwind.
