(** The parser with counted references (RcParser.v) when something panics and the caller of
    [ParseIter::next] catches it: what unwinding drops.

    As in Unwind.v, a combiner that panics is one that returns [FailedCombiner None]; it
    has dropped its arguments, which are in its own variables, when it does.  A stream whose iterator panics
    returns [Panic], as in PanicIter.v.  Both leave the functions of the parser with their
    local variables dropped, like an error does at a [?].
    Simplifications: those of RcParser.v, but for panics. *)
From Coq Require Import List NArith Bool.
From Verif.Model Require Import Prelude Parser Unwind Drop DropRc RcProgram RcParser.
Import ListNotations.
Set Implicit Arguments.

Section RcUnwind.
Context {S W T ET Pos CE : Type}.
Local Notation datum := (rc_datum T ET).
Local Notation mem := (rc_mem T ET).
Local Notation A := (mem * W)%type.
Local Notation CO := (option CE).
Context (umax : N) (cc : classifier).
Context (so : stream_ops S A T Pos) (co : concat_ops A T).
(** [OperatorBindings::lookup], core/src/parser.rs 104-127. *)
Context (bnd : mem -> datum -> option (rc_combiner A T ET Pos CO)).
(** As in RcParser.v. *)
Context (arc : bool) (dfuel ddepth : mem -> nat).
Local Notation M := (@M S A Pos CO).

Local Notation "x <- m ;; k" := (bind m (fun x => k)) (at level 61, m at next level, right associativity).
Local Notation "m ;;; k" := (bind m (fun _ => k)) (at level 61, right associativity).
Local Notation drop := (@rp_drop S W T ET Pos CO arc dfuel ddepth).

(** Run [m]; if it returns an error, or panics, the local variable with [d] is dropped. *)
Definition or_unwind {Y} (d : option datum) (m : M Y) : M Y := fun st =>
  let drop := match d with Some d => drop d | None => @ret S A Pos CO _ tt end in
  match m st with
  | (Err e, st') => (drop ;;; @raise S A Pos CO Y e) st'
  | (Panic, st') => (drop ;;; @panic S A Pos CO Y) st'
  | r => r
  end.

(** core/src/lib.rs 335-344, as [unless_unwinding] of Unwind.v: when [fin] panics, the
    result of [m] is dropped. *)
Definition then_unless_unwinding (m : M (option datum)) (fin : M unit) : M (option datum) := fun st =>
  match m st with
  | (Ok x, st') => (or_unwind x fin ;;; @ret S A Pos CO _ x) st'
  | (Err e, st') => if unwinding e then (Err e, st') else (fin ;;; @raise S A Pos CO _ e) st'
  | r => r
  end.

(** [parse_next] core/src/lib.rs 308-358, [parse_nested] 448-522,
    [parse_all] 524-557, as in RcParser.v. *)
Fixpoint ru_next (fuel : nat) (m : mode) : M (option datum) :=
  match fuel with
  | O => @nofuel S A Pos CO _
  | Datatypes.S f =>
      (if is_operator_mode m
       then skip_whitespace cc so f else @ret S A Pos CO _ tt) ;;;
      o <- peek so ;;
      match o with
      | None =>
          d <- @get_depth S A Pos CO ;;
          if (d =? 0)%N then @ret S A Pos CO _ None else @raise S A Pos CO _ MissingEndChar
      | Some it =>
          let ch := it_ch it in
          if is_nest_start cc ch then
            incr_depth umax ;;;
            r <- then_unless_unwinding (ru_nested f) (@decr_depth S A Pos CO) ;;
            match r with
            | None => ru_next f m (* continue *)
            | Some d => @ret S A Pos CO _ (Some d)
            end
          else if is_nest_end cc ch then
            d <- @get_depth S A Pos CO ;;
            check_end_char cc so d ;;;
            @ret S A Pos CO _ None
          else
            t <- parse_text umax cc so co f m ;;
            @ret S A Pos CO _ (Some (NLeaf (Some (LText t))))
      end
  end
with ru_nested (fuel : nat) : M (option datum) :=
  match fuel with
  | O => @nofuel S A Pos CO _
  | Datatypes.S f =>
      start <- next so ;;
      assert (match start with Some it => is_nest_start cc (it_ch it) | None => false end) ;;;
      operator <- ru_next f Operator ;;
      or_unwind operator (
        o <- peek so ;;
        match o with
        | Some it => if is_whitespace cc (it_ch it) then next so ;;; @ret S A Pos CO _ tt else @ret S A Pos CO _ tt
        | None => @ret S A Pos CO _ tt
        end) ;;;
      match operator with
      | Some operator =>
          combiner <- rp_lookup bnd operator ;;
          match combiner with
          | Some (ROperative opr) =>
              operands <- or_unwind (Some operator) (
                operands <- parse_text umax cc so co f Operands ;;
                nest_end cc so ;;;
                @ret S A Pos CO _ operands) ;;
              call (opr operator operands)
          | Some (RApplicative apl) =>
              arguments <- or_unwind (Some operator) (
                arguments <- ru_all f Base (NLeaf None) None ;;
                or_unwind (Some arguments) (nest_end cc so) ;;;
                @ret S A Pos CO _ arguments) ;;
              call (apl operator arguments)
          | None =>
              operands <- or_unwind (Some operator) (
                operands <- ru_all f Base (NLeaf None) None ;;
                or_unwind (Some operands) (nest_end cc so) ;;;
                @ret S A Pos CO _ operands) ;;
              r1 <- rp_new operator ;;
              r2 <- rp_new operands ;;
              @ret S A Pos CO _ (Some (NComb r1 r2))
          end
      | None =>
          nest_end cc so ;;;
          @ret S A Pos CO _ (Some (NLeaf (Some LEmptyNest)))
      end
  end
with ru_all (fuel : nat) (m : mode) (head : datum) (tail : option nat) : M datum :=
  match fuel with
  | O => @nofuel S A Pos CO _
  | Datatypes.S f =>
      it <- or_unwind (Some head) (ru_next f m) ;;
      match it with
      | Some next_it =>
          e <- rp_new next_it ;;
          n <- rp_new (NLeaf None) ;;
          head' <- match tail with
                   | None => @ret S A Pos CO _ (NList e n)
                   | Some x => rp_assign x (NList e n) ;;; @ret S A Pos CO _ head
                   end ;;
          alone <- in_mem (get_mut n) ;;
          (if alone : bool then ru_all f m head' (Some n)
           else drop head' ;;; @raise S A Pos CO _ FailedDerefTryMut)
      | None => @ret S A Pos CO _ head
      end
  end.

(** One call of [ParseIter::next], core/src/lib.rs 256-258, under [catch_unwind]: a
    caught panic is [Some (inr (FailedCombiner None))] from a combiner, [Panic] from the stream. *)
Definition ru_iter_next (fuel : nat) (st : pstate S A) : res Empty_set (option (datum + error Pos CO)) * pstate S A :=
  match ru_next fuel Base st with
  | (Ok None, st') => (Ok None, st')
  | (Ok (Some d), st') => (Ok (Some (inl d)), st')
  | (Err e, st') => (Ok (Some (inr e)), st')
  | (Panic, st') => (Panic, st')
  | (OutOfFuel, st') => (OutOfFuel, st')
  end.
End RcUnwind.
