(** The parser core, core/src/lib.rs 200-590, generic over the source stream,
    the text type, the allocator, the classifier and the operator bindings (the
    Rust traits are records of operations here, without any laws). *)
From Coq Require Import List NArith Bool.
From Verif.Model Require Import Prelude.
Import ListNotations.
Set Implicit Arguments.

(** [CharClassifier], core/src/parser.rs 49-66.  Simplification: the predicates
    are pure functions of the character. *)
Record classifier : Type := Classifier {
  is_nest_start : char -> bool;
  is_nest_end : char -> bool;
  is_nest_escape : char -> bool;
  is_whitespace : char -> bool }.

(** [ParseTextMode], core/src/lib.rs 276-280. *)
Inductive mode : Type := Base | Operator | Operands.

(** [mode == ParseTextMode::Operator], core/src/lib.rs 319. *)
Definition is_operator_mode (m : mode) : bool :=
  match m with Operator => true | _ => false end.

(** [SourceStream], core/src/lib.rs 164-195 ([next] is the [Iterator]
    supertrait).  [S] is the stream state, [A] the allocator state. *)
Record stream_ops (S A TT Pos : Type) : Type := StreamOps {
  s_peek : S -> res Empty_set (option (item Pos)) * S;
  s_next : S -> res Empty_set (option (item Pos)) * S;
  s_next_accum : S -> A -> res alloc_error (option (item Pos)) * (S * A);
  s_accum_done : S -> A -> res alloc_error TT * (S * A) }.

(** The part of [Text]/[TextConcat] the parser uses: [empty],
    core/src/text.rs 34, and [concat], core/src/text.rs 300-307. *)
Record concat_ops (A TT : Type) : Type := ConcatOps {
  t_empty : TT;
  t_concat : TT -> TT -> A -> res alloc_error TT * A }.

(** [DatumAllocator], core/src/parser.rs 74-97, and
    [DerefTryMut::get_mut], core/src/datum.rs 115-122: [a_get_mut d a] tells
    whether the reference just allocated for [d] can be mutably dereferenced. *)
Record alloc_ops (A TT ET : Type) : Type := AllocOps {
  a_new_datum : datum TT ET -> A -> res alloc_error (datum TT ET) * A;
  a_get_mut : datum TT ET -> A -> bool }.

(** [Combiner], core/src/combiner.rs 21-26, with [OpFn] 34, [ApFn] 44 and
    [combiner::Result] 52.  [inl] is [Ok], [inr] is [Err].  Combiners may change the
    allocator state [A]; state captured by the closures can be made part of
    [A]. *)
Inductive combiner (A TT ET Pos CE : Type) : Type :=
| Operative (f : datum TT ET -> TT -> A ->
                 (option (datum TT ET) + error Pos CE) * A)
| Applicative (f : datum TT ET -> datum TT ET -> A ->
                 (option (datum TT ET) + error Pos CE) * A).
Arguments Operative {A TT ET Pos CE} _.
Arguments Applicative {A TT ET Pos CE} _.

(** [OperatorBindings::lookup], core/src/parser.rs 104-127. *)
Definition bindings (A TT ET Pos CE : Type) : Type :=
  datum TT ET -> option (combiner A TT ET Pos CE).

Section Parser.
Context {S A TT ET Pos CE : Type}.
(** [usize::MAX] of the platform. *)
Context (umax : N).
Context (cc : classifier).
Context (so : stream_ops S A TT Pos).
Context (co : concat_ops A TT).
Context (ao : alloc_ops A TT ET).
Context (bnd : bindings A TT ET Pos CE).

(** The mutable state of a [ParseIter] (core/src/lib.rs 238-242) together with
    its parser's allocator. *)
Record pstate : Type := PState { ps_strm : S; ps_depth : N; ps_alloc : A }.

(** A computation on this state: [&mut] arguments keep their changes on errors. *)
Definition M (X : Type) : Type := pstate -> res (error Pos CE) X * pstate.

Definition ret {X} (x : X) : M X := fun st => (Ok x, st).
Definition raise {X} (e : error Pos CE) : M X := fun st => (Err e, st).
Definition panic {X} : M X := fun st => (Panic, st).
Definition nofuel {X} : M X := fun st => (OutOfFuel, st).

(** Sequencing; an [Err] is what the [?] operator returns early. *)
Definition bind {X Y} (m : M X) (k : X -> M Y) : M Y := fun st =>
  match m st with
  | (Ok x, st') => k x st'
  | (Err e, st') => (Err e, st')
  | (Panic, st') => (Panic, st')
  | (OutOfFuel, st') => (OutOfFuel, st')
  end.

Local Notation "x <- m ;; k" := (bind m (fun x => k)) (at level 61, m at next level, right associativity).
Local Notation "m ;;; k" := (bind m (fun _ => k)) (at level 61, right associativity).

(** [srcstrm.peek()] *)
Definition peek : M (option (item Pos)) := fun st =>
  let (r, s) := s_peek so (ps_strm st) in
  (no_err r, PState s (ps_depth st) (ps_alloc st)).

(** [srcstrm.next()] *)
Definition next : M (option (item Pos)) := fun st =>
  let (r, s) := s_next so (ps_strm st) in
  (no_err r, PState s (ps_depth st) (ps_alloc st)).

(** [srcstrm.next_accum(dalloc)?]; [?] converts with [From<AllocError>],
    core/src/parser.rs 34-38. *)
Definition next_accum : M (option (item Pos)) := fun st =>
  let '(r, (s, a)) := s_next_accum so (ps_strm st) (ps_alloc st) in
  (res_map_err FailedAlloc r, PState s (ps_depth st) a).

(** [srcstrm.accum_done(dalloc)?] *)
Definition accum_done : M TT := fun st =>
  let '(r, (s, a)) := s_accum_done so (ps_strm st) (ps_alloc st) in
  (res_map_err FailedAlloc r, PState s (ps_depth st) a).

(** [text.concat(accum, dalloc)?] *)
Definition concat (t1 t2 : TT) : M TT := fun st =>
  let (r, a) := t_concat co t1 t2 (ps_alloc st) in
  (res_map_err FailedAlloc r, PState (ps_strm st) (ps_depth st) a).

(** [dalloc.new_datum(d)?] *)
Definition new_datum (d : datum TT ET) : M (datum TT ET) := fun st =>
  let (r, a) := a_new_datum ao d (ps_alloc st) in
  (res_map_err FailedAlloc r, PState (ps_strm st) (ps_depth st) a).

(** Calling a combiner: [opr(operator, operands, dalloc)?], lib.rs 493, 502. *)
Definition call {X} (f : A -> (X + error Pos CE) * A) : M X := fun st =>
  let (r, a) := f (ps_alloc st) in
  (match r with inl x => Ok x | inr e => Err e end,
   PState (ps_strm st) (ps_depth st) a).

(** [*ndepth] read; [*ndepth += 1] and [*ndepth -= 1], lib.rs 334, 337,
    with overflow checks. *)
Definition get_depth : M N := fun st => (Ok (ps_depth st), st).
Definition incr_depth : M unit := fun st =>
  if (ps_depth st <? umax)%N
  then (Ok tt, PState (ps_strm st) (ps_depth st + 1) (ps_alloc st))
  else (Panic, st).
Definition decr_depth : M unit := fun st =>
  if (0 <? ps_depth st)%N
  then (Ok tt, PState (ps_strm st) (ps_depth st - 1) (ps_alloc st))
  else (Panic, st).

(** [debug_assert!] *)
Definition assert (b : bool) : M unit := if b then ret tt else panic.

(** Run [m], then [fin] whether [m] returned [Ok] or [Err], and give [m]'s
    result: lib.rs 335-344 ([*ndepth -= 1] is done before [result] is looked
    at). *)
Definition finally {X} (m : M X) (fin : M unit) : M X := fun st =>
  match m st with
  | (Ok x, st') => bind fin (fun _ => ret x) st'
  | (Err e, st') => bind fin (fun _ => raise e) st'
  | r => r
  end.

(** [skip_whitespace], core/src/lib.rs 560-567. *)
Fixpoint skip_whitespace (fuel : nat) : M unit :=
  match fuel with
  | O => nofuel
  | Datatypes.S f =>
      o <- peek ;;
      match o with
      | Some it => if is_whitespace cc (it_ch it)
                   then next ;;; skip_whitespace f
                   else ret tt
      | None => ret tt
      end
  end.

(** [check_end_char], core/src/lib.rs 569-589. *)
Definition check_end_char (ndepth : N) : M unit :=
  o <- peek ;;
  assert (match o with Some it => is_nest_end cc (it_ch it) | None => false end) ;;;
  if (0 <? ndepth)%N then ret tt
  else
    n <- next ;;
    match n with
    | Some it => raise (UnbalancedEndChar (it_pos it))
    | None => panic (* unwrap *)
    end.

(** [is_end_char] inside [parse_text], core/src/lib.rs 370-383. *)
Definition is_end_char (ch : char) (m : mode) : bool :=
  match m with
  | Base => is_nest_start cc ch
  | Operator => is_whitespace cc ch || is_nest_start cc ch || is_nest_end cc ch
  | Operands => is_nest_end cc ch
  end.

(** [concat_accum!], core/src/lib.rs 395-400. *)
Definition concat_accum (text : TT) : M TT :=
  accum <- accum_done ;; concat text accum.

(** The code after the [while] loop of [parse_text], core/src/lib.rs 439-444. *)
Definition parse_text_done (text : TT) (nest_level : N) : M TT :=
  if (nest_level =? 0)%N then concat_accum text else raise MissingEndChar.

(** The [while] loop of [parse_text], core/src/lib.rs 404-437; [break] is
    calling [parse_text_done]. *)
Fixpoint parse_text_loop (fuel : nat) (m : mode) (text : TT) (nest_level : N) : M TT :=
  match fuel with
  | O => nofuel
  | Datatypes.S f =>
      o <- peek ;;
      match o with
      | None => parse_text_done text nest_level
      | Some it =>
          let ch := it_ch it in
          if ((nest_level =? 0)%N && is_end_char ch m)%bool then
            parse_text_done text nest_level
          else if is_nest_escape cc ch then
            text' <- concat_accum text ;;
            next ;;;
            next_accum ;;;
            parse_text_loop f m text' nest_level
          else if is_nest_start cc ch then
            next_accum ;;;
            (if (nest_level <? umax)%N
             then parse_text_loop f m text (nest_level + 1)
             else panic)
          else if is_nest_end cc ch then
            if (0 <? nest_level)%N then
              next_accum ;;;
              parse_text_loop f m text (nest_level - 1)
            else
              d <- get_depth ;;
              check_end_char d ;;;
              parse_text_done text nest_level
          else
            next_accum ;;;
            parse_text_loop f m text nest_level
      end
  end.

(** [parse_text], core/src/lib.rs 361-445. *)
Definition parse_text (fuel : nat) (m : mode) : M TT :=
  parse_text_loop fuel m (t_empty co) 0.

(** The [end] closure of [parse_nested], core/src/lib.rs 457-466. *)
Definition nest_end : M unit :=
  o <- next ;;
  match o with
  | Some it => assert (is_nest_end cc (it_ch it))
  | None => raise MissingEndChar
  end.

(** [parse_next] core/src/lib.rs 308-358, [parse_nested] 448-522,
    [parse_all] 524-557. *)
Fixpoint parse_next (fuel : nat) (m : mode) : M (option (datum TT ET)) :=
  match fuel with
  | O => nofuel
  | Datatypes.S f =>
      (if is_operator_mode m
       then skip_whitespace f else ret tt) ;;;
      o <- peek ;;
      match o with
      | None =>
          d <- get_depth ;;
          if (d =? 0)%N then ret None else raise MissingEndChar
      | Some it =>
          let ch := it_ch it in
          if is_nest_start cc ch then
            incr_depth ;;;
            r <- finally (parse_nested f) decr_depth ;;
            match r with
            | None => parse_next f m (* continue *)
            | Some d => ret (Some d)
            end
          else if is_nest_end cc ch then
            d <- get_depth ;;
            check_end_char d ;;;
            ret None
          else
            t <- parse_text f m ;;
            ret (Some (DText t))
      end
  end
with parse_nested (fuel : nat) : M (option (datum TT ET)) :=
  match fuel with
  | O => nofuel
  | Datatypes.S f =>
      start <- next ;;
      assert (match start with Some it => is_nest_start cc (it_ch it) | None => false end) ;;;
      operator <- parse_next f Operator ;;
      o <- peek ;;
      (match o with
       | Some it => if is_whitespace cc (it_ch it) then next ;;; ret tt else ret tt
       | None => ret tt
       end) ;;;
      match operator with
      | Some operator =>
          match bnd operator with
          | Some (Operative opr) =>
              operands <- parse_text f Operands ;;
              nest_end ;;;
              call (opr operator operands)
          | Some (Applicative apl) =>
              arguments <- parse_all f Base ;;
              nest_end ;;;
              call (apl operator arguments)
          | None =>
              operands <- parse_all f Base ;;
              nest_end ;;;
              r1 <- new_datum operator ;;
              r2 <- new_datum operands ;;
              ret (Some (DComb r1 r2))
          end
      | None =>
          nest_end ;;;
          ret (Some DEmptyNest)
      end
  end
(** The loop with the [tail] pointer is written as a recursion that returns the
    rest of the list; allocation order and effects are the same.  The in-place
    construction itself is modelled in SlotHeap.v. *)
with parse_all (fuel : nat) (m : mode) : M (datum TT ET) :=
  match fuel with
  | O => nofuel
  | Datatypes.S f =>
      it <- parse_next f m ;;
      match it with
      | Some next_it =>
          e <- new_datum next_it ;;
          n <- new_datum DEmptyList ;;
          st_ok <- (fun st => (Ok (a_get_mut ao n (ps_alloc st)), st)) ;;
          (if st_ok
           then rest <- parse_all f m ;; ret (DList e rest)
           else raise FailedDerefTryMut)
      | None => ret DEmptyList
      end
  end.

(** [ParseIter::do_next], core/src/lib.rs 299-306.  [ParseIter::next] (256-258)
    is its [transpose]: [Ok None] is the end of iteration. *)
Definition do_next (fuel : nat) : M (option (datum TT ET)) := parse_next fuel Base.

(** [ParseIter::new], core/src/lib.rs 291-297. *)
Definition parse_iter_new (s : S) (a : A) : pstate := PState s 0 a.

End Parser.

Arguments pstate : clear implicits.
Arguments PState {S A} _ _ _.
Arguments ps_strm {S A} _.
Arguments ps_depth {S A} _.
Arguments ps_alloc {S A} _.
