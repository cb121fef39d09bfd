(** The parser with counted references: [RcDatumAllocator], src/parser/rc_alloc.rs,
    and [ArcDatumAllocator], src/parser/arc_alloc.rs, over the memory of DropRc.v.
    Lists are built by writing through [get_mut], and the datums that the parser has
    when it returns an error are dropped.  This is the same code as in Parser.v, without the
    simplification that a reference is the datum it refers to.
    Simplifications: the texts themselves have no references to datums (all of src/);
    one thread; when a function panics, nothing is said about the memory. *)
From Coq Require Import List NArith Bool.
From Verif.Model Require Import Prelude Parser Drop DropRc RcProgram.
Import ListNotations.
Set Implicit Arguments.

(** What the leaves of datums hold: a text, an extra, or nothing in [EmptyNest] (here
    a mark, to tell it from [EmptyList], which is [NLeaf None]).  core/src/datum.rs
    17-46. *)
Inductive leaf_value (T ET : Type) : Type :=
| LText (t : T)
| LExtra (x : ET)
| LEmptyNest.
Arguments LText {T ET} _.
Arguments LExtra {T ET} _.
Arguments LEmptyNest {T ET}.

(** [RcDatum] and [ArcDatum], src/datum.rs 56, 88, and the memory they are in. *)
Definition rc_datum (T ET : Type) : Type := node nat (leaf_value T ET).
Definition rc_mem (T ET : Type) : Type := heap (leaf_value T ET).

(** [Combiner], core/src/combiner.rs 21-26; as in Parser.v.  Combiners own their
    arguments.  [W] is their state, which may have references. *)
Inductive rc_combiner (A T ET Pos CE : Type) : Type :=
| ROperative (f : rc_datum T ET -> T -> A -> (option (rc_datum T ET) + error Pos CE) * A)
| RApplicative (f : rc_datum T ET -> rc_datum T ET -> A -> (option (rc_datum T ET) + error Pos CE) * A).
Arguments ROperative {A T ET Pos CE} _.
Arguments RApplicative {A T ET Pos CE} _.

Section RcParser.
Context {S W T ET Pos CE : Type}.
Local Notation datum := (rc_datum T ET).
Local Notation mem := (rc_mem T ET).
Local Notation A := (mem * W)%type.
Context (umax : N) (cc : classifier).
Context (so : stream_ops S A T Pos) (co : concat_ops A T).
(** [OperatorBindings::lookup], core/src/parser.rs 104-127: the operator is read
    through its references. *)
Context (bnd : mem -> datum -> option (rc_combiner A T ET Pos CE)).
(** The drop algorithm: for [DatumArc] or [DatumRc]; how many iterations a loop and how
    much recursion a drop is given, which may depend on the memory. *)
Context (arc : bool) (dfuel ddepth : mem -> nat).
Local Notation M := (@M S A Pos CE).

Local Notation "x <- m ;; k" := (bind m (fun x => k)) (at level 61, m at next level, right associativity).
Local Notation "m ;;; k" := (bind m (fun _ => k)) (at level 61, right associativity).

(** A change of the memory. *)
Definition in_mem {Y} (m : H Y) : M Y := fun st =>
  match m (fst (ps_alloc st)) with
  | Ok (y, h) => (Ok y, PState (ps_strm st) (ps_depth st) (h, snd (ps_alloc st)))
  | Err e => match e with end
  | Panic => (Panic, st)
  | OutOfFuel => (OutOfFuel, st)
  end.

(** [dalloc.new_datum(d)?], src/parser/rc_alloc.rs 35-39, arc_alloc.rs 35-39. *)
Definition rp_new (d : datum) : M nat := in_mem (fresh (Cell 1 0 (Some d))).

(** [*tail = d] for [tail] a [&mut] to the datum at [x], core/src/lib.rs 539-542.  The
    old datum is dropped; only [EmptyList] may be overwritten (others are a panic here). *)
Definition rp_assign (x : nat) (d : datum) : M unit := in_mem (fun h =>
  match cell_at h x with
  | Some (Cell s w (Some (NLeaf None))) => write x (Some (Cell s w (Some d))) h
  | _ => Panic
  end).

(** Dropping a datum that is in a local variable. *)
Definition rp_drop (d : datum) : M unit := in_mem (fun h => drop_datum arc (dfuel h) (ddepth h) d h).

(** Run [m]; if it returns an error, [?] returns it and the local variable with [d]
    is dropped. *)
Definition or_drop {Y} (d : datum) (m : M Y) : M Y := fun st =>
  match m st with
  | (Err e, st') => (rp_drop d ;;; @raise S A Pos CE Y e) st'
  | r => r
  end.

(** [bindings.lookup(&operator)], core/src/lib.rs 482. *)
Definition rp_lookup (d : datum) : M (option (rc_combiner A T ET Pos CE)) := fun st =>
  (Ok (bnd (fst (ps_alloc st)) d), st).

(** [parse_next] core/src/lib.rs 308-358, [parse_nested] 448-522,
    [parse_all] 524-557. *)
Fixpoint rp_next (fuel : nat) (m : mode) : M (option datum) :=
  match fuel with
  | O => @nofuel S A Pos CE _
  | Datatypes.S f =>
      (if is_operator_mode m
       then skip_whitespace cc so f else @ret S A Pos CE _ tt) ;;;
      o <- peek so ;;
      match o with
      | None =>
          d <- @get_depth S A Pos CE ;;
          if (d =? 0)%N then @ret S A Pos CE _ None else @raise S A Pos CE _ MissingEndChar
      | Some it =>
          let ch := it_ch it in
          if is_nest_start cc ch then
            incr_depth umax ;;;
            r <- finally (rp_nested f) (@decr_depth S A Pos CE) ;;
            match r with
            | None => rp_next f m (* continue *)
            | Some d => @ret S A Pos CE _ (Some d)
            end
          else if is_nest_end cc ch then
            d <- @get_depth S A Pos CE ;;
            check_end_char cc so d ;;;
            @ret S A Pos CE _ None
          else
            t <- parse_text umax cc so co f m ;;
            @ret S A Pos CE _ (Some (NLeaf (Some (LText t))))
      end
  end
with rp_nested (fuel : nat) : M (option datum) :=
  match fuel with
  | O => @nofuel S A Pos CE _
  | Datatypes.S f =>
      start <- next so ;;
      assert (match start with Some it => is_nest_start cc (it_ch it) | None => false end) ;;;
      operator <- rp_next f Operator ;;
      o <- peek so ;;
      (match o with
       | Some it => if is_whitespace cc (it_ch it) then next so ;;; @ret S A Pos CE _ tt else @ret S A Pos CE _ tt
       | None => @ret S A Pos CE _ tt
       end) ;;;
      match operator with
      | Some operator =>
          combiner <- rp_lookup operator ;;
          match combiner with
          | Some (ROperative opr) =>
              operands <- or_drop operator (
                operands <- parse_text umax cc so co f Operands ;;
                nest_end cc so ;;;
                @ret S A Pos CE _ operands) ;;
              call (opr operator operands)
          | Some (RApplicative apl) =>
              arguments <- or_drop operator (
                arguments <- rp_all f Base (NLeaf None) None ;;
                or_drop arguments (nest_end cc so) ;;;
                @ret S A Pos CE _ arguments) ;;
              call (apl operator arguments)
          | None =>
              operands <- or_drop operator (
                operands <- rp_all f Base (NLeaf None) None ;;
                or_drop operands (nest_end cc so) ;;;
                @ret S A Pos CE _ operands) ;;
              r1 <- rp_new operator ;;
              r2 <- rp_new operands ;;
              @ret S A Pos CE _ (Some (NComb r1 r2))
          end
      | None =>
          nest_end cc so ;;;
          @ret S A Pos CE _ (Some (NLeaf (Some LEmptyNest)))
      end
  end
(** The loop, 536-555; called with [head = EmptyList] and [tail = None].  [tail] is
    [None] when it points to the local variable [head], or the address of the datum it
    points to.  [get_mut], src/datum.rs 81-83 and 113-115, looks at the counts. *)
with rp_all (fuel : nat) (m : mode) (head : datum) (tail : option nat) : M datum :=
  match fuel with
  | O => @nofuel S A Pos CE _
  | Datatypes.S f =>
      it <- or_drop head (rp_next f m) ;;
      match it with
      | Some next_it =>
          e <- rp_new next_it ;;
          n <- rp_new (NLeaf None) ;;
          head' <- match tail with
                   | None => @ret S A Pos CE _ (NList e n)
                   | Some x => rp_assign x (NList e n) ;;; @ret S A Pos CE _ head
                   end ;;
          alone <- in_mem (get_mut n) ;;
          (if alone : bool then rp_all f m head' (Some n)
           else rp_drop head' ;;; @raise S A Pos CE _ FailedDerefTryMut)
      | None => @ret S A Pos CE _ head
      end
  end.

(** [ParseIter::next], core/src/lib.rs 256-258 and 299-306. *)
Definition rp_iter_next (fuel : nat) (st : pstate S A) : res Empty_set (option (datum + error Pos CE)) * pstate S A :=
  match rp_next fuel Base st with
  | (Ok None, st') => (Ok None, st')
  | (Ok (Some d), st') => (Ok (Some (inl d)), st')
  | (Err e, st') => (Ok (Some (inr e)), st')
  | (Panic, st') => (Panic, st')
  | (OutOfFuel, st') => (OutOfFuel, st')
  end.
End RcParser.

(** Dropping datums in local variables one after another, each given [fuel] and [depth]. *)
Fixpoint drop_datums {X} (arc : bool) (fuel depth : nat) (ds : list (node nat X)) : H unit :=
  match ds with
  | [] => d_ret tt
  | d :: ds' => d_bind (drop_datum arc fuel depth d) (fun _ => drop_datums arc fuel depth ds')
  end.
