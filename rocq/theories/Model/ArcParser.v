(** The parser with atomically counted references, [ArcDatumAllocator],
    src/parser/arc_alloc.rs, while other threads use the memory: the same functions as in RcUnwind.v,
    as a tree of atomic steps, like the drops in DropArc.v.

    Simplifications: the streams and texts are the thread's own, so what the parser
    does with them is not a step that others can see.  All threads see the steps in one order.
    A lookup reads the operator in one step.  What a combiner does is not described: it can
    be anything that the rest of the program can do, for any time, and have any answer.  When
    a combiner panics its answer is [FailedCombiner None], as in Unwind.v. *)
From Coq Require Import List NArith Bool.
From Verif.Model Require Import Prelude Parser Unwind Drop DropRc RcParser.
Import ListNotations.
Set Implicit Arguments.

(** Whether an operator is bound to an operative or an applicative: [Combiner],
    core/src/combiner.rs 21-26. *)
Inductive arc_kind := KOperative | KApplicative.

Section Task.
Context {T ET Pos CE : Type}.
Local Notation datum := (rc_datum T ET).
Local Notation X := (leaf_value T ET).
Local Notation E := (error Pos (option CE)).

(** What a thread that parses has still to do. *)
Inductive task (R : Type) : Type :=
| Ended (r : R)
| MakeRef (d : datum) (k : nat -> task R)      (* [Arc::new] *)
| ReadCell (x : nat) (k : cell X -> task R)    (* the counts and the datum at [x] *)
| WriteAt (x : nat) (d : datum) (k : task R)   (* [*tail = d] *)
| DropRef (x : nat) (k : task R)               (* drop one reference, until that is done *)
| FindComb (d : datum) (k : option arc_kind -> task R)  (* [OperatorBindings::lookup], core/src/parser.rs 104-127 *)
| CallComb (d : datum) (a : T + datum) (k : option datum + E -> task R). (* call a combiner with the operator and the operands *)

(** One thing after another in a thread. *)
Fixpoint t_bind {R R'} (t : task R) (f : R -> task R') : task R' :=
  match t with
  | Ended r => f r
  | MakeRef d k => MakeRef d (fun x => t_bind (k x) f)
  | ReadCell x k => ReadCell x (fun c => t_bind (k c) f)
  | WriteAt x d k => WriteAt x d (t_bind k f)
  | DropRef x k => DropRef x (t_bind k f)
  | FindComb d k => FindComb d (fun c => t_bind (k c) f)
  | CallComb d a k => CallComb d a (fun r => t_bind (k r) f)
  end.

(** The references in a datum. *)
Definition d_refs (d : datum) : list nat := match branches d with Some (a, b) => [a; b] | None => [] end.
Definition o_refs (o : option datum) : list nat := match o with Some d => d_refs d | None => [] end.

(** Dropping references in this order; the fields of a datum are dropped like this. *)
Definition drop_refs {R} (l : list nat) (t : task R) : task R := fold_right (fun x t => DropRef x t) t l.
End Task.
Arguments task : clear implicits.

Section ArcParser.
Context {S T ET Pos CE : Type}.
Local Notation datum := (rc_datum T ET).
Local Notation E := (error Pos (option CE)).
Local Notation task := (task T ET Pos CE).
Context (umax : N) (cc : classifier).
Context (so : stream_ops S unit T Pos) (co : concat_ops unit T).

(** The functions of the parser; the monad of Parser.v with steps in between. *)
Definition P (Y : Type) : Type := pstate S unit -> task (res E Y * pstate S unit).
Definition quiet {Y} (m : @M S unit Pos (option CE) Y) : P Y := fun st => Ended (m st).
Definition p_then {Y Z} (m : P Y) (k : Y -> P Z) : P Z := fun st =>
  t_bind (m st) (fun r =>
    match r with
    | (Ok y, st') => k y st'
    | (Err e, st') => Ended (Err e, st')
    | (Panic, st') => Ended (Panic, st')
    | (OutOfFuel, st') => Ended (OutOfFuel, st')
    end).
Definition p_new (d : datum) : P nat := fun st => MakeRef d (fun x => Ended (Ok x, st)).
Definition p_assign (x : nat) (d : datum) : P unit := fun st => WriteAt x d (Ended (Ok tt, st)).
Definition p_find (d : datum) : P (option arc_kind) := fun st => FindComb d (fun c => Ended (Ok c, st)).
Definition p_call (d : datum) (a : T + datum) : P (option datum) := fun st =>
  CallComb d a (fun r => match r with inl o => Ended (Ok o, st) | inr e => Ended (Err e, st) end).
(** [Arc::get_mut]: as in DropArc.v. *)
Definition p_get_mut (x : nat) : P bool := fun st =>
  ReadCell x (fun c => if Nat.eqb (weak c) 0 then ReadCell x (fun c => Ended (Ok (Nat.eqb (strong c) 1), st)) else Ended (Ok false, st)).
Definition p_drop (d : datum) : P unit := fun st => drop_refs (d_refs d) (Ended (Ok tt, st)).

Local Notation "x <- m ;; k" := (p_then m (fun x => k)) (at level 61, m at next level, right associativity).
Local Notation "m ;;; k" := (p_then m (fun _ => k)) (at level 61, right associativity).
Local Notation ret y := (quiet (@ret S unit Pos (option CE) _ y)).
Local Notation raise e := (quiet (@raise S unit Pos (option CE) _ e)).

(** As [or_unwind] of RcUnwind.v. *)
Definition p_or_unwind {Y} (d : option datum) (m : P Y) : P Y := fun st =>
  t_bind (m st) (fun r =>
    match r with
    | (Err e, st') => drop_refs (o_refs d) (Ended (Err e, st'))
    | (Panic, st') => drop_refs (o_refs d) (Ended (Panic, st'))
    | r => Ended r
    end).

(** As [then_unless_unwinding] of RcUnwind.v; core/src/lib.rs 335-344. *)
Definition p_unless_unwinding (m : P (option datum)) (fin : P unit) : P (option datum) := fun st =>
  t_bind (m st) (fun r =>
    match r with
    | (Ok x, st') => (p_or_unwind x fin ;;; ret x) st'
    | (Err e, st') => if unwinding e then Ended (Err e, st') else (fin ;;; raise e) st'
    | r => Ended r
    end).

(** [parse_next] core/src/lib.rs 308-358, [parse_nested] 448-522,
    [parse_all] 524-557. *)
Fixpoint ap_next (fuel : nat) (m : mode) : P (option datum) :=
  match fuel with
  | O => quiet (@nofuel S unit Pos (option CE) _)
  | Datatypes.S f =>
      quiet (if is_operator_mode m
             then skip_whitespace cc so f else @Parser.ret S unit Pos (option CE) _ tt) ;;;
      o <- quiet (peek so) ;;
      match o with
      | None =>
          d <- quiet (@get_depth S unit Pos (option CE)) ;;
          if (d =? 0)%N then ret None else raise MissingEndChar
      | Some it =>
          let ch := it_ch it in
          if is_nest_start cc ch then
            quiet (incr_depth umax) ;;;
            r <- p_unless_unwinding (ap_nested f) (quiet (@decr_depth S unit Pos (option CE))) ;;
            match r with
            | None => ap_next f m (* continue *)
            | Some d => ret (Some d)
            end
          else if is_nest_end cc ch then
            d <- quiet (@get_depth S unit Pos (option CE)) ;;
            quiet (check_end_char cc so d) ;;;
            ret None
          else
            t <- quiet (parse_text umax cc so co f m) ;;
            ret (Some (NLeaf (Some (LText t))))
      end
  end
with ap_nested (fuel : nat) : P (option datum) :=
  match fuel with
  | O => quiet (@nofuel S unit Pos (option CE) _)
  | Datatypes.S f =>
      start <- quiet (next so) ;;
      quiet (assert (match start with Some it => is_nest_start cc (it_ch it) | None => false end)) ;;;
      operator <- ap_next f Operator ;;
      p_or_unwind operator (
        o <- quiet (peek so) ;;
        match o with
        | Some it => if is_whitespace cc (it_ch it) then quiet (next so) ;;; ret tt else ret tt
        | None => ret tt
        end) ;;;
      match operator with
      | Some operator =>
          combiner <- p_find operator ;;
          match combiner with
          | Some KOperative =>
              operands <- p_or_unwind (Some operator) (
                operands <- quiet (parse_text umax cc so co f Operands) ;;
                quiet (nest_end cc so) ;;;
                ret operands) ;;
              p_call operator (inl operands)
          | Some KApplicative =>
              arguments <- p_or_unwind (Some operator) (
                arguments <- ap_all f Base (NLeaf None) None ;;
                p_or_unwind (Some arguments) (quiet (nest_end cc so)) ;;;
                ret arguments) ;;
              p_call operator (inr arguments)
          | None =>
              operands <- p_or_unwind (Some operator) (
                operands <- ap_all f Base (NLeaf None) None ;;
                p_or_unwind (Some operands) (quiet (nest_end cc so)) ;;;
                ret operands) ;;
              r1 <- p_new operator ;;
              r2 <- p_new operands ;;
              ret (Some (NComb r1 r2))
          end
      | None =>
          quiet (nest_end cc so) ;;;
          ret (Some (NLeaf (Some LEmptyNest)))
      end
  end
with ap_all (fuel : nat) (m : mode) (head : datum) (tail : option nat) : P datum :=
  match fuel with
  | O => quiet (@nofuel S unit Pos (option CE) _)
  | Datatypes.S f =>
      it <- p_or_unwind (Some head) (ap_next f m) ;;
      match it with
      | Some next_it =>
          e <- p_new next_it ;;
          n <- p_new (NLeaf None) ;;
          head' <- match tail with
                   | None => ret (NList e n)
                   | Some x => p_assign x (NList e n) ;;; ret head
                   end ;;
          alone <- p_get_mut n ;;
          (if alone : bool then ap_all f m head' (Some n)
           else p_drop head' ;;; raise FailedDerefTryMut)
      | None => ret head
      end
  end.

(** One call of [ParseIter::next], core/src/lib.rs 256-258, under [catch_unwind]; as in RcUnwind.v. *)
Definition ap_iter_next (fuel : nat) (st : pstate S unit) : task (res Empty_set (option (datum + E)) * pstate S unit) :=
  t_bind (ap_next fuel Base st) (fun r =>
    Ended match r with
          | (Ok None, st') => (Ok None, st')
          | (Ok (Some d), st') => (Ok (Some (inl d)), st')
          | (Err e, st') => (Ok (Some (inr e)), st')
          | (Panic, st') => (Panic, st')
          | (OutOfFuel, st') => (OutOfFuel, st')
          end).
End ArcParser.
