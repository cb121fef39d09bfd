(** The parser with its call stack: the same functions as in Parser.v, which also
    report the largest number of stack frames that were in use. *)
From Coq Require Import List NArith Bool.
From Verif.Model Require Import Prelude Parser.
Import ListNotations.
Set Implicit Arguments.

Section Stack.
Context {S A TT ET Pos CE : Type}.
Context (umax : N) (cc : classifier) (so : stream_ops S A TT Pos) (co : concat_ops A TT)
        (ao : alloc_ops A TT ET) (bnd : bindings A TT ET Pos CE).
Local Notation M := (M (S:=S) (A:=A) (Pos:=Pos) (CE:=CE)).

(** A computation in frame number [k], with the largest frame number used.
    Frames of the collaborators (stream, text, allocator, combiners,
    classifier) are not counted; no such call is made again inside of them. *)
Definition T (X : Type) : Type := nat -> pstate S A -> (res (error Pos CE) X * pstate S A) * nat.

(** No call. *)
Definition here {X} (m : M X) : T X := fun k st => (m st, k).

Definition tbind {X Y} (m : T X) (f : X -> T Y) : T Y := fun k st =>
  match m k st with
  | ((Ok x, st'), n) => let (o, n') := f x k st' in (o, Nat.max n n')
  | ((Err e, st'), n) => ((Err e, st'), n)
  | ((Panic, st'), n) => ((Panic, st'), n)
  | ((OutOfFuel, st'), n) => ((OutOfFuel, st'), n)
  end.

Definition tfinally {X} (m : T X) (fin : M unit) : T X := fun k st =>
  let (o, n) := m k st in (finally (fun _ => o) fin st, n).

(** A call: one more frame. *)
Definition push {X} (m : T X) : T X := fun k st => m (Datatypes.S k) st.

Local Notation "x <- m ;; k" := (tbind m (fun x => k)) (at level 61, m at next level, right associativity).
Local Notation "m ;;; k" := (tbind m (fun _ => k)) (at level 61, right associativity).

(** Functions that call none of the parser's functions: [skip_whitespace]
    core/src/lib.rs 560-567, [check_end_char] 569-589, the closure [end] of
    [parse_nested] 457-466. *)
Definition leaf {X} (m : M X) : T X := push (here m).
(** [parse_text], core/src/lib.rs 361-445, which may call [check_end_char] (423-427);
    that frame is counted always. *)
Definition text_leaf {X} (m : M X) : T X := push (push (here m)).

(** [parse_next] core/src/lib.rs 308-358, [parse_nested] 448-522, [parse_all]
    524-557.  Their loops stay in the same frame. *)
Fixpoint t_parse_next (fuel : nat) (m : mode) : T (option (datum TT ET)) :=
  match fuel with
  | O => here nofuel
  | Datatypes.S f =>
      (if is_operator_mode m
       then leaf (skip_whitespace cc so f) else here (ret tt)) ;;;
      o <- here (peek so) ;;
      match o with
      | None =>
          d <- here get_depth ;;
          if (d =? 0)%N then here (ret None) else here (raise MissingEndChar)
      | Some it =>
          let ch := it_ch it in
          if is_nest_start cc ch then
            here (incr_depth umax) ;;;
            r <- tfinally (push (t_parse_nested f)) decr_depth ;;
            match r with
            | None => t_parse_next f m (* continue *)
            | Some d => here (ret (Some d))
            end
          else if is_nest_end cc ch then
            d <- here get_depth ;;
            leaf (check_end_char cc so d) ;;;
            here (ret None)
          else
            t <- text_leaf (parse_text umax cc so co f m) ;;
            here (ret (Some (DText t)))
      end
  end
with t_parse_nested (fuel : nat) : T (option (datum TT ET)) :=
  match fuel with
  | O => here nofuel
  | Datatypes.S f =>
      start <- here (next so) ;;
      here (assert (match start with Some it => is_nest_start cc (it_ch it) | None => false end)) ;;;
      operator <- push (t_parse_next f Operator) ;;
      o <- here (peek so) ;;
      here (match o with
       | Some it => if is_whitespace cc (it_ch it) then bind (next so) (fun _ => ret tt) else ret tt
       | None => ret tt
       end) ;;;
      match operator with
      | Some operator =>
          match bnd operator with
          | Some (Operative opr) =>
              operands <- text_leaf (parse_text umax cc so co f Operands) ;;
              leaf (nest_end cc so) ;;;
              here (call (opr operator operands))
          | Some (Applicative apl) =>
              arguments <- push (t_parse_all f Base) ;;
              leaf (nest_end cc so) ;;;
              here (call (apl operator arguments))
          | None =>
              operands <- push (t_parse_all f Base) ;;
              leaf (nest_end cc so) ;;;
              r1 <- here (new_datum ao operator) ;;
              r2 <- here (new_datum ao operands) ;;
              here (ret (Some (DComb r1 r2)))
          end
      | None =>
          leaf (nest_end cc so) ;;;
          here (ret (Some DEmptyNest))
      end
  end
with t_parse_all (fuel : nat) (m : mode) : T (datum TT ET) :=
  match fuel with
  | O => here nofuel
  | Datatypes.S f =>
      it <- push (t_parse_next f m) ;;
      match it with
      | Some next_it =>
          e <- here (new_datum ao next_it) ;;
          n <- here (new_datum ao DEmptyList) ;;
          st_ok <- here (fun st => (Ok (a_get_mut ao n (ps_alloc st)), st)) ;;
          (if st_ok
           then rest <- t_parse_all f m ;; here (ret (DList e rest))
           else here (raise FailedDerefTryMut))
      | None => here (ret DEmptyList)
      end
  end.

(** [ParseIter::do_next], core/src/lib.rs 299-306, called in frame 0: [parse_next]
    is frame 1.  Gives the outcome and the number of frames used. *)
Definition do_next_frames (fuel : nat) (st : pstate S A) := push (t_parse_next fuel Base) 0 st.
End Stack.
