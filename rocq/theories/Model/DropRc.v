(** The drop algorithm, src/drop.rs, on reference-counted datums in a heap. *)
From Coq Require Import List Arith Bool.
From Verif.Model Require Import Prelude Drop.
Import ListNotations.
Set Implicit Arguments.
Local Notation "'do' x '<-' m ';' k" := (d_bind m (fun x => k)) (at level 200, x pattern, m at level 100, k at level 200).

Section Rc.
Context {X : Type}.

(** The allocation behind an [Rc] or [Arc]: the numbers of strong and of weak
    references to it, and the datum in it until the last strong one is gone.  The
    references in the datum are addresses.  [DatumRc] and [DatumArc], src/datum.rs 61 and 93. *)
Record cell := Cell { strong : nat; weak : nat; value : option (node nat X) }.

(** The memory: the allocations by address ([None]: freed) and the values that
    have been dropped.  Simplifications: addresses are not reused; the counts have
    no maximum; only this thread changes the counts while it
    drops (for other threads see DropArc.v). *)
Record heap := Heap { cells : list (option cell); dropped : list X }.
Definition H := D heap.

Fixpoint update {A} (l : list A) (x : nat) (a : A) : list A :=
  match l, x with
  | [], _ => []
  | _ :: l', 0 => a :: l'
  | b :: l', S x' => b :: update l' x' a
  end.
Definition cell_at (h : heap) (x : nat) : option cell :=
  match nth_error (cells h) x with Some oc => oc | None => None end.

(** Access to memory.  That of freed memory is a panic here, so that its absence
    is part of what is proved. *)
Definition read (x : nat) : H cell := fun h =>
  match cell_at h x with Some c => Ok (c, h) | None => Panic end.
Definition write (x : nat) (oc : option cell) : H unit := fun h =>
  Ok (tt, Heap (update (cells h) x oc) (dropped h)).
Definition fresh (c : cell) : H nat := fun h =>
  Ok (length (cells h), Heap (cells h ++ [Some c]) (dropped h)).
Definition drop_value (x : X) : H unit := fun h =>
  Ok (tt, Heap (cells h) (dropped h ++ [x])).

(** [Rc::deref] *)
Definition deref (x : nat) : H (node nat X) :=
  do c <- read x; match value c with Some n => d_ret n | None => d_panic end.

(** [Rc::get_mut] and an assignment through it: only if there is no other
    reference, strong or weak.  Gives the old datum. *)
Definition get_mut_replace (x : nat) (v : node nat X) : H (node nat X) :=
  do c <- read x;
  match c with
  | Cell 1 0 (Some n) => do _ <- write x (Some (Cell 1 0 (Some v))); d_ret n
  | _ => d_panic (* unwrap of None, src/drop.rs 400, 440 *)
  end.

(** [Rc::try_unwrap]: the datum if this was the only strong reference; its
    memory stays while there are weak ones. *)
Definition try_unwrap (x : nat) : H (option (node nat X)) :=
  do c <- read x;
  match c with
  | Cell 1 w (Some n) =>
      do _ <- write x (match w with 0 => None | S _ => Some (Cell 0 w None) end); d_ret (Some n)
  | _ => d_ret None
  end.

(** [RcLike::try_replace], src/drop.rs 365-391. *)
Definition rc_try_replace (this : nat) (v : node nat X) : H (option (node nat X) * nat) :=
  do new <- fresh (Cell 1 0 (Some v));
  do old <- try_unwrap this;
  match old with
  | Some d => d_ret (Some d, new)
  | None =>
      do new_val <- try_unwrap new;
      match new_val with
      | Some _ => d_ret (None, this)
      | None => d_panic (* unreachable!, 386 *)
      end
  end.

(** [RcLikeAtomicCounts::try_replace_optim], src/drop.rs 429-458. *)
Definition try_replace_optim (this : nat) (v : node nat X) : H (option (node nat X) * nat) :=
  do c <- read this;
  if strong c =? 1 then
    if weak c =? 0 then do n <- get_mut_replace this v; d_ret (Some n, this)
    else rc_try_replace this v
  else d_ret (None, this).

(** [RcLike::set], src/drop.rs 396-401.  The assignment drops the old datum: only a
    leaf with nothing in it may be overwritten (others are a panic here). *)
Definition rc_set (this : nat) (v : node nat X) : H nat :=
  do old <- get_mut_replace this v;
  match old with
  | NLeaf None => d_ret this
  | _ => d_panic
  end.

(** [Algo1DatumRef for DatumRc] and [for DatumArc], src/drop.rs 489-499, 529-543. *)
Definition rc_ops (arc : bool) : ref_ops (direct heap) nat X := {|
  r_deref := deref;
  r_try_replace := fun r v => if arc then rc_try_replace r v else try_replace_optim r v;
  r_set := rc_set |}.

(** Dropping a [DatumRc] or [DatumArc]: [drop], src/drop.rs 503-507 and 547-551, and
    then (by the compiler) the [Rc] or [Arc]: one strong reference less; at zero the
    datum is dropped, and the memory is freed unless there are weak references. *)
Fixpoint rc_drop (arc : bool) (fuel depth : nat) (r : nat) : H unit :=
  match depth with
  | 0 => d_nofuel
  | S depth' =>
      do x <- algo1 (rc_ops arc) (rc_drop arc fuel depth') fuel r;
      do c <- read x;
      match c with
      | Cell (S (S s)) w v => write x (Some (Cell (S s) w v))
      | Cell 1 w (Some n) =>
          do _ <- write x (Some (Cell 0 w None));
          do _ <- match n with
                  | NComb a b | NList a b => do _ <- rc_drop arc fuel depth' a; rc_drop arc fuel depth' b
                  | NLeaf (Some v) => drop_value v
                  | NLeaf None => d_ret tt
                  end;
          match w with
          | 0 => write x None
          | S _ => d_ret tt
          end
      | _ => d_panic
      end
  end.
End Rc.
Arguments cell : clear implicits.
Arguments heap : clear implicits.
