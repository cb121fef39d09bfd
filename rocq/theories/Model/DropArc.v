(** The drop algorithm, src/drop.rs, on atomically counted datums that other
    threads can use at the same time. *)
From Coq Require Import List Arith Bool.
From Verif.Model Require Import Prelude Drop DropRc.
Import ListNotations.
Set Implicit Arguments.

Section Arc.
Context {X : Type}.

(** What a thread has still to do: it is done, it has panicked (or run out of
    fuel), or it does one more step on the memory and goes on.  Other threads can do
    any number of steps before each of these.  Simplification: all threads see the steps
    in one order; that the weaker memory orders used in [Arc] suffice for this is not modelled. *)
Inductive prog (A : Type) : Type :=
| Done (a : A)
| Panicked
| Exhausted
| Atomic (B : Type) (m : H (X:=X) B) (k : B -> prog A).

Fixpoint p_bind {A B} (p : prog A) (f : A -> prog B) : prog B :=
  match p with
  | Done a => f a
  | Panicked _ => Panicked _
  | Exhausted _ => Exhausted _
  | Atomic m k => Atomic m (fun b => p_bind (k b) f)
  end.
Definition atomic {B} (m : H (X:=X) B) : prog B := Atomic m (@Done B).
Canonical Structure threaded : monad :=
  {| m_type := prog; m_ret := Done; m_bind := @p_bind; m_panic := Panicked; m_nofuel := Exhausted |}.

Local Notation "'do' x '<-' m ';' k" := (d_bind m (fun x => k)) (at level 200, x pattern, m at level 100, k at level 200).

(** ** The atomic steps of [Arc] *)
(** Its count of weak references has one more than there are, on behalf of all the
    strong ones.  Here [weak] is without that one as long as there is a strong reference;
    when the last one goes it is counted, until it is given back. *)

(** One weak reference less, or what there was on behalf of the strong ones; the
    memory is freed with the last one ([Weak::drop]). *)
Definition dec_weak (x : nat) : H (X:=X) unit :=
  do c <- read x;
  match c with
  | Cell 0 1 v => write x None
  | Cell s (S w) v => write x (Some (Cell s w v))
  | _ => d_panic
  end.

(** The exchange of the strong count in [Arc::try_unwrap], from one to zero, and
    reading out the datum, which is then inaccessible to others.  [None]: it was not one. *)
Definition claim (x : nat) : H (X:=X) (option (node nat X)) :=
  do c <- read x;
  match c with
  | Cell 1 w (Some n) => do _ <- write x (Some (Cell 0 (S w) None)); d_ret (Some n)
  | Cell (S _) _ _ => d_ret None
  | _ => d_panic
  end.

(** One strong reference less in [Arc::drop].  With the last one, the datum that
    is to be dropped. *)
Definition dec_strong (x : nat) : H (X:=X) (option (node nat X)) :=
  do c <- read x;
  match c with
  | Cell 1 w (Some n) => do _ <- write x (Some (Cell 0 (S w) None)); d_ret (Some n)
  | Cell (S (S s)) w v => do _ <- write x (Some (Cell (S s) w v)); d_ret None
  | _ => d_panic
  end.

(** The assignment through a mutable reference.  Gives the old datum. *)
Definition assign (x : nat) (v : node nat X) : H (X:=X) (node nat X) :=
  do c <- read x;
  match c with
  | Cell s w (Some n) => do _ <- write x (Some (Cell s w (Some v))); d_ret n
  | _ => d_panic
  end.

(** ** The methods of [Arc] *)
Local Notation "'let!' x '<-' m ';' k" := (p_bind m (fun x => k)) (at level 200, x pattern, m at level 100, k at level 200).

(** [Arc::try_unwrap] *)
Definition a_try_unwrap (x : nat) : prog (option (node nat X)) :=
  let! o <- atomic (claim x);
  match o with
  | Some n => let! _ <- atomic (dec_weak x); Done (Some n)
  | None => Done None
  end.

(** [Arc::get_mut]: whether there is no weak reference, and then whether there is
    no other strong one.  Simplification: there is no lock of the weak count in between, which
    permits more interleavings. *)
Definition a_get_mut (x : nat) : prog bool :=
  let! c <- atomic (read x);
  if weak c =? 0 then let! c <- atomic (read x); Done (strong c =? 1)
  else Done false.

(** [RcLike::try_replace], src/drop.rs 365-391. *)
Definition a_try_replace (this : nat) (v : node nat X) : prog (option (node nat X) * nat) :=
  let! new <- atomic (fresh (Cell 1 0 (Some v)));
  let! old <- a_try_unwrap this;
  match old with
  | Some d => Done (Some d, new)
  | None =>
      let! new_val <- a_try_unwrap new;
      match new_val with
      | Some _ => Done (None, this)
      | None => Panicked _ (* unreachable!, 386 *)
      end
  end.

(** [RcLike::set], src/drop.rs 396-401.  As in DropRc.v, overwriting anything but a
    leaf with nothing in it is a panic here. *)
Definition a_set (this : nat) (v : node nat X) : prog nat :=
  let! unique <- a_get_mut this;
  if unique then
    let! old <- atomic (assign this v);
    match old with
    | NLeaf None => Done this
    | _ => Panicked _
    end
  else Panicked _ (* unwrap of None, 400 *).

(** [Algo1DatumRef for DatumArc], src/drop.rs 529-543. *)
Definition arc_ops : ref_ops threaded nat X := {|
  r_deref := fun r => atomic (deref r) : threaded _;
  r_try_replace := fun r v => a_try_replace r v : threaded _;
  r_set := fun r v => a_set r v : threaded _ |}.

(** Dropping a [DatumArc]: [drop], src/drop.rs 547-551, and then (by the compiler)
    the [Arc]: one strong reference less; at zero the datum is dropped, and then what
    keeps the memory on behalf of the strong references is given back. *)
Fixpoint arc_drop (fuel depth : nat) (r : nat) : prog unit :=
  match depth with
  | 0 => Exhausted _
  | S depth' =>
      let! x <- algo1 arc_ops (arc_drop fuel depth') fuel r;
      let! o <- atomic (dec_strong x);
      match o with
      | None => Done tt
      | Some n =>
          let! _ <- match n with
                    | NComb a b | NList a b => let! _ <- arc_drop fuel depth' a; arc_drop fuel depth' b
                    | NLeaf (Some v) => atomic (drop_value v)
                    | NLeaf None => Done tt
                    end;
          atomic (dec_weak x)
      end
  end.
End Arc.
Arguments prog : clear implicits.
