(** Observing the use of memory. *)
From Coq Require Import List Arith NArith.
From Verif.Model Require Import Prelude Parser Chunk TextDatumList Alloc.
Import ListNotations.
Set Implicit Arguments.

(** ** Requests to the slice allocator *)

(** Asking for slots for these values, one after the other: the answers and the
    allocator after. *)
Fixpoint requests {X} (xs : list X) (s : slice_state X) : list (res alloc_error nat) * slice_state X :=
  match xs with
  | [] => ([], s)
  | x :: xs' =>
      let (r, s') := slice_new_datum x s in
      let (rs, s'') := requests xs' s' in (r :: rs, s'')
  end.

(** The number of slots that can still be got. *)
Definition room {X} (s : slice_state X) : nat :=
  match slice_unused s with Some l => length l | None => 0 end.

(** ** The memory needed by datums made without combiners *)

Fixpoint chunk_count {C} (s : chunk_seq C) : nat :=
  match s with SCons _ rest => S (chunk_count rest) | _ => 0 end.

(** Two slots for each combination and each list cell; one for each chunk of a
    text beyond the first. *)
Fixpoint slots_needed {C ET} (d : datum (tdl C ET) ET) : nat :=
  match d with
  | DText t => chunk_count (tdl_chunks t) - 1
  | DComb d1 d2 | DList d1 d2 => 2 + slots_needed d1 + slots_needed d2
  | _ => 0
  end.

Definition total_needed {C ET} (ds : list (datum (tdl C ET) ET)) : nat := list_sum (map slots_needed ds).

(** Combinations and list cells, whatever the texts are. *)
Fixpoint inner_count {TT ET} (d : datum TT ET) : nat :=
  match d with
  | DComb d1 d2 | DList d1 d2 => S (inner_count d1 + inner_count d2)
  | _ => 0
  end.
Definition total_inner {TT ET} (ds : list (datum TT ET)) : nat := list_sum (map inner_count ds).

(** ** Reporting failures *)
Section Honest.
Context {A : Type} (failed : A -> bool).

(** [failed] tells that some allocation has failed.  Operations that succeed
    have had no allocation fail. *)
Definition honest_stream {S TT Pos} (so : stream_ops S A TT Pos) : Prop :=
  (forall s a o s' a', failed a = false -> s_next_accum so s a = (Ok o, (s', a')) -> failed a' = false) /\
  (forall s a t s' a', failed a = false -> s_accum_done so s a = (Ok t, (s', a')) -> failed a' = false).
Definition honest_concat {TT} (co : concat_ops A TT) : Prop :=
  forall t1 t2 a t a', failed a = false -> t_concat co t1 t2 a = (Ok t, a') -> failed a' = false.
Definition honest_alloc {TT ET} (ao : alloc_ops A TT ET) : Prop :=
  forall d a d' a', failed a = false -> a_new_datum ao d a = (Ok d', a') -> failed a' = false.
(** Combiners report failed allocations by returning [FailedAlloc]. *)
Definition honest_bindings {TT ET Pos CE} (bnd : bindings A TT ET Pos CE) : Prop :=
  forall d c, bnd d = Some c ->
  match c with
  | Operative f => forall t a r a', failed a = false -> f d t a = (r, a') ->
      failed a' = false \/ exists e, r = inr (FailedAlloc e)
  | Applicative f => forall l a r a', failed a = false -> f d l a = (r, a') ->
      failed a' = false \/ exists e, r = inr (FailedAlloc e)
  end.
End Honest.

(** Any allocator, with a flag that is raised when an allocation fails. *)
Definition watch_alloc {A TT ET} (ao : alloc_ops A TT ET) : alloc_ops (A * bool) TT ET := {|
  a_new_datum := fun d ab =>
    let (r, a') := a_new_datum ao d (fst ab) in
    (r, (a', match r with Err _ => true | _ => snd ab end));
  a_get_mut := fun d ab => a_get_mut ao d (fst ab) |}.

(** The slice allocator has turned down a request (or been empty from the start). *)
Definition slice_failed {X W} (a : slice_state X * W) : bool :=
  match sl_free (fst a) with Some _ => false | None => true end.

(** ** More memory *)

(** Combiners for which more memory ([R a1 a2]: [a2] has at least the memory of
    [a1]) makes no difference, except that they may fail to allocate with less. *)
Section NoWorse.
Context {A1 A2 : Type} (R : A1 -> A2 -> Prop).
Definition alloc_no_worse {TT ET} (ao1 : alloc_ops A1 TT ET) (ao2 : alloc_ops A2 TT ET) : Prop :=
  (forall d a1 a2 r1 a1' r2 a2', R a1 a2 -> a_new_datum ao1 d a1 = (r1, a1') -> a_new_datum ao2 d a2 = (r2, a2') ->
     (r1 = r2 /\ R a1' a2') \/ exists e, r1 = Err e) /\
  (forall d a1 a2, a_get_mut ao1 d a1 = a_get_mut ao2 d a2).
Definition call_no_worse {X Pos CE} (f1 : A1 -> (X + error Pos CE) * A1) (f2 : A2 -> (X + error Pos CE) * A2) : Prop :=
  forall a1 a2 r1 a1' r2 a2', R a1 a2 -> f1 a1 = (r1, a1') -> f2 a2 = (r2, a2') ->
     (r1 = r2 /\ R a1' a2') \/ exists e, r1 = inr (FailedAlloc e).
Definition bindings_no_worse {TT ET Pos CE} (b1 : bindings A1 TT ET Pos CE) (b2 : bindings A2 TT ET Pos CE) : Prop :=
  forall d, match b1 d, b2 d with
            | Some (Operative f1), Some (Operative f2) => forall t, call_no_worse (f1 d t) (f2 d t)
            | Some (Applicative f1), Some (Applicative f2) => forall l, call_no_worse (f1 d l) (f2 d l)
            | None, None => True
            | _, _ => False
            end.
End NoWorse.

(** The same state of the combiners, and at least as many slots left. *)
Definition more_room {X W} (a1 a2 : slice_state X * W) : Prop :=
  snd a1 = snd a2 /\ room (fst a1) <= room (fst a2).
