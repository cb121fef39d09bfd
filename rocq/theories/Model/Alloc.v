(** The datum allocators. *)
From Coq Require Import List NArith Bool Arith.
From Verif.Model Require Import Prelude Parser.
Import ListNotations.
Set Implicit Arguments.

Section Heap.
Context {W TT ET : Type}.

(** [BoxDatumAllocator], src/parser/box_alloc.rs 35-39, and [DatumBox::get_mut],
    src/datum.rs 49-51.  The allocator has no state; [W] is the state of the
    combiners.  Heap exhaustion (an abort) is not modelled. *)
Definition box_alloc : alloc_ops W TT ET := {|
  a_new_datum := fun d w => (Ok d, w);
  a_get_mut := fun _ _ => true |}.

(** [Rc::get_mut], [Arc::get_mut] (standard library): only for a unique
    reference. *)
Definition rc_get_mut (strong weak : nat) : bool := (strong =? 1) && (weak =? 0).

(** [Rc::new], [Arc::new] (standard library): the strong and weak counts. *)
Definition rc_new_counts : nat * nat := (1, 0).

(** [RcDatumAllocator], src/parser/rc_alloc.rs 35-39, with [DatumRc::get_mut],
    src/datum.rs 81-83; and [ArcDatumAllocator], src/parser/arc_alloc.rs 35-39,
    with [DatumArc::get_mut], src/datum.rs 113-115.  The parser asks [get_mut]
    of references that it has just got from [new_datum] and not cloned. *)
Definition rc_alloc : alloc_ops W TT ET := {|
  a_new_datum := fun d w => (Ok d, w);
  a_get_mut := fun _ _ => rc_get_mut (fst rc_new_counts) (snd rc_new_counts) |}.
End Heap.

Section Slice.
Context {X : Type}.

(** [SliceDatumAllocator], core/src/parser/premade/slice_alloc.rs 20-32:
    the whole slice given to [new], and the index where the free part begins
    ([None]: [free] is [None]). *)
Record slice_state : Type := SliceState { sl_mem : list X; sl_free : option nat }.

(** [new], slice_alloc.rs 43-45. *)
Definition slice_new (slice : list X) : slice_state :=
  SliceState slice (match slice with [] => None | _ => Some 0 end).

(** [unused], slice_alloc.rs 49-51: the slots left. *)
Definition slice_unused (s : slice_state) : option (list X) :=
  option_map (fun i => skipn i (sl_mem s)) (sl_free s).

(** [*dr = from] *)
Definition set_slot (mem : list X) (i : nat) (x : X) : list X :=
  firstn i mem ++ match skipn i mem with [] => [] | _ :: rest => x :: rest end.

(** [new_datum], slice_alloc.rs 61-73: [Ok] of the slot, or [Err].
    [self.free.take()] leaves [None]; [split_first_mut] fails for an empty
    slice. *)
Definition slice_new_datum (x : X) (s : slice_state) : res alloc_error nat * slice_state :=
  match sl_free s with
  | Some i =>
      match skipn i (sl_mem s) with
      | _ :: _ => (Ok i, SliceState (set_slot (sl_mem s) i x) (Some (S i)))
      | [] => (Err AllocExhausted, SliceState (sl_mem s) None)
      end
  | None => (Err AllocExhausted, SliceState (sl_mem s) None)
  end.
End Slice.
Arguments slice_state : clear implicits.

(** The slice allocator as the parser uses it, with [DatumMutRef::get_mut],
    core/src/datum/premade/mutref.rs 40-42.  A reference to a slot is modelled
    by the datum put there; the use of slots by the parser is modelled in
    SlotHeap.v.  [W] is the state of the combiners. *)
Definition slice_alloc {W TT ET} : alloc_ops (slice_state (datum TT ET) * W) TT ET := {|
  a_new_datum := fun d a =>
    let (r, s) := slice_new_datum d (fst a) in (res_map (fun _ => d) r, (s, snd a));
  a_get_mut := fun _ _ => true |}.
