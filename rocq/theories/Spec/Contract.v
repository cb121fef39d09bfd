(** The documented contracts of the parser's collaborators, stated over an
    abstract view: a source stream is the list of items still to come and the
    list of items accumulated so far; a text is the list of its items.

    [F : Prop] says whether allocations may fail.  [view : A -> W] is the part
    of the allocator state that only combiners change (with [W := unit] this
    says nothing). *)
From Coq Require Import List NArith.
From Verif.Model Require Import Prelude Parser.
Import ListNotations.
Set Implicit Arguments.

Section Contract.
Context {S A TT ET Pos W : Type}.
Context (F : Prop) (view : A -> W).

(** [SourceStream] documentation, core/src/lib.rs 145-195.
    [Rs s rest pend]: state [s] represents items [rest] still to come, with
    [pend] accumulated.  [Rt t l]: text [t] consists of the items [l].
    - [peek] gives the next item and changes nothing;
    - [next] gives the next item and drops a pending accumulation;
    - [next_accum] gives the next item and adds it to the accumulation, or
      preserves the accumulation at the end;
    - [accum_done] returns the accumulation and resets it.
    The last two may fail to allocate, only if something is pending; then the
    pending accumulation is lost but no item to come is. *)
Record stream_contract (so : stream_ops S A TT Pos)
    (Rs : S -> list (item Pos) -> list (item Pos) -> Prop)
    (Rt : TT -> list (item Pos) -> Prop) : Prop := {
  sc_peek : forall s rest pend, Rs s rest pend ->
    exists s', s_peek so s = (Ok (hd_error rest), s') /\ Rs s' rest pend;
  sc_next : forall s rest pend, Rs s rest pend ->
    exists s', s_next so s = (Ok (hd_error rest), s') /\ Rs s' (tl rest) [];
  sc_next_accum : forall s a rest pend, Rs s rest pend ->
    (exists s' a', s_next_accum so s a = (Ok (hd_error rest), (s', a')) /\
                   view a' = view a /\ Rs s' (tl rest) (pend ++ firstn 1 rest))
    \/ (F /\ exists s' a', s_next_accum so s a = (Err AllocExhausted, (s', a')) /\
                   view a' = view a /\ pend <> [] /\ Rs s' rest []);
  sc_accum_done : forall s a rest pend, Rs s rest pend ->
    (exists s' a' t, s_accum_done so s a = (Ok t, (s', a')) /\
                   view a' = view a /\ Rt t pend /\ Rs s' rest [])
    \/ (F /\ exists s' a', s_accum_done so s a = (Err AllocExhausted, (s', a')) /\
                   view a' = view a /\ pend <> [] /\ Rs s' rest []) }.

(** [TextBase::empty], [TextConcat::concat], core/src/text.rs 34, 300-307: concatenation
    appends, and may fail to allocate only if both texts are nonempty. *)
Record concat_contract (co : concat_ops A TT)
    (Rt : TT -> list (item Pos) -> Prop) : Prop := {
  tc_empty : Rt (t_empty co) [];
  tc_concat : forall t1 t2 l1 l2 a, Rt t1 l1 -> Rt t2 l2 ->
    (exists t a', t_concat co t1 t2 a = (Ok t, a') /\ view a' = view a /\ Rt t (l1 ++ l2))
    \/ (F /\ exists a', t_concat co t1 t2 a = (Err AllocExhausted, a') /\
                   view a' = view a /\ l1 <> [] /\ l2 <> []) }.

(** [DatumAllocator::new_datum], core/src/parser.rs 91-97: a fresh datum with
    the given value, or failure. *)
Definition alloc_contract (ao : alloc_ops A TT ET) : Prop :=
  forall d a,
    (exists a', a_new_datum ao d a = (Ok d, a') /\ view a' = view a) \/
    (F /\ exists a', a_new_datum ao d a = (Err AllocExhausted, a') /\ view a' = view a).

End Contract.
