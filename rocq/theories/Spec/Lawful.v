(** A whole configuration of the parser (stream, text type, allocator and
    bindings) that obeys the documented contracts, and what it stands for
    abstractly. *)
From Coq Require Import List NArith Bool.
From Verif.Model Require Import Prelude Parser Iter DatumMethods Bindings.
From Verif.Spec Require Import Contract.
From Verif.Proofs Require Import Sim Refine.
Import ListNotations.
Set Implicit Arguments.

Section Lawful.
Context {S A TT ET Pos CE W AE AC : Type}.
Local Notation text := (list (item Pos)).

(** [abnd] are the bindings as functions of abstract texts (lists of items) and of
    the combiners' state [view a] alone: related keys and combiners
    ([bindings_sim]).  [F]: allocation may fail, in which case combiners that
    hit a failure return it. *)
Record lawful (F : Prop) (view : A -> W)
    (so : stream_ops S A TT Pos) (co : concat_ops A TT) (ao : alloc_ops A TT ET)
    (bnd : bindings A TT ET Pos CE) (abnd : bindings W text AE Pos AC)
    (Rs : S -> text -> text -> Prop) (Rt : TT -> text -> Prop)
    (Rx : ET -> AE -> Prop) (Rc : CE -> AC -> Prop) : Prop := {
  lw_stream : stream_contract F view so Rs Rt;
  lw_concat : concat_contract F view co Rt;
  lw_alloc : alloc_contract F view ao;
  lw_get_mut : forall d a, a_get_mut ao d a = true;
  lw_bnd : bindings_sim bnd abnd F (Ra_view view) Rt Rx eq Rc }.

(** A parser freshly started on a stream that stands for the items [s]. *)
Definition starts_on (Rs : S -> text -> text -> Prop) (view : A -> W)
    (st : pstate S A) (s : text) (w : W) : Prop :=
  ps_depth st = 0%N /\ Rs (ps_strm st) s [] /\ view (ps_alloc st) = w.
End Lawful.

(** Bindings given by a list of keys and combiners, over abstract texts: keys
    are compared by their characters. *)
Section AbsBindings.
Context {W Pos AE AC : Type}.
Local Notation text := (list (item Pos)).
Definition chars_eqb (t1 t2 : text) : bool :=
  if list_eq_dec N.eq_dec (map it_ch t1) (map it_ch t2) then true else false.
Definition abs_lookup (x_eq : AE -> AE -> bool)
    (m : list (datum text AE * combiner W text AE Pos AC)) : bindings W text AE Pos AC :=
  pair_lookup (datum_eq chars_eqb x_eq) m.
End AbsBindings.
