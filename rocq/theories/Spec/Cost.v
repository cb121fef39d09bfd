(** Counting the calls that the parser makes. *)
From Coq Require Import List NArith.
From Verif.Model Require Import Prelude Parser.
Import ListNotations.
Set Implicit Arguments.

Section Cost.
Context {S A TT ET Pos CE : Type}.

(** The same stream, with a count of the calls of its methods. *)
Definition tick_stream (so : stream_ops S A TT Pos) : stream_ops (S * nat) (A * nat) TT Pos := {|
  s_peek := fun s => let (r, s') := s_peek so (fst s) in (r, (s', 1 + snd s));
  s_next := fun s => let (r, s') := s_next so (fst s) in (r, (s', 1 + snd s));
  s_next_accum := fun s a => let '(r, (s', a')) := s_next_accum so (fst s) (fst a) in (r, ((s', 1 + snd s), (a', snd a)));
  s_accum_done := fun s a => let '(r, (s', a')) := s_accum_done so (fst s) (fst a) in (r, ((s', 1 + snd s), (a', snd a))) |}.

(** The same concatenation, allocation and combiners, with a count of the calls of
    [concat], of [new_datum] by the parser, and of combiners.  ([get_mut], core/src/lib.rs 547, is
    called at most once per [new_datum], and [lookup] at most once per nest form.) *)
Definition tick_concat (co : concat_ops A TT) : concat_ops (A * nat) TT := {|
  t_empty := t_empty co;
  t_concat := fun t1 t2 a => let (r, a') := t_concat co t1 t2 (fst a) in (r, (a', 1 + snd a)) |}.
Definition tick_alloc (ao : alloc_ops A TT ET) : alloc_ops (A * nat) TT ET := {|
  a_new_datum := fun d a => let (r, a') := a_new_datum ao d (fst a) in (r, (a', 1 + snd a));
  a_get_mut := fun d a => a_get_mut ao d (fst a) |}.
Definition tick_bindings (bnd : bindings A TT ET Pos CE) : bindings (A * nat) TT ET Pos CE := fun d =>
  match bnd d with
  | Some (Operative f) => Some (Operative (fun d t a => let (r, a') := f d t (fst a) in (r, (a', 1 + snd a))))
  | Some (Applicative f) => Some (Applicative (fun d l a => let (r, a') := f d l (fst a) in (r, (a', 1 + snd a))))
  | None => None
  end.

(** A state of the parser with the two counts. *)
Definition counted (st : pstate S A) (i j : nat) : pstate (S * nat) (A * nat) :=
  PState (ps_strm st, i) (ps_depth st) (ps_alloc st, j).
End Cost.
