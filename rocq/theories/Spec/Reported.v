(** Collaborators that panic, and the same ones if they reported failed allocations instead. *)
From Coq Require Import List NArith.
From Verif.Model Require Import Prelude Parser Iter Utf8 CharIter PosStrish.
Import ListNotations.
Set Implicit Arguments.

(** [Err(AllocError)] in the place of a panic. *)
Definition reported {X} (r : res alloc_error X) : res alloc_error X :=
  match r with Panic => Err AllocExhausted | _ => r end.

Definition reporting_stream {S A TT Pos} (so : stream_ops S A TT Pos) : stream_ops S A TT Pos := {|
  s_peek := s_peek so;
  s_next := s_next so;
  s_next_accum := fun s a => let (r, sa) := s_next_accum so s a in (reported r, sa);
  s_accum_done := fun s a => let (r, sa) := s_accum_done so s a in (reported r, sa) |}.
Definition reporting_concat {A TT} (co : concat_ops A TT) : concat_ops A TT := {|
  t_empty := t_empty co;
  t_concat := fun t1 t2 a => let (r, a') := t_concat co t1 t2 a in (reported r, a') |}.
Definition reporting_alloc {A TT ET} (ao : alloc_ops A TT ET) : alloc_ops A TT ET := {|
  a_new_datum := fun d a => let (r, a') := a_new_datum ao d a in (reported r, a');
  a_get_mut := a_get_mut ao |}.

Section Calls.
Context {S A TT ET Pos CE : Type}.
Context (umax : N) (cc : classifier) (so : stream_ops S A TT Pos) (co : concat_ops A TT)
        (ao : alloc_ops A TT ET) (bnd : bindings A TT ET Pos CE).

(** [caught_calls st rs st']: consecutive calls of [next] from [st], the caller catching panics, of
    which the outcomes are [rs], [None] for a panic, and which end in [st']. *)
Inductive caught_calls : pstate S A -> list (option (option (datum TT ET + error Pos CE))) -> pstate S A -> Prop :=
| cc_none st : caught_calls st [] st
| cc_returns fuel st o st1 rs st2 :
    iter_next umax cc so co ao bnd fuel st = (Ok o, st1) -> caught_calls st1 rs st2 -> caught_calls st (Some o :: rs) st2
| cc_panics fuel st st1 rs st2 :
    iter_next umax cc so co ao bnd fuel st = (Panic, st1) -> caught_calls st1 rs st2 -> caught_calls st (None :: rs) st2.

(** The same, when each panic is outside of all nest forms: it leaves the depth as it was. *)
Inductive caught_outside : pstate S A -> list (option (option (datum TT ET + error Pos CE))) -> pstate S A -> Prop :=
| co_none st : caught_outside st [] st
| co_returns fuel st o st1 rs st2 :
    iter_next umax cc so co ao bnd fuel st = (Ok o, st1) -> caught_outside st1 rs st2 -> caught_outside st (Some o :: rs) st2
| co_panics fuel st st1 rs st2 :
    iter_next umax cc so co ao bnd fuel st = (Panic, st1) -> ps_depth st1 = ps_depth st ->
    caught_outside st1 rs st2 -> caught_outside st (None :: rs) st2.
End Calls.

(** A converter that may panic and notes its arguments before. *)
Definition noting_panics {K} (conv : str -> K -> option str * K) (s : str) (k : K * list str) : option str * (K * list str) :=
  let (r, k') := conv s (fst k) in (r, (k', snd k ++ [s])).

(** The items that a stream has not given out yet. *)
Definition unread (c : chariter) : list (item charpos) :=
  match pk_peeked (ch_iter c) with
  | Some (Some i) => i :: pk_iter (ch_iter c)
  | Some None => []
  | None => pk_iter (ch_iter c)
  end.
