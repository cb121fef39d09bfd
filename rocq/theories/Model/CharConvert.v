(** [CharIterSourceStream] with any converter,
    src/source_stream/char_iter_src_strm.rs. *)
From Coq Require Import List NArith.
From Verif.Model Require Import Prelude Parser Utf8 Chunk PosStrish CharIter.
Import ListNotations.
Set Implicit Arguments.

Section Convert.
Context {TT A K : Type} (x : text_ops TT posstrish A).

(** The converter, the type parameter [F: Fn(String) -> R], char_iter_src_strm.rs 112: its
    result is modelled by its contents (as in PosStrish.v), which may be other than those of
    the argument.  [K] is what it keeps (a closure with a [RefCell], an interner).  Simplification: it returns (see [Panics] below). *)
Context (conv : str -> K -> str * K).

(** [CharIterSourceStream], char_iter_src_strm.rs 110-120, all three fields. *)
Record converting : Type := Converting { cv_chars : chariter; cv_kept : K }.

(** [new], char_iter_src_strm.rs 141-153. *)
Definition converting_new (s : list char) (k : K) : converting := Converting (chariter_new s) k.

(** [next], [peek] and [next_accum], char_iter_src_strm.rs 169-206, which do not use the converter. *)
Definition converting_next (s : converting) : res Empty_set (option (item charpos)) * converting :=
  let (r, c) := chariter_next (cv_chars s) in (r, Converting c (cv_kept s)).
Definition converting_peek (s : converting) : res Empty_set (option (item charpos)) * converting :=
  let (r, c) := chariter_peek (cv_chars s) in (r, Converting c (cv_kept s)).
Definition converting_next_accum (s : converting) (a : A) : res alloc_error (option (item charpos)) * (converting * A) :=
  match chariter_next_accum (cv_chars s) a with (r, (c, a')) => (r, (Converting c (cv_kept s), a')) end.

(** [accum_done], char_iter_src_strm.rs 208-218. *)
Definition converting_accum_done (s : converting) (a : A) : res alloc_error TT * (converting * A) :=
  let emptied := CharIter (ch_iter (cv_chars s)) None in
  match ch_accum (cv_chars s) with
  | Some (t, pos) =>
      let (r, k) := conv t (cv_kept s) in
      (Ok (tx_from x (posstrish_new r pos)), (Converting emptied k, a))
  | None => (Ok (tx_from x posstrish_empty), (Converting emptied (cv_kept s), a))
  end.

Definition converting_stream : stream_ops converting A TT charpos := {|
  s_peek := converting_peek;
  s_next := converting_next;
  s_next_accum := converting_next_accum;
  s_accum_done := converting_accum_done |}.
End Convert.
Arguments converting : clear implicits.

(** [to_rc_box_str], [to_rc_string], [to_rc_str], [to_arc_box_str], [to_arc_string] and [to_arc_str],
    char_iter_src_strm.rs 40-86, which move the contents into another kind of memory. *)
Definition to_refcnt (s : str) (k : unit) : str * unit := (s, k).

Section Panics.
Context {TT A K : Type} (x : text_ops TT posstrish A).
(** A converter that may panic, which is [None]; by then it may have changed what it keeps. *)
Context (conv : str -> K -> option str * K).

(** [accum_done], char_iter_src_strm.rs 208-218: [take] comes before the converter is called. *)
Definition panicking_accum_done (s : converting K) (a : A) : res alloc_error TT * (converting K * A) :=
  let emptied := CharIter (ch_iter (cv_chars s)) None in
  match ch_accum (cv_chars s) with
  | Some (t, pos) =>
      match conv t (cv_kept s) with
      | (Some r, k) => (Ok (tx_from x (posstrish_new r pos)), (Converting emptied k, a))
      | (None, k) => (Panic, (Converting emptied k, a))
      end
  | None => (Ok (tx_from x posstrish_empty), (Converting emptied (cv_kept s), a))
  end.

(** The rest, char_iter_src_strm.rs 169-206, as above. *)
Definition panicking_stream : stream_ops (converting K) A TT charpos := {|
  s_peek := converting_peek (K:=K);
  s_next := converting_next (K:=K);
  s_next_accum := converting_next_accum (K:=K);
  s_accum_done := panicking_accum_done |}.
End Panics.
