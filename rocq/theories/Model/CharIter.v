(** [CharIterSourceStream], src/source_stream/char_iter_src_strm.rs. *)
From Coq Require Import List NArith Bool.
From Verif.Model Require Import Prelude Parser Utf8 Chunk PosStrish.
Import ListNotations.
Set Implicit Arguments.
Local Open Scope N_scope.

Section CharIter.
Context {TT A : Type} (x : text_ops TT posstrish A).

(** [iter.enumerate().map(map_fn)], char_iter_src_strm.rs 144-147.  The user's
    [Iterator] is the (finite) list of the characters it yields. *)
Fixpoint enumerate (i : N) (s : list char) : list (item charpos) :=
  match s with [] => [] | c :: s' => Item c i :: enumerate (i + 1) s' end.

(** [Peekable] (standard library), char_iter_src_strm.rs 123: what the underlying
    iterator has left, and the item taken from it by [peek] but not yet given out
    by [next] (which can be [None], the end). *)
Record peekable (X : Type) : Type := Peekable { pk_iter : list X; pk_peeked : option (option X) }.
Definition pk_next {X} (p : peekable X) : option X * peekable X :=
  match pk_peeked p with
  | Some o => (o, Peekable (pk_iter p) None)
  | None => (hd_error (pk_iter p), Peekable (tl (pk_iter p)) None)
  end.
Definition pk_peek {X} (p : peekable X) : option X * peekable X :=
  match pk_peeked p with
  | Some o => (o, p)
  | None => let o := hd_error (pk_iter p) in (o, Peekable (tl (pk_iter p)) (Some o))
  end.

(** [CharIterSourceStream], char_iter_src_strm.rs 110-120; the conversion
    function [to_refcnt_strish] keeps the string's contents and is omitted (see
    CharConvert.v for any). *)
Record chariter : Type := CharIter {
  ch_iter : peekable (item charpos);
  ch_accum : option (str * charpos) }.

(** [new], char_iter_src_strm.rs 141-153. *)
Definition chariter_new (s : list char) : chariter := CharIter (Peekable (enumerate 0 s) None) None.

(** [next], char_iter_src_strm.rs 169-172. *)
Definition chariter_next (s : chariter) : res Empty_set (option (item charpos)) * chariter :=
  let (o, it) := pk_next (ch_iter s) in (Ok o, CharIter it None).

(** [peek], char_iter_src_strm.rs 186-188. *)
Definition chariter_peek (s : chariter) : res Empty_set (option (item charpos)) * chariter :=
  let (o, it) := pk_peek (ch_iter s) in (Ok o, CharIter it (ch_accum s)).

(** [next_accum], char_iter_src_strm.rs 190-206. *)
Definition chariter_next_accum (s : chariter) (a : A)
  : res alloc_error (option (item charpos)) * (chariter * A) :=
  let (o, it) := pk_next (ch_iter s) in
  match o with
  | None => (Ok None, (CharIter it (ch_accum s), a))
  | Some next =>
      (Ok (Some next),
       (CharIter it (Some match ch_accum s with
                          | Some (t, pos) => (t ++ [it_ch next], pos)
                          | None => ([it_ch next], it_pos next)
                          end), a))
  end.

(** [accum_done], char_iter_src_strm.rs 208-218. *)
Definition chariter_accum_done (s : chariter) (a : A)
  : res alloc_error TT * (chariter * A) :=
  (Ok (tx_from x match ch_accum s with
                 | Some (t, pos) => posstrish_new t pos
                 | None => posstrish_empty
                 end), (CharIter (ch_iter s) None, a)).

Definition chariter_stream : stream_ops chariter A TT charpos := {|
  s_peek := chariter_peek;
  s_next := chariter_next;
  s_next_accum := chariter_next_accum;
  s_accum_done := chariter_accum_done |}.
End CharIter.
