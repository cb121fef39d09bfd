(** [text::Iter], core/src/text/iter.rs: the source stream of any text. *)
From Coq Require Import List NArith Bool.
From Verif.Model Require Import Prelude Parser Chunk.
Import ListNotations.
Set Implicit Arguments.

Section TextIter.
Context {TT C CS A Pos : Type}.
Context (k : chunk_ops C CS Pos) (x : text_ops TT C A).

(** [Iter], core/src/text/iter.rs 19-32. *)
Record titer : Type := TIter {
  ti_cur : option CS;
  ti_next : chunk_seq C;
  ti_accum : option TT;
  ti_peeked : option (item Pos) }.

(** [next_chunks_iter.next().map(TextChunk::src_strm)]: the new
    [cur_chunk_src_strm] and the chunks left. *)
Definition next_chunk (s : chunk_seq C) : res Empty_set (option CS * chunk_seq C) :=
  match s with
  | SEnd => Ok (None, SEnd)
  | SPanic => Panic
  | SCons c rest => Ok (Some (c_src_strm k c), rest)
  end.

(** [Iter::new], core/src/text/iter.rs 47-56. *)
Definition titer_new (t : TT) : res Empty_set titer :=
  res_map (fun p => TIter (fst p) (snd p) None None) (next_chunk (tx_chunks x t)).

(** The loop of [next], core/src/text/iter.rs 75-86: result, current chunk and
    chunks left.  Recursion is on the chunks left. *)
Fixpoint titer_next_loop (nexts : chunk_seq C) (cs : CS)
  : res Empty_set (option (item Pos)) * (option CS * chunk_seq C) :=
  match cs_next k cs with
  | (Ok (Some it), cs') => (Ok (Some it), (Some cs', nexts))
  | (Ok None, cs') =>
      match nexts with
      | SEnd => (Ok None, (None, SEnd))
      | SPanic => (Panic, (Some cs', nexts))
      | SCons c rest => titer_next_loop rest (c_src_strm k c)
      end
  | (Err e, cs') => (Err e, (Some cs', nexts))
  | (Panic, cs') => (Panic, (Some cs', nexts))
  | (OutOfFuel, cs') => (OutOfFuel, (Some cs', nexts))
  end.

(** [Iterator::next], core/src/text/iter.rs 72-87. *)
Definition titer_next (s : titer) : res Empty_set (option (item Pos)) * titer :=
  match ti_cur s with
  | None => (Ok None, TIter None (ti_next s) None None)
  | Some cs =>
      let '(r, (cur, nexts)) := titer_next_loop (ti_next s) cs in
      (r, TIter cur nexts None None)
  end.

(** The loop of [peek] from the second chunk on (on copies),
    core/src/text/iter.rs 106-119. *)
Fixpoint peek_ahead (nexts : chunk_seq C) : res Empty_set (option (item Pos)) :=
  match nexts with
  | SEnd => Ok None
  | SPanic => Panic
  | SCons c rest =>
      match fst (cs_peek k (c_src_strm k c)) with
      | Ok (Some it) => Ok (Some it)
      | Ok None => peek_ahead rest
      | r => r
      end
  end.

(** [peek], core/src/text/iter.rs 97-121. *)
Definition titer_peek (s : titer) : res Empty_set (option (item Pos)) * titer :=
  match ti_peeked s with
  | Some it => (Ok (Some it), s)
  | None =>
      match ti_cur s with
      | None => (Ok None, s)
      | Some cs =>
          let (r, cs') := cs_peek k cs in
          let r' := match r with Ok None => peek_ahead (ti_next s) | _ => r end in
          (r', TIter (Some cs') (ti_next s) (ti_accum s)
                     (match r' with Ok o => o | _ => None end))
      end
  end.

(** [self.accum.take().unwrap_or_else(TT::empty).concat(chunk.into(), dalloc)?]
    where [chunk] is [ccss.accum_done()], core/src/text/iter.rs 133-135,
    147-149. *)
Definition accum_chunk (accum : option TT) (cs : CS) (a : A)
  : res alloc_error TT * (CS * A) :=
  match cs_accum_done k cs with
  | (Ok c, cs') =>
      let (r, a') := tx_concat x (match accum with Some t => t | None => tx_empty x end)
                                 (tx_from x c) a in
      (r, (cs', a'))
  | (Err e, cs') => match e with end
  | (Panic, cs') => (Panic, (cs', a))
  | (OutOfFuel, cs') => (OutOfFuel, (cs', a))
  end.

(** The loop of [next_accum], core/src/text/iter.rs 128-142. *)
Fixpoint titer_next_accum_loop (nexts : chunk_seq C) (cs : CS) (accum : option TT) (a : A)
  : res alloc_error (option (item Pos)) * (titer * A) :=
  match cs_next_accum k cs with
  | (Ok (Some it), cs') => (Ok (Some it), (TIter (Some cs') nexts accum None, a))
  | (Ok None, cs') =>
      match accum_chunk accum cs' a with
      | (Ok t, (cs'', a')) =>
          match nexts with
          | SEnd => (Ok None, (TIter None SEnd (Some t) None, a'))
          | SPanic => (Panic, (TIter (Some cs'') nexts (Some t) None, a'))
          | SCons c rest => titer_next_accum_loop rest (c_src_strm k c) (Some t) a'
          end
      | (Err e, (cs'', a')) => (Err e, (TIter (Some cs'') nexts None None, a'))
      | (Panic, (cs'', a')) => (Panic, (TIter (Some cs'') nexts None None, a'))
      | (OutOfFuel, (cs'', a')) => (OutOfFuel, (TIter (Some cs'') nexts None None, a'))
      end
  | (Err e, cs') => match e with end
  | (Panic, cs') => (Panic, (TIter (Some cs') nexts accum None, a))
  | (OutOfFuel, cs') => (OutOfFuel, (TIter (Some cs') nexts accum None, a))
  end.

(** [next_accum], core/src/text/iter.rs 123-143. *)
Definition titer_next_accum (s : titer) (a : A)
  : res alloc_error (option (item Pos)) * (titer * A) :=
  match ti_cur s with
  | None => (Ok None, (TIter None (ti_next s) (ti_accum s) None, a))
  | Some cs => titer_next_accum_loop (ti_next s) cs (ti_accum s) a
  end.

(** [accum_done], core/src/text/iter.rs 145-152. *)
Definition titer_accum_done (s : titer) (a : A) : res alloc_error TT * (titer * A) :=
  match ti_cur s with
  | None => (Ok (match ti_accum s with Some t => t | None => tx_empty x end),
             (TIter None (ti_next s) None (ti_peeked s), a))
  | Some cs =>
      let '(r, (cs', a')) := accum_chunk (ti_accum s) cs a in
      (r, (TIter (Some cs') (ti_next s) None (ti_peeked s), a'))
  end.

Definition titer_stream : stream_ops titer A TT Pos := {|
  s_peek := titer_peek;
  s_next := titer_next;
  s_next_accum := titer_next_accum;
  s_accum_done := titer_accum_done |}.

(** Collecting all items with [Iterator::next] ([for], [map], [eq], [cmp] of
    core/src/text.rs 164-215 drive the iterator this way).  [n] bounds the number of
    calls. *)
Fixpoint titer_collect (n : nat) (s : titer) : res Empty_set (list (item Pos)) :=
  match n with
  | O => OutOfFuel
  | S n' =>
      match titer_next s with
      | (Ok None, _) => Ok []
      | (Ok (Some it), s') => res_map (cons it) (titer_collect n' s')
      | (Err e, _) => Err e
      | (Panic, _) => Panic
      | (OutOfFuel, _) => OutOfFuel
      end
  end.
End TextIter.
