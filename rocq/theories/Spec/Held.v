(** The strings that a [StrishIterSourceStream] refers to. *)
From Coq Require Import List NArith.
From Verif.Model Require Import Prelude Parser Utf8 Chunk PosStrish StrishIter.
Import ListNotations.
Set Implicit Arguments.

Fixpoint chunk_list {C} (s : chunk_seq C) : list C :=
  match s with SCons c s' => c :: chunk_list s' | _ => [] end.
(** The string of the stream over one of them. *)
Definition strs_of (o : option posstrish_iter) : list str :=
  match o with Some cs => [rs_str (px_val (xi_chunk cs))] | None => [] end.
(** Those of the stream being read, of the one looked ahead at, and of the chunks
    accumulated. *)
Definition stream_strs {TT A} (x : text_ops TT posstrish A) (s : strishiter TT) : list str :=
  strs_of (si_cur s) ++ strs_of (si_peeked s) ++
  match si_accum s with Some t => map (fun c => rs_str (px_val c)) (chunk_list (tx_chunks x t)) | None => [] end.
(** Without the empty ones, which are never referred to but made anew. *)
Definition nonempties (strs : list str) : list str :=
  filter (fun s => match s with [] => false | _ => true end) strs.
