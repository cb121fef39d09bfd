(** Text chunks and texts as records of operations (the Rust traits
    [TextChunk], [text::chunk::SourceStream], [Text], [TextConcat]). *)
From Coq Require Import List NArith Bool.
From Verif.Model Require Import Prelude Parser.
Import ListNotations.
Set Implicit Arguments.

(** [TextBase] and [TextChunk] for a chunk type [C] (core/src/text.rs 28-39,
    80-98), and [chunk::SourceStream] for its stream type [CS]
    (core/src/text.rs 55-77). *)
Record chunk_ops (C CS Pos : Type) : Type := ChunkOps {
  c_empty : C;
  c_is_empty : C -> res Empty_set bool;
  c_src_strm : C -> CS;
  cs_peek : CS -> res Empty_set (option (item Pos)) * CS;
  cs_next : CS -> res Empty_set (option (item Pos)) * CS;
  cs_next_accum : CS -> res Empty_set (option (item Pos)) * CS;
  cs_accum_done : CS -> res Empty_set C * CS }.

(** The chunks that an [iter::chunks::Iter] (core/src/text/iter/chunks.rs
    25-70) will yield.  [SPanic]: fetching the next one panics. *)
Inductive chunk_seq (C : Type) : Type :=
| SEnd
| SPanic
| SCons (c : C) (rest : chunk_seq C).
Arguments SEnd {C}.
Arguments SPanic {C}.
Arguments SCons {C} _ _.

Fixpoint seq_of {C} (l : list C) : chunk_seq C :=
  match l with [] => SEnd | c :: l' => SCons c (seq_of l') end.

(** [Text] and [TextConcat] for a text type [TT] (core/src/text.rs 127-307):
    [From<Chunk>], [iter_chunks], [empty], [concat]. *)
Record text_ops (TT C A : Type) : Type := TextOps {
  tx_from : C -> TT;
  tx_chunks : TT -> chunk_seq C;
  tx_empty : TT;
  tx_concat : TT -> TT -> A -> res alloc_error TT * A }.

(** [self.iter_chunks().all(TextBase::is_empty)], src/text/vec.rs 86-88 and
    core/src/text/premade/datum_list.rs 123-125. *)
Fixpoint all_empty {C CS Pos} (k : chunk_ops C CS Pos) (s : chunk_seq C) : res Empty_set bool :=
  match s with
  | SEnd => Ok true
  | SPanic => Panic
  | SCons c rest => res_bind (c_is_empty k c) (fun e => if e then all_empty k rest else Ok false)
  end.

(** The part of a text used by the parser. *)
Definition text_concat_ops {TT C A} (x : text_ops TT C A) : concat_ops A TT :=
  {| t_empty := tx_empty x; t_concat := tx_concat x |}.
