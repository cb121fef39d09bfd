(** The documented contracts of text chunks and texts, over the items they
    consist of. *)
From Coq Require Import List NArith.
From Verif.Model Require Import Prelude Parser Chunk.
From Verif.Spec Require Import Contract.
Import ListNotations.
Set Implicit Arguments.

Definition is_nil {X} (l : list X) : bool := match l with [] => true | _ => false end.

Section ChunkContract.
Context {C CS Pos TT A W : Type}.

(** [TextChunk] and [chunk::SourceStream] documentation, core/src/text.rs 47-98.
    [Rc c l]: chunk [c] consists of the items [l].  [Rcs s rest pend]: the
    chunk's stream [s] has [rest] to come and [pend] accumulated. *)
Record chunk_contract (k : chunk_ops C CS Pos) (Rc : C -> list (item Pos) -> Prop)
    (Rcs : CS -> list (item Pos) -> list (item Pos) -> Prop) : Prop := {
  kc_empty : Rc (c_empty k) [];
  kc_is_empty : forall c l, Rc c l -> c_is_empty k c = Ok (is_nil l);
  kc_src_strm : forall c l, Rc c l -> Rcs (c_src_strm k c) l [];
  kc_peek : forall s rest pend, Rcs s rest pend ->
    exists s', cs_peek k s = (Ok (hd_error rest), s') /\ Rcs s' rest pend;
  kc_next : forall s rest pend, Rcs s rest pend ->
    exists s', cs_next k s = (Ok (hd_error rest), s') /\ Rcs s' (tl rest) [];
  kc_next_accum : forall s rest pend, Rcs s rest pend ->
    exists s', cs_next_accum k s = (Ok (hd_error rest), s') /\
               Rcs s' (tl rest) (pend ++ firstn 1 rest);
  kc_accum_done : forall s rest pend, Rcs s rest pend ->
    exists s' c, cs_accum_done k s = (Ok c, s') /\ Rc c pend /\ Rcs s' rest [] }.

(** A text consists of the items of its chunks. *)
Definition text_items (x : text_ops TT C A) (Rc : C -> list (item Pos) -> Prop)
    (t : TT) (l : list (item Pos)) : Prop :=
  exists cs ls, tx_chunks x t = seq_of cs /\ Forall2 Rc cs ls /\ l = List.concat ls.

(** [Text] and [TextConcat] documentation, core/src/text.rs 100-307. *)
Record text_contract (F : Prop) (view : A -> W) (x : text_ops TT C A)
    (Rc : C -> list (item Pos) -> Prop) : Prop := {
  xc_from : forall c l, Rc c l -> text_items x Rc (tx_from x c) l;
  xc_concat : concat_contract F view (text_concat_ops x) (text_items x Rc) }.
End ChunkContract.
