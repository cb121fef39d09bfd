(** Texts made of slices of the input, with true positions. *)
From Coq Require Import List NArith.
From Verif.Model Require Import Prelude Parser Utf8 Chunk PosStr PosStrish.
From Verif.Spec Require Import ChunkContract Run.
Import ListNotations.
Set Implicit Arguments.
Local Notation N_len r := (N.of_nat (length r)).

(** [all_texts ok d]: all texts inside [d] satisfy [ok]. *)
Fixpoint all_texts {TT ET} (ok : TT -> Prop) (d : datum TT ET) : Prop :=
  match d with
  | DText t => ok t
  | DComb a b | DList a b => all_texts ok a /\ all_texts ok b
  | _ => True
  end.

(** Combiners that are given datums and texts satisfying [ok] return such
    datums. *)
Definition combiner_keeps {A TT ET Pos CE} (ok : TT -> Prop) (c : combiner A TT ET Pos CE) : Prop :=
  match c with
  | Operative f => forall d t a x a', all_texts ok d -> ok t -> f d t a = (inl (Some x), a') -> all_texts ok x
  | Applicative f => forall d l a x a', all_texts ok d -> all_texts ok l -> f d l a = (inl (Some x), a') -> all_texts ok x
  end.

(** The chunk [c] is the slice of [src] at the position that [c] gives, and this
    position's byte index and character index are those of the same place. *)
Definition slice_of (src : str) (c : posstr) : Prop :=
  sp_src (ps_pos c) = src /\
  str_slice src (sp_byte (ps_pos c)) (sp_byte (ps_pos c) + byte_len (ps_val c)) = Ok (ps_val c) /\
  sp_byte (ps_pos c) = byte_len (firstn (N.to_nat (sp_char (ps_pos c))) src) /\
  (sp_char (ps_pos c) + N_len (ps_val c) <= N_len src)%N.

(** The range of the chunk [c] lies in its string, on character boundaries; the
    string [s] is one that starts at character [base] of the input, according to
    [held s base], and [c]'s position is that of the start of the range. *)
Definition range_of (held : str -> N -> Prop) (c : posstrish) : Prop :=
  let v := px_val c in
  exists base p u q, held (rs_str v) base /\
    str_slice (rs_str v) 0 (rs_start v) = Ok p /\
    rc_as_str v = Ok u /\
    str_slice (rs_str v) (rs_end v) (byte_len (rs_str v)) = Ok q /\
    px_pos c = (base + N_len p)%N.

(** [s] is one of the strings [strs], which starts at character [base] of their
    concatenation. *)
Definition held_by (strs : list str) (s : str) (base : N) : Prop :=
  exists l1 l2, strs = l1 ++ s :: l2 /\ base = N_len (List.concat l1).

(** [s] occurs in [input] at character [base]. *)
Definition occurs_in (input : str) (s : str) (base : N) : Prop :=
  exists pre post, input = pre ++ s ++ post /\ base = N_len pre.

(** All chunks of the text [t] satisfy [ok]. *)
Definition chunks_all {TT C A} (x : text_ops TT C A) (ok : C -> Prop) (t : TT) : Prop :=
  exists cs, tx_chunks x t = seq_of cs /\ Forall ok cs.

(** A text made of slices of strings in [P]. *)
Definition sliced {TT A} (x : text_ops TT posstr A) (P : str -> Prop) (t : TT) : Prop :=
  chunks_all x (fun c => ps_val c = [] \/ exists src, P src /\ slice_of src c) t.

(** A text made of ranges of reference-counted strings. *)
Definition ranged {TT A} (x : text_ops TT posstrish A) (held : str -> N -> Prop) (t : TT) : Prop :=
  chunks_all x (fun c => rc_as_str (px_val c) = Ok [] \/ range_of held c) t.

(** The text [t], over chunks described by [Rc], iterates over items that are all
    items (characters with positions) of [src]. *)
Definition from_source {TT C CS A Pos} (k : chunk_ops C CS Pos) (x : text_ops TT C A) (Rc : C -> list (item Pos) -> Prop)
    (src : list (item Pos)) (t : TT) : Prop :=
  exists l, text_items x Rc t l /\ reads k x t l /\ incl l src.
