(** Observing parsers: whole iterations, errors among the items, the items of
    sources, reading texts. *)
From Coq Require Import List NArith.
From Verif.Model Require Import Prelude Parser Iter Utf8 Chunk TextIter PosStr PosStrish.
Import ListNotations.
Set Implicit Arguments.

(** [iterates st items st']: iterating from [st] until [next] returns [None]
    gives [items] (going on after errors) and ends in [st'].  (C01 says there
    are such items.) *)
Definition iterates {S A TT ET Pos CE} umax cc (so : stream_ops S A TT Pos) co ao
    (bnd : bindings A TT ET Pos CE) (st : pstate S A) (items : list (datum TT ET + error Pos CE))
    (st' : pstate S A) : Prop :=
  exists n fuel, iter_collect umax cc so co ao bnd n fuel st = (Ok items, st').

(** [nexts st os st']: consecutive calls of [next] from [st] return [os] and end in
    [st']. *)
Inductive nexts {S A TT ET Pos CE} umax cc (so : stream_ops S A TT Pos) co ao
    (bnd : bindings A TT ET Pos CE)
  : pstate S A -> list (option (datum TT ET + error Pos CE)) -> pstate S A -> Prop :=
| nexts_nil st : nexts umax cc so co ao bnd st [] st
| nexts_cons fuel st o st1 os st2 :
    iter_next umax cc so co ao bnd fuel st = (Ok o, st1) -> nexts umax cc so co ao bnd st1 os st2 ->
    nexts umax cc so co ao bnd st (o :: os) st2.

(** The first error among items. *)
Fixpoint error_of {D E} (items : list (D + E)) : option E :=
  match items with
  | [] => None
  | inl _ :: l => error_of l
  | inr e :: _ => Some e
  end.

(** No combiner ever returns an error. *)
Definition combiners_succeed {W TT ET Pos CE} (bnd : bindings W TT ET Pos CE) : Prop :=
  forall d c, bnd d = Some c ->
  match c with
  | Operative f => forall d t w e w', f d t w <> (inr e, w')
  | Applicative f => forall d l w e w', f d l w <> (inr e, w')
  end.

(** The characters of a string with their positions: the string itself, the
    bytes before and the characters before. *)
Definition str_source (s : str) : list (item strpos) :=
  map (fun i => Item (nth i s 0%N) (StrPos s (byte_len (firstn i s)) (N.of_nat i))) (seq 0 (length s)).

(** The characters of a stream with their indices. *)
Definition char_source (s : str) : list (item charpos) :=
  map (fun i => Item (nth i s 0%N) (N.of_nat i)) (seq 0 (length s)).

(** Iterating over a text gives these items. *)
Definition reads {TT C CS A Pos} (k : chunk_ops C CS Pos) (x : text_ops TT C A) (t : TT) (l : list (item Pos)) : Prop :=
  exists n s, titer_new k x t = Ok s /\ titer_collect k n s = Ok l.

(** Iterating over the characters of a text gives these. *)
Definition reads_chars {TT C CS A Pos} (k : chunk_ops C CS Pos) (x : text_ops TT C A) (t : TT) (u : list char) : Prop :=
  exists l, reads k x t l /\ map it_ch l = u.
