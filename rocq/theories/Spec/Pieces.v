(** The chunks of texts as parts of the source. *)
From Coq Require Import List NArith.
From Verif.Model Require Import Prelude Parser Utf8 Chunk PosStr PosStrish TextVec.
From Verif.Spec Require Import Run TextWork.
Import ListNotations.
Set Implicit Arguments.

(** [l] occurs in [src] in one piece. *)
Definition part_of {X} (src l : list X) : Prop := exists p q, src = p ++ l ++ q.

(** Parts of [src], as long as possible: no two consecutive ones could be one. *)
Definition pieces {X} (src : list X) (ls : list (list X)) : Prop :=
  Forall (part_of src) ls /\ forall a l1 l2 b, ls = a ++ l1 :: l2 :: b -> ~ part_of src (l1 ++ l2).

(** The chunks of [t] are such parts of the source. *)
Definition chunks_are_pieces {TT C A Pos} (x : text_ops TT C A) (Rc : C -> list (item Pos) -> Prop)
    (src : list (item Pos)) (t : TT) (ls : list (list (item Pos))) : Prop :=
  exists cs, tx_chunks x t = seq_of cs /\ Forall2 Rc cs ls /\ pieces src ls.

(** Combiners that are given and return such texts only. *)
Definition keeps_texts {A TT ET Pos CE} (ok : TT -> Prop) (bnd : bindings A TT ET Pos CE) : Prop :=
  forall d, Forall ok (texts_in d) -> match bnd d with
  | Some (Operative f) => forall t a o a', ok t -> f d t a = (inl (Some o), a') -> Forall ok (texts_in o)
  | Some (Applicative f) => forall l a o a', Forall ok (texts_in l) -> f d l a = (inl (Some o), a') -> Forall ok (texts_in o)
  | None => True
  end.

(** The slice of [input] from its [i]-th character to before its [j]-th one, with
    its position. *)
Definition slice_at (input : str) (r : nat * nat) : posstr :=
  let (i, j) := r in
  PosStr (firstn (j - i) (skipn i input)) (StrPos input (byte_len (firstn i input)) (N.of_nat i)).
(** Not empty, inside [input], and consecutive ones not adjacent. *)
Definition good_slices (input : str) (rs : list (nat * nat)) : Prop :=
  Forall (fun r => fst r < snd r <= length input) rs /\
  forall a r1 r2 b, rs = a ++ r1 :: r2 :: b -> snd r1 <> fst r2.

(** The same for a source of several parts [srcs], e.g. strings: a piece lies in one of
    them. *)
Definition part_of_one {X} (srcs : list (list X)) (l : list X) : Prop :=
  l = [] \/ exists src, In src srcs /\ part_of src l.
Definition pieces_of {X} (srcs ls : list (list X)) : Prop :=
  Forall (part_of_one srcs) ls /\ forall a l1 l2 b, ls = a ++ l1 :: l2 :: b -> ~ part_of_one srcs (l1 ++ l2).
Definition chunks_are_pieces_of {TT C A Pos} (x : text_ops TT C A) (Rc : C -> list (item Pos) -> Prop)
    (srcs : list (list (item Pos))) (t : TT) (ls : list (list (item Pos))) : Prop :=
  exists cs, tx_chunks x t = seq_of cs /\ Forall2 Rc cs ls /\ pieces_of srcs ls.

(** The part of the [i]-th of the strings [strs] from its [a]-th character to before its
    [b]-th one, with its position in the concatenation. *)
Definition range_at (strs : list str) (r : nat * (nat * nat)) : posstrish :=
  let '(i, (a, b)) := r in
  let s := nth i strs [] in
  PosStrish (RcSlice s (byte_len (firstn a s)) (byte_len (firstn b s)))
    (N.of_nat (length (List.concat (firstn i strs)) + a)).
(** Not empty, inside the string, and consecutive ones not adjacent in the same string. *)
Definition good_ranges (strs : list str) (rs : list (nat * (nat * nat))) : Prop :=
  Forall (fun r => fst r < length strs /\ fst (snd r) < snd (snd r) <= length (nth (fst r) strs [])) rs /\
  forall a r1 r2 b, rs = a ++ r1 :: r2 :: b -> ~ (fst r1 = fst r2 /\ snd (snd r1) = fst (snd r2)).
(** A text made of such ranges; or one without characters, which refers to none of the
    strings. *)
Definition made_of_ranges (strs : list str) (t : tvec posstrish) : Prop :=
  tvec_slice t = [posstrish_empty] \/ exists rs, tvec_slice t = map (range_at strs) rs /\ good_ranges strs rs.
