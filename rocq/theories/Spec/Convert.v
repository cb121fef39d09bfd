(** What converters of accumulated strings are given and what becomes of texts. *)
From Coq Require Import List NArith.
From Verif.Model Require Import Prelude Parser Utf8 Chunk PosStrish TextVec.
From Verif.Spec Require Import Calls ChunkContract TextWork.
Import ListNotations.
Set Implicit Arguments.

(** A converter that also notes its arguments. *)
Definition noting {K} (conv : str -> K -> str * K) (s : str) (k : K * list str) : str * (K * list str) :=
  let (r, k') := conv s (fst k) in (r, (k', snd k ++ [s])).

(** The strings are parts of the other, not empty, apart from each other and in this order. *)
Inductive parts_of : list str -> str -> Prop :=
| po_none : parts_of [] []
| po_between l s c : parts_of l s -> parts_of l (s ++ [c])
| po_part l s v : v <> [] -> parts_of l s -> parts_of (l ++ [v]) (s ++ v).

(** The characters of the non-empty texts among answers. *)
Definition strings_of {Pos} (l : list (answer (list (item Pos)) Pos)) : list str :=
  flat_map (fun x => match x with AText (i :: t) => [map it_ch (i :: t)] | _ => [] end) l.

(** The items of a string whose first character is at the position. *)
Definition from_pos (p : charpos) (s : str) : list (item charpos) :=
  map (fun j => Item (nth j s 0%N) (p + N.of_nat j)%N) (seq 0 (length s)).

(** One text is the other with its parts converted, each of which starts where it did. *)
Definition converted {TT A K} (conv : str -> K -> str * K) (x : text_ops TT posstrish A)
    (Rc : posstrish -> list (item charpos) -> Prop) (t1 t2 : TT) : Prop :=
  exists l : list (charpos * str * str),
    Forall (fun '(p, r, s) => exists k, fst (conv s k) = r) l /\
    text_items x Rc t1 (flat_map (fun '(p, r, s) => from_pos p r) l) /\
    text_items x Rc t2 (flat_map (fun '(p, r, s) => from_pos p s) l).

(** The non-empty ones among strings, the string that a chunk refers to and the part of it that it consists of, and
    the chunks of datums in order. *)
Definition nonempty : list str -> list str := filter (fun s => negb (is_nil s)).
Definition chunk_string (c : posstrish) : str := rs_str (px_val c).
Definition chunk_chars (c : posstrish) : str := match rc_as_str (px_val c) with Ok s => s | _ => [] end.
Definition chunks_in {ET} (ds : list (datum (tvec posstrish) ET)) : list posstrish := flat_map (fun d => flat_map tvec_slice (texts_in d)) ds.
