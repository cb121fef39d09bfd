(** Characters that different classifiers treat alike. *)
From Coq Require Import List NArith.
From Verif.Model Require Import Prelude Parser Chunk TextIter.
From Verif.Spec Require Import Run.
Import ListNotations.
Set Implicit Arguments.

(** [c1] is to [cc1] what [c2] is to [cc2]. *)
Definition same_class (cc1 cc2 : classifier) (c1 c2 : char) : Prop :=
  is_nest_start cc1 c1 = is_nest_start cc2 c2 /\ is_nest_end cc1 c1 = is_nest_end cc2 c2 /\
  is_nest_escape cc1 c1 = is_nest_escape cc2 c2 /\ is_whitespace cc1 c1 = is_whitespace cc2 c2.

(** Equal characters correspond to equal ones only, and different to different. *)
Definition one_to_one (Rch : char -> char -> Prop) : Prop :=
  forall a b c d, Rch a b -> Rch c d -> (a = c <-> b = d).

(** Related characters at related positions. *)
Definition item_by {P1 P2} (Rch : char -> char -> Prop) (Rp : P1 -> P2 -> Prop) (i1 : item P1) (i2 : item P2) : Prop :=
  Rch (it_ch i1) (it_ch i2) /\ Rp (it_pos i1) (it_pos i2).

(** Texts with related characters at related positions. *)
Definition text_by {T1 C1 CS1 A1 P1 T2 C2 CS2 A2 P2} (k1 : chunk_ops C1 CS1 P1) (x1 : text_ops T1 C1 A1)
    (k2 : chunk_ops C2 CS2 P2) (x2 : text_ops T2 C2 A2) (Rch : char -> char -> Prop) (Rp : P1 -> P2 -> Prop)
    (t1 : T1) (t2 : T2) : Prop :=
  exists l1 l2, reads k1 x1 t1 l1 /\ reads k2 x2 t2 l2 /\ Forall2 (item_by Rch Rp) l1 l2.

(** The delimiters and escape of the default classifier exchanged with those of
    examples/non_default_delimiters.rs. *)
Definition swap (c : char) : char :=
  (if c =? 0x7B then 0x27EA else if c =? 0x7D then 0x27EB else if c =? 0x5C then 0x241B else
   if c =? 0x27EA then 0x7B else if c =? 0x27EB then 0x7D else if c =? 0x241B then 0x5C else c)%N.
