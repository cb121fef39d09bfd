(** Observing the work of concatenating texts. *)
From Coq Require Import List Arith.
From Verif.Model Require Import Prelude Parser Chunk TextVec TextWork.
From Verif.Spec Require Import Memory.
Import ListNotations.
Set Implicit Arguments.

(** The texts of a datum. *)
Fixpoint texts_in {TT ET} (d : datum TT ET) : list TT :=
  match d with
  | DText t => [t]
  | DComb d1 d2 | DList d1 d2 => texts_in d1 ++ texts_in d2
  | _ => []
  end.

Section Chunks.
Context {TT C A ET : Type} (x : text_ops TT C A).

(** How many chunks each text of some datums has. *)
Definition chunk_counts (ds : list (datum TT ET)) : list nat :=
  map (fun t => chunk_count (tx_chunks x t)) (flat_map (@texts_in TT ET) ds).

(** No chunk is empty, unless it is the only one. *)
Definition no_empty_chunks {CS Pos} (k : chunk_ops C CS Pos) (t : TT) : Prop :=
  exists cs, tx_chunks x t = seq_of cs /\
    (length cs <= 1 \/ Forall (fun c => c_is_empty k c = Ok false) cs).
End Chunks.

(** The pairs among [n] things: [0 + 1 + ... + (n - 1)]. *)
Definition pairs (n : nat) : nat := list_sum (seq 0 n).

(** ** The same combiners in a parser that counts *)
(** The work that combiners do themselves is not counted. *)
Definition uncounted {A TT ET Pos CE} (bnd : bindings A TT ET Pos CE) : bindings (A * nat) TT ET Pos CE := fun d =>
  match bnd d with
  | Some (Operative f) => Some (Operative (fun d t a => let (r, a') := f d t (fst a) in (r, (a', snd a))))
  | Some (Applicative f) => Some (Applicative (fun d l a => let (r, a') := f d l (fst a) in (r, (a', snd a))))
  | None => None
  end.

Section Vectors.
Context {A C ET Pos CE : Type}.

(** A text, and a datum, with capacities: vectors with no room. *)
Definition cvec_of (t : tvec C) : cvec C :=
  match t with Single c => CSingle c | Multi l => CMulti (Vec l (length l)) end.
Fixpoint cvec_datum_of (d : datum (tvec C) ET) : datum (cvec C) ET :=
  match d with
  | DText t => DText (cvec_of t)
  | DComb d1 d2 => DComb (cvec_datum_of d1) (cvec_datum_of d2)
  | DEmptyNest => DEmptyNest
  | DList d1 d2 => DList (cvec_datum_of d1) (cvec_datum_of d2)
  | DEmptyList => DEmptyList
  | DExtra y => DExtra y
  end.
Definition cvec_result (r : option (datum (tvec C) ET) + error Pos CE) : option (datum (cvec C) ET) + error Pos CE :=
  match r with inl o => inl (option_map cvec_datum_of o) | inr e => inr e end.

(** The combiners are given what they are given without capacities. *)
Definition cvec_bindings (bnd : bindings A (tvec C) ET Pos CE) : bindings (A * nat) (cvec C) ET Pos CE := fun d =>
  match bnd (cvec_datum d) with
  | Some (Operative f) =>
      Some (Operative (fun d t a => let (r, a') := f (cvec_datum d) (cvec_forget t) (fst a) in (cvec_result r, (a', snd a))))
  | Some (Applicative f) =>
      Some (Applicative (fun d l a => let (r, a') := f (cvec_datum d) (cvec_datum l) (fst a) in (cvec_result r, (a', snd a))))
  | None => None
  end.

(** A result of [next] without capacities. *)
Definition cvec_item (o : option (datum (cvec C) ET + error Pos CE)) : option (datum (tvec C) ET + error Pos CE) :=
  option_map (fun r => match r with inl d => inl (cvec_datum d) | inr e => inr e end) o.
End Vectors.

(** The items that [next] will still give. *)
Inductive left_in {S A TT Pos} (so : stream_ops S A TT Pos) : S -> list (item Pos) -> Prop :=
| left_none s s' : s_next so s = (Ok None, s') -> left_in so s []
| left_some s i s' r : s_next so s = (Ok (Some i), s') -> left_in so s' r -> left_in so s (i :: r).
