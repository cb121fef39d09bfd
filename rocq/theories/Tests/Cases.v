(** Concrete parsers and inputs used by the examples next to the theorems. *)
From Coq Require Import List NArith.
From Verif.Model Require Import Prelude Parser Iter Utf8 Chunk TextIter PosStr PosStrish
  TextVec TextDatumList CharIter StrishIter Alloc DefaultClassifier TextMethods DatumMethods Bindings Premade.
From Verif.Tests Require Export Str.
Import ListNotations.
Set Implicit Arguments.

(** Extras, combiner errors and the combiners' state are numbers here. *)
Definition num_eq (a b : N) : bool := (a =? b)%N.
Definition num_hash (a : N) : list hash_word := [HOther a].
Definition sum_hasher (l : list hash_word) : N :=
  fold_right (fun w n => match w with HDiscr i => n + i | HChar c => n + c | HOther i => n + i end)%N 0%N l.

Lemma num_eq_hash a b : num_eq a b = true -> num_hash a = num_hash b.
Proof. unfold num_eq. intros H. apply N.eqb_eq in H. subst. reflexivity. Qed.
Lemma num_eq_spec a b : num_eq a b = true <-> a = b.
Proof. apply N.eqb_eq. Qed.

Definition im_from (s : literal) : im_text := tx_from (im_ops (W:=N)) (posstr_from (lit s)).
Arguments im_from _%lit.

(** In-memory bindings: [q] quotes its operands text, [l] returns its argument
    list, [rm] removes the form, [err] fails, [n] counts its calls in the
    state. *)
Definition im_map : im_bindings (W:=N) (ET:=N) (CE:=N) := [
  (DText (im_from "q"), Operative (fun _ t w => (inl (Some (DText t)), w)));
  (DText (im_from "l"), Applicative (fun _ l w => (inl (Some l), w)));
  (DText (im_from "rm"), Operative (fun _ _ w => (inl None, w)));
  (DText (im_from "err"), Applicative (fun _ _ w => (inr (FailedCombiner 7), w)));
  (DText (im_from "n"), Applicative (fun _ _ w => (inl (Some (DExtra w)), w + 1)))]%N.

Definition im_run (s : literal) := fst (parse_str_with num_eq num_hash sum_hasher (lit s) im_map 0%N).

(** The same over the abstract texts. *)
Definition im_start (s : literal) (w : N) : pstate titer N :=
  match titer_new posstr_ops (im_ops (W:=N)) (im_from s) with
  | Ok t => parse_iter_new t w
  | _ => parse_iter_new (TIter None SEnd None None) w
  end.
Definition im_next := iter_next usize_max default_classifier im_stream (text_concat_ops im_ops) box_alloc
  (im_lookup num_eq num_hash sum_hasher im_map).
Definition im_collect := iter_collect usize_max default_classifier im_stream (text_concat_ops im_ops) box_alloc
  (im_lookup num_eq num_hash sum_hasher im_map).
Arguments im_start _%lit _.
Arguments im_run _%lit.
