(** Parsing in memory with a classifier of one's own, as in
    examples/non_default_delimiters.rs. *)
From Coq Require Import List NArith.
From Verif.Model Require Import Prelude Parser Iter Utf8 Chunk TextIter PosStr TextVec Alloc
  DefaultClassifier DatumMethods TextMethods Bindings Premade.
Import ListNotations.
Set Implicit Arguments.

(** [CustomCharClassifier], examples/non_default_delimiters.rs 11-29. *)
Definition custom_classifier : classifier := {|
  is_nest_start := fun c => (0x27EA =? c)%N;
  is_nest_end := fun c => (0x27EB =? c)%N;
  is_nest_escape := fun c => (0x241B =? c)%N;
  is_whitespace := unicode_whitespace |}.

Section InMem.
Context {W ET CE : Type} (ET_eq : ET -> ET -> bool) (ET_hash : ET -> list hash_word)
        (hasher : list hash_word -> N).

(** [Parser { classifier, allocator, bindings }.parse(inmem::Text::from_str(input).iter()).collect()],
    examples/non_default_delimiters.rs 45-50, with the types of src/common/inmem.rs
    and any classifier and bindings: all items, going on after errors, and the
    state after. *)
Definition collect_str (cc : classifier) (input : str) (m : im_bindings (W:=W) (ET:=ET) (CE:=CE)) (w : W)
  : res Empty_set (list (parse_item (TT:=im_text) (ET:=ET) (Pos:=strpos) (CE:=CE)))
    * option (pstate titer W) :=
  match titer_new posstr_ops (im_ops (W:=W)) (tx_from (im_ops (W:=W)) (posstr_from input)) with
  | Ok s =>
      let (r, st) := iter_collect usize_max cc im_stream
         (text_concat_ops im_ops) box_alloc (im_lookup ET_eq ET_hash hasher m)
         (parse_calls (length input)) (parse_fuel (length input)) (parse_iter_new s w) in
      (r, Some st)
  | Err e => (Err e, None)
  | Panic => (Panic, None)
  | OutOfFuel => (OutOfFuel, None)
  end.
End InMem.
