(** The ready-made parsers: src/common/inmem.rs, src/common/stream.rs and
    core/src/premade/inmem.rs. *)
From Coq Require Import List NArith Bool.
From Verif.Model Require Import Prelude Parser Iter Utf8 Chunk TextIter PosStr PosStrish
  TextVec TextDatumList CharIter StrishIter Alloc DefaultClassifier TextMethods DatumMethods Bindings.
Import ListNotations.
Set Implicit Arguments.

(** Bounds for the number of characters, given to the loops over texts. *)
Fixpoint seq_size {C} (size : C -> nat) (s : chunk_seq C) : nat :=
  match s with SCons c rest => size c + seq_size size rest | _ => 0 end.
Definition posstr_size (p : posstr) : nat := length (ps_val p).
Definition posstrish_size (p : posstrish) : nat := length (rs_str (px_val p)).

(** [==] and hashing of texts as total functions, for use as keys (that
    comparing well-formed texts does not panic is proved in MethodFacts.v). *)
Section TextKeys.
Context {TT C CS A Pos : Type} (k : chunk_ops C CS Pos) (x : text_ops TT C A) (size : C -> nat).
Definition text_fuel (t : TT) : nat := S (seq_size size (tx_chunks x t)).
Definition text_eqb (t1 t2 : TT) : bool :=
  match text_eq k x k x (text_fuel t1) t1 t2 with Ok b => b | _ => false end.
Definition text_words (t : TT) : list hash_word :=
  match text_hash k x (text_fuel t) t with Ok l => l | _ => [] end.
End TextKeys.

(** [usize::MAX] of a 64-bit platform. *)
Definition usize_max : N := 2 ^ 64 - 1.

(** Bounds for a whole parse of [n] characters (see [Iter.iter_collect]). *)
Definition parse_calls (n : nat) : nat := S n.
Definition parse_fuel (n : nat) : nat := 3 * n + 3.

Section InMem.
Context {W ET CE : Type} (ET_eq : ET -> ET -> bool) (ET_hash : ET -> list hash_word)
        (hasher : list hash_word -> N).

(** src/common/inmem.rs 23, 57: [TextVec<PosStr>] and the box allocator. *)
Definition im_text : Type := tvec posstr.
Definition im_ops : text_ops im_text posstr W := tvec_ops posstr_ops.
Definition im_stream : stream_ops titer W im_text strpos := titer_stream posstr_ops im_ops.
Definition im_datum : Type := datum im_text ET.

(** Keys of the [HashMapOperatorBindings], src/common/inmem.rs 66-71. *)
Definition im_datum_eq : im_datum -> im_datum -> bool :=
  datum_eq (text_eqb posstr_ops im_ops posstr_size) ET_eq.
Definition im_datum_hash : im_datum -> list hash_word :=
  datum_hash (text_words posstr_ops im_ops posstr_size) ET_hash.
Definition im_bindings : Type := list (im_datum * combiner W im_text ET strpos CE).
Definition im_lookup (m : im_bindings) : bindings W im_text ET strpos CE :=
  hm_lookup im_datum_eq im_datum_hash hasher m.

(** [parse_str_with], src/common/inmem.rs 146-155, from combiners' state [w]:
    the items and the state after. *)
Definition parse_str_with (input : str) (m : im_bindings) (w : W)
  : res Empty_set (list (parse_item (TT:=im_text) (ET:=ET) (Pos:=strpos) (CE:=CE)))
    * option (pstate titer W) :=
  match titer_new posstr_ops im_ops (tx_from im_ops (posstr_from input)) with
  | Ok s =>
      let (r, st) := collect_up_to_first_err usize_max default_classifier im_stream
         (text_concat_ops im_ops) box_alloc (im_lookup m)
         (parse_calls (length input)) (parse_fuel (length input)) (parse_iter_new s w) in
      (r, Some st)
  | Err e => (Err e, None)
  | Panic => (Panic, None)
  | OutOfFuel => (OutOfFuel, None)
  end.

(** [parse_str], src/common/inmem.rs 179-182. *)
Definition parse_str (input : str) (w : W) := parse_str_with input [] w.
End InMem.

Section Stream.
Context {W ET CE : Type} (ET_eq : ET -> ET -> bool) (ET_hash : ET -> list hash_word)
        (hasher : list hash_word -> N).

(** src/common/stream.rs: [TextVec<PosStrish<Rc<String>>>] and the box
    allocator. *)
Definition st_text : Type := tvec posstrish.
Definition st_ops : text_ops st_text posstrish W := tvec_ops posstrish_ops.
Definition st_stream : stream_ops (strishiter st_text) W st_text charpos := strishiter_stream st_ops.
Definition st_datum : Type := datum st_text ET.
Definition st_datum_eq : st_datum -> st_datum -> bool :=
  datum_eq (text_eqb posstrish_ops st_ops posstrish_size) ET_eq.
Definition st_datum_hash : st_datum -> list hash_word :=
  datum_hash (text_words posstrish_ops st_ops posstrish_size) ET_hash.
Definition st_bindings : Type := list (st_datum * combiner W st_text ET charpos CE).
Definition st_lookup (m : st_bindings) : bindings W st_text ET charpos CE :=
  hm_lookup st_datum_eq st_datum_hash hasher m.

(** [parse_stream_with], src/common/stream.rs 151-161.  The user's iterator is the
    (finite) list of strings it yields. *)
Definition parse_stream_with (input : list str) (m : st_bindings) (w : W)
  : res Empty_set (list (parse_item (TT:=st_text) (ET:=ET) (Pos:=charpos) (CE:=CE)))
    * option (pstate (strishiter st_text) W) :=
  match strishiter_new input with
  | Ok s =>
      let n := length (List.concat input) in
      let (r, st) := collect_up_to_first_err usize_max default_classifier st_stream
         (text_concat_ops st_ops) box_alloc (st_lookup m)
         (parse_calls n) (parse_fuel n) (parse_iter_new s w) in
      (r, Some st)
  | Err e => (Err e, None)
  | Panic => (Panic, None)
  | OutOfFuel => (OutOfFuel, None)
  end.

(** [parse_stream], src/common/stream.rs 187-192. *)
Definition parse_stream (input : list str) (w : W) := parse_stream_with input [] w.

(** A parser as in src/common/stream.rs over a [CharIterSourceStream]
    (src/source_stream/char_iter_src_strm.rs), all items up to and including the
    first error. *)
Definition cs_stream : stream_ops chariter W st_text charpos := chariter_stream st_ops.
Definition parse_chars_with (input : str) (m : st_bindings) (w : W)
  : res Empty_set (list (parse_item (TT:=st_text) (ET:=ET) (Pos:=charpos) (CE:=CE)))
    * pstate chariter W :=
  let n := length input in
  collect_up_to_first_err usize_max default_classifier cs_stream
    (text_concat_ops st_ops) box_alloc (st_lookup m)
    (parse_calls n) (parse_fuel n) (parse_iter_new (chariter_new input) w).
End Stream.

Section NoHeap.
Context {W ET CE : Type} (ET_eq : ET -> ET -> bool).

(** core/src/premade/inmem.rs: [TextDatumList<PosStr>] and the slice
    allocator. *)
Definition nh_text : Type := tdl posstr ET.
Definition nh_datum : Type := datum nh_text ET.
Definition nh_alloc_state : Type := (slice_state nh_datum * W)%type.
Definition nh_ops : text_ops nh_text posstr nh_alloc_state := tdl_ops posstr_ops slice_alloc.
Definition nh_stream : stream_ops titer nh_alloc_state nh_text strpos := titer_stream posstr_ops nh_ops.
Definition nh_datum_eq : nh_datum -> nh_datum -> bool :=
  datum_eq (text_eqb posstr_ops nh_ops posstr_size) ET_eq.
Definition nh_bindings : Type := list (nh_datum * combiner nh_alloc_state nh_text ET strpos CE).
Definition nh_lookup (m : nh_bindings) : bindings nh_alloc_state nh_text ET strpos CE :=
  pair_lookup nh_datum_eq m.

(** [parser], core/src/premade/inmem.rs 187-200: the parser's allocator. *)
Definition nh_parser (alloc_from : list nh_datum) (w : W) : nh_alloc_state :=
  (slice_new alloc_from, w).

(** [parse_text_with], core/src/premade/inmem.rs 250-276, iterated to its end.
    The result holds the parser's allocator after, for further uses of the
    parser. *)
Definition parse_text_with (input : nh_text) (m : nh_bindings) (a : nh_alloc_state)
  : res Empty_set (list (parse_item (TT:=nh_text) (ET:=ET) (Pos:=strpos) (CE:=CE)))
    * option (pstate titer nh_alloc_state) :=
  match titer_new posstr_ops nh_ops input with
  | Ok s =>
      let n := seq_size posstr_size (tx_chunks nh_ops input) in
      let (r, st) := take_while_collect usize_max default_classifier nh_stream
         (text_concat_ops nh_ops) slice_alloc (nh_lookup m)
         (parse_calls n) (parse_fuel n) false (parse_iter_new s a) in
      (r, Some st)
  | Err e => (Err e, None)
  | Panic => (Panic, None)
  | OutOfFuel => (OutOfFuel, None)
  end.
End NoHeap.
