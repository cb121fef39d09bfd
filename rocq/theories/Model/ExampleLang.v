(** The extended notation of the examples: [with_extensions] of
    examples/common_basic.rs (also in README.md) and of core/examples/stack_only.rs
    (also in core/README.md). *)
From Coq Require Import List NArith ZArith Bool.
From Verif.Model Require Import Prelude Parser Iter Utf8 Chunk TextIter PosStr TextVec TextDatumList Alloc
  DefaultClassifier DatumMethods TextMethods Bindings Premade Numeral.
Import ListNotations.
Set Implicit Arguments.

(** [MyDatumVariants], common_basic.rs 29-33 ([Time(SystemTime)] is [Other] of a number)
    and stack_only.rs 74-78 ([Thing] is [Other tt]). *)
Inductive variants (X : Type) : Type :=
| Other (x : X)
| Integer (z : Z).
Arguments Other {X} _.
Arguments Integer {X} _.

(** [MyCombinerError], common_basic.rs 37-41 (without [TooLong]) and stack_only.rs
    82-87. *)
Inductive my_error (D : Type) : Type :=
| Oops
| Darnit (d : D)
| TooLong.
Arguments Oops {D}.
Arguments Darnit {D} _.
Arguments TooLong {D}.

(** The derived [PartialEq]. *)
Definition variants_eq {X} (x_eq : X -> X -> bool) (a b : variants X) : bool :=
  match a, b with
  | Other x, Other y => x_eq x y
  | Integer z, Integer z' => (z =? z')%Z
  | _, _ => false
  end.

(** The derived [Hash] of common_basic.rs 29, with integers as 128 bits. *)
Definition variants_hash (a : variants N) : list hash_word :=
  match a with
  | Other t => [HDiscr 0; HOther t]
  | Integer z => [HDiscr 1; HOther (Z.to_N (z mod 2 ^ 128))]
  end.

(** The names of the operators: "#", "current-time", "thing", "int", "compound". *)
Definition name_comment : str := [35]%N.
Definition name_time : str := [99; 117; 114; 114; 101; 110; 116; 45; 116; 105; 109; 101]%N.
Definition name_thing : str := [116; 104; 105; 110; 103]%N.
Definition name_int : str := [105; 110; 116]%N.
Definition name_compound : str := [99; 111; 109; 112; 111; 117; 110; 100]%N.

Section Combiners.
(** [A]: the allocator's state (not used by these combiners) with all that can
    change, such as the clock. *)
Context {A TT X Pos : Type}.
Local Notation dat := (datum TT (variants X)).
Local Notation result := ((option dat + error Pos (my_error dat)) * A)%type.

(** [comment], common_basic.rs 59-61, stack_only.rs 111-113. *)
Definition comment (operator : dat) (operands : TT) (a : A) : result := (inl None, a).

(** [pass_thru], common_basic.rs 63-65, stack_only.rs 115-117. *)
Definition pass_thru (operator operands : dat) (a : A) : result := (inl (Some operands), a).

(** [current_time], common_basic.rs 67-73, with [SystemTime::now] as [now]; [thing],
    stack_only.rs 119-125, with a [now] that only returns [tt]. *)
Definition current (now : A -> X * A) (operator operands : dat) (a : A) : result :=
  match operands with
  | DEmptyList => let (x, a') := now a in (inl (Some (DExtra (Other x))), a')
  | _ => (inr (FailedCombiner (Darnit operands)), a)
  end.

(** [int], common_basic.rs 75-83, stack_only.rs 127-139, with [to_str] for making a
    string of the operands' text. *)
Definition int (to_str : TT -> str + my_error dat) (operator : dat) (operands : TT) (a : A) : result :=
  match to_str operands with
  | inl s =>
      match i128_from_str s with
      | Some i => (inl (Some (DExtra (Integer i))), a)
      | None => (inr (FailedCombiner Oops), a)
      end
  | inr e => (inr (FailedCombiner e), a)
  end.
End Combiners.

(** ** examples/common_basic.rs *)
Section CommonBasic.
Context {W : Type} (now : W -> N * W) (hasher : list hash_word -> N).
Local Notation ops := (im_ops (W:=W)).
Local Notation cb_datum := (im_datum (ET:=variants N)).

(** [operands.chars().collect::<String>()], common_basic.rs 80; [Text::chars] is
    core/src/text.rs 204-206.  Simplification: a panic of the iterator would be
    [Oops] here (that there is none is part of what is proved). *)
Definition cb_to_str (t : im_text) : str + my_error cb_datum :=
  match res_bind (titer_new posstr_ops ops t) (titer_collect posstr_ops (text_fuel ops posstr_size t)) with
  | Ok l => inl (map it_ch l)
  | _ => inr Oops
  end.

(** [bindings], common_basic.rs 90-103: inserted into the hash map one by one. *)
Definition cb_bindings : im_bindings (W:=W) (ET:=variants N) (CE:=my_error cb_datum) :=
  let insert := hm_insert (im_datum_eq (W:=W) (variants_eq N.eqb)) (im_datum_hash (W:=W) variants_hash) hasher in
  let text s := DText (tx_from ops (posstr_from s)) in
  insert (DComb (text name_compound) DEmptyList) (Applicative pass_thru)
   (insert (text name_int) (Operative (int cb_to_str))
    (insert (text name_time) (Applicative (current now))
     (insert (text name_comment) (Operative comment) []))).

(** [parse_str_with(input, bindings)], common_basic.rs 107-110. *)
Definition cb_parse (input : str) (w : W) :=
  parse_str_with (variants_eq N.eqb) variants_hash hasher input cb_bindings w.
End CommonBasic.

(** ** core/examples/stack_only.rs *)
Section StackOnly.
Context {W : Type}.
Local Notation so_text := (nh_text (ET:=variants unit)).
Local Notation so_datum := (nh_datum (ET:=variants unit)).
Local Notation ops := (nh_ops (W:=W) (ET:=variants unit)).
Definition unit_eq (a b : unit) : bool := true.

(** [operands.encode_utf8(&mut [0; 39])], stack_only.rs 133-135.  Simplification: a
    panic would be [Oops] here (that there is none is part of what is proved). *)
Definition so_to_str (t : so_text) : str + my_error so_datum :=
  match encode_utf8 posstr_ops ops (text_fuel ops posstr_size t) t (repeat 0%N 39) with
  | (Ok (inl s, _), _) => inl s
  | (Ok (inr _, _), _) => inr TooLong
  | _ => inr Oops
  end.

(** [bindings], stack_only.rs 148-167, for any allocator. *)
Definition so_pairs {A} : list (so_datum * combiner A so_text (variants unit) strpos (my_error so_datum)) :=
  let text s := DText (tx_from ops (posstr_from s)) in [
    (text name_comment, Operative comment);
    (text name_thing, Applicative (current (fun a => (tt, a))));
    (text name_int, Operative (int so_to_str));
    (DComb (text name_compound) DEmptyList, Applicative pass_thru)].
Definition so_bindings : nh_bindings (W:=W) (ET:=variants unit) (CE:=my_error so_datum) := so_pairs.

(** [parse_text_with(&Text::from_str(input), &mut parser(alloc_from, bindings))],
    stack_only.rs 172-187. *)
Definition so_parse (input : str) (alloc_from : list so_datum) (w : W) :=
  parse_text_with (variants_eq unit_eq) (tx_from ops (posstr_from input)) so_bindings (nh_parser alloc_from w).

(** The 18 slots of stack_only.rs 171-174. *)
Definition so_slots : list so_datum := repeat DEmptyNest 18.
End StackOnly.
