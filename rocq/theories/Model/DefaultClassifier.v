(** [DefaultCharClassifier], core/src/parser/premade/default_classifier.rs. *)
From Coq Require Import List NArith Bool.
From Verif.Model Require Import Prelude Parser.
Set Implicit Arguments.
Local Open Scope N_scope.

(** [char::is_whitespace] (Rust's [core]): the Unicode property White_Space. *)
Definition unicode_whitespace (c : char) : bool :=
  ((9 <=? c) && (c <=? 13)) || (c =? 0x20) || (c =? 0x85) || (c =? 0xA0) || (c =? 0x1680) ||
  ((0x2000 <=? c) && (c <=? 0x200A)) || (c =? 0x2028) || (c =? 0x2029) || (c =? 0x202F) ||
  (c =? 0x205F) || (c =? 0x3000).

(** default_classifier.rs 10-26: an opening brace, a closing brace, a
    backslash. *)
Definition default_classifier : classifier := {|
  is_nest_start := fun c => 0x7B =? c;
  is_nest_end := fun c => 0x7D =? c;
  is_nest_escape := fun c => 0x5C =? c;
  is_whitespace := unicode_whitespace |}.
