(** ASCII string literals as lists of characters, for examples. *)
From Coq Require Import List NArith Strings.Byte.
From Verif.Model Require Import Prelude.
Inductive literal : Set := Literal (l : list byte).
Definition literal_of (l : list byte) : literal := Literal l.
Definition of_literal (l : literal) : list byte := match l with Literal l => l end.
Declare Scope lit_scope.
Delimit Scope lit_scope with lit.
String Notation literal literal_of of_literal : lit_scope.
Definition lit (l : literal) : list char := List.map Byte.to_N (of_literal l).
Arguments lit _%lit.
