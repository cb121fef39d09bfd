(** Decimal numerals and the integers they stand for. *)
From Coq Require Import List NArith ZArith.
From Verif.Model Require Import Prelude Utf8.
Import ListNotations.
Set Implicit Arguments.
Local Open Scope Z_scope.

Definition digit (c : char) : Prop := (48 <= c <= 57)%N.

(** The digit at a place with [n] places after it counts [10 ^ n]. *)
Fixpoint place_value (ds : str) : Z :=
  match ds with
  | [] => 0
  | c :: rest => (Z.of_N c - 48) * 10 ^ Z.of_nat (length rest) + place_value rest
  end.

(** [decimal s z]: [s] is an optional plus or minus and one or more digits, and
    stands for [z]. *)
Inductive decimal : str -> Z -> Prop :=
| dec_plain ds : ds <> [] -> Forall digit ds -> decimal ds (place_value ds)
| dec_plus ds : ds <> [] -> Forall digit ds -> decimal (43%N :: ds) (place_value ds)
| dec_minus ds : ds <> [] -> Forall digit ds -> decimal (45%N :: ds) (- place_value ds).

(** The integers of 128 bits. *)
Definition in_i128 (z : Z) : Prop := - 2 ^ 127 <= z < 2 ^ 127.
