(** [i128::from_str] of Rust's [core] library (documented behaviour), used by
    examples/common_basic.rs 80 and core/examples/stack_only.rs 136. *)
From Coq Require Import List NArith ZArith Bool.
From Verif.Model Require Import Prelude Utf8.
Import ListNotations.
Set Implicit Arguments.
Local Open Scope Z_scope.

(** [i128::MIN], [i128::MAX]. *)
Definition i128_min : Z := - 2 ^ 127.
Definition i128_max : Z := 2 ^ 127 - 1.

(** [char::to_digit(10)]. *)
Definition to_digit (c : char) : option Z :=
  if ((48 <=? c) && (c <=? 57))%N then Some (Z.of_N c - 48) else None.

(** A result that fits ([checked_mul], [checked_add], [checked_sub]). *)
Definition checked (z : Z) : option Z :=
  if (i128_min <=? z) && (z <=? i128_max) then Some z else None.

(** The loop of [i128::from_str_radix] with radix ten over the digits: they are
    added for positive numbers and subtracted for negative ones.
    Simplification: it is over characters, not bytes (the bytes of the others
    are not digits either), and the kinds of errors, which the examples discard,
    are one. *)
Fixpoint digits_loop (positive : bool) (result : Z) (digits : str) : option Z :=
  match digits with
  | [] => Some result
  | c :: rest =>
      match checked (result * 10), to_digit c with
      | Some m, Some x =>
          match checked (if positive then m + x else m - x) with
          | Some r => digits_loop positive r rest
          | None => None
          end
      | _, _ => None
      end
  end.

(** [i128::from_str]: an optional sign and at least one digit. *)
Definition i128_from_str (src : str) : option Z :=
  match src with
  | [] => None
  | c :: rest =>
      if ((c =? 43) || (c =? 45))%N then
        match rest with [] => None | _ => digits_loop (c =? 43)%N 0 rest end
      else digits_loop true 0 src
  end.
