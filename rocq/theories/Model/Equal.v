(** [==] between values of different types: texts, errors' positions and the
    results of parsing. *)
From Coq Require Import List Arith NArith Bool.
From Verif.Model Require Import Prelude Parser Utf8 Chunk TextIter PosStr PosStrish TextMethods DatumMethods Premade.
Import ListNotations.
Set Implicit Arguments.

Section Texts.
Context {T1 C1 S1 A1 P1 T2 C2 S2 A2 P2 : Type}.
Context (k1 : chunk_ops C1 S1 P1) (x1 : text_ops T1 C1 A1) (size1 : C1 -> nat).
Context (k2 : chunk_ops C2 S2 P2) (x2 : text_ops T2 C2 A2).

(** [PartialEq<TT>] of [TextVec] (src/text/vec.rs 38-45) and of [TextDatumList]
    (core/src/text/premade/datum_list.rs 51-58), for any other type of texts:
    [Text::eq], as a total function. *)
Definition texts_eqb (t1 : T1) (t2 : T2) : bool :=
  match text_eq k1 x1 k2 x2 (text_fuel x1 size1 t1) t1 t2 with Ok b => b | _ => false end.
End Texts.

(** [==] of [&str]. *)
Fixpoint str_eqb (a b : str) : bool :=
  match a, b with
  | [], [] => true
  | x :: a', y :: b' => (x =? y)%N && str_eqb a' b'
  | _, _ => false
  end.

(** [#[derive(PartialEq)]] of [StrPos],
    core/src/text/chunk/premade/pos_str.rs 15-25. *)
Definition strpos_eqb (p q : strpos) : bool :=
  str_eqb (sp_src p) (sp_src q) && (sp_byte p =? sp_byte q)%N && (sp_char p =? sp_char q)%N.

(** [#[derive(PartialEq)]] of [CharPos], src/text/chunk/pos_strish.rs 16-17. *)
Definition charpos_eqb (p q : charpos) : bool := (p =? q)%N.

Section Results.
Context {T1 T2 E1 E2 P1 P2 C1 C2 : Type}.
Context (teq : T1 -> T2 -> bool) (xeq : E1 -> E2 -> bool) (peq : P1 -> P2 -> bool) (ceq : C1 -> C2 -> bool).

(** Comparing two [Result]s returned by parsing with the [==] of datums
    (core/src/datum.rs 56-92) or the [==] of errors (core/src/error.rs 31-55),
    as a match on both does, or [==] itself if they have the same type. *)
Definition result_eq (r1 : datum T1 E1 + error P1 C1) (r2 : datum T2 E2 + error P2 C2) : bool :=
  match r1, r2 with
  | inl d1, inl d2 => datum_eq teq xeq d1 d2
  | inr e1, inr e2 => error_eq peq ceq e1 e2
  | _, _ => false
  end.

(** [Vec]s of such, collected from parsing. *)
Fixpoint results_eq (l1 : list (datum T1 E1 + error P1 C1)) (l2 : list (datum T2 E2 + error P2 C2)) : bool :=
  match l1, l2 with
  | [], [] => true
  | r1 :: l1', r2 :: l2' => result_eq r1 r2 && results_eq l1' l2'
  | _, _ => false
  end.
End Results.
