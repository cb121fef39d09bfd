(** Vocabulary for the examples' extended notation. *)
From Coq Require Import List NArith ZArith.
From Verif.Model Require Import Prelude Parser Utf8 PosStr Numeral ExampleLang.
From Verif.Spec Require Import Numeral.
Import ListNotations.
Set Implicit Arguments.

(** [P] holds of all operators of combinations in a datum. *)
Fixpoint all_operators {TT ET} (P : datum TT ET -> Prop) (d : datum TT ET) : Prop :=
  match d with
  | DComb o l => P o /\ all_operators P o /\ all_operators P l
  | DList e l => all_operators P e /\ all_operators P l
  | _ => True
  end.

(** One of the operators of the notation, where [other] names the one that gives the
    current time or thing. *)
Definition named {TT ET} (reads : TT -> str -> Prop) (other : str) (o : datum TT ET) : Prop :=
  (exists t s, o = DText t /\ reads t s /\ In s [name_comment; other; name_int]) \/
  (exists t, o = DComb (DText t) DEmptyList /\ reads t name_compound).

(** The extras in a datum, from left to right. *)
Fixpoint extras {TT ET} (d : datum TT ET) : list ET :=
  match d with
  | DComb a b | DList a b => extras a ++ extras b
  | DExtra x => [x]
  | _ => []
  end.

Definition others {X} (l : list (variants X)) : list X :=
  flat_map (fun v => match v with Other x => [x] | Integer _ => [] end) l.
Definition integers {X} (l : list (variants X)) : list Z :=
  flat_map (fun v => match v with Other _ => [] | Integer z => [z] end) l.

(** What holds of all datums of the notation: no operator of the notation is left,
    and all integers are in some range. *)
Definition tidy {TT X} (reads : TT -> str -> Prop) (other : str) (range : Z -> Prop) (d : datum TT (variants X)) : Prop :=
  all_operators (fun o => ~ named reads other o) d /\ Forall range (integers (extras d)).

(** [readings now w xs w']: asking [now] as often as [xs] is long takes [w] to [w']
    and gives [xs]. *)
Inductive readings {W X} (now : W -> X * W) : W -> list X -> W -> Prop :=
| rd_nil w : readings now w [] w
| rd_cons w x w1 xs w' : now w = (x, w1) -> readings now w1 xs w' -> readings now w (x :: xs) w'.

(** What an [int] form with these characters means, if numerals up to [limit] bytes
    are accepted. *)
Definition int_means {TT X Pos D} (limit : option nat) (u : str)
    (r : datum TT (variants X) + error Pos (my_error D)) : Prop :=
  (exists n, limit = Some n /\ n < length (encode u) /\ r = inr (FailedCombiner TooLong)) \/
  ((forall n, limit = Some n -> length (encode u) <= n) /\
   ((exists z, decimal u z /\ in_i128 z /\ r = inl (DExtra (Integer z))) \/
    ((forall z, decimal u z -> ~ in_i128 z) /\ r = inr (FailedCombiner Oops)))).

(** ** The whole notation *)
(** What the operators of the notation stand for, as functions of the characters of
    operators and operands: [#] removes its form; [other] reads the clock if it has no operands,
    and otherwise fails with them; [int] reads a numeral (C54_int says which); [{compound}]
    gives its operands; all other operators are not bound. *)
Definition int_value {TT X Pos D} (limit : option nat) (u : str) : option (datum TT (variants X)) + error Pos (my_error D) :=
  if match limit with Some n => Nat.ltb n (length (encode u)) | None => false end then inr (FailedCombiner TooLong)
  else match i128_from_str u with
       | Some z => inl (Some (DExtra (Integer z)))
       | None => inr (FailedCombiner Oops)
       end.

Definition chars_are {Pos} (t : list (item Pos)) (s : str) : bool :=
  if list_eq_dec N.eq_dec (map it_ch t) s then true else false.

Definition notation {W X Pos} (other : str) (now : W -> X * W) (limit : option nat) :
    bindings W (list (item Pos)) (variants X) Pos (my_error (datum (list (item Pos)) (variants X))) := fun o =>
  match o with
  | DText t =>
      if chars_are t name_comment then Some (Operative (fun _ _ w => (inl None, w)))
      else if chars_are t other then Some (Applicative (fun _ operands w =>
        match operands with
        | DEmptyList => (inl (Some (DExtra (Other (fst (now w))))), snd (now w))
        | _ => (inr (FailedCombiner (Darnit operands)), w)
        end))
      else if chars_are t name_int then Some (Operative (fun _ operands w => (int_value limit (map it_ch operands), w)))
      else None
  | DComb (DText t) DEmptyList =>
      if chars_are t name_compound then Some (Applicative (fun _ operands w => (inl (Some operands), w))) else None
  | _ => None
  end.

(** Errors of these combiners about related datums. *)
Definition my_error_rel {D1 D2} (R : D1 -> D2 -> Prop) (e1 : my_error D1) (e2 : my_error D2) : Prop :=
  match e1, e2 with
  | Oops, Oops => True
  | Darnit d1, Darnit d2 => R d1 d2
  | TooLong, TooLong => True
  | _, _ => False
  end.

