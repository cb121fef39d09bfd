(** Sequences of calls of a source stream and the answers that the
    documentation of [SourceStream] (core/src/lib.rs 145-195) promises. *)
From Coq Require Import List NArith.
From Verif.Model Require Import Prelude Parser.
Import ListNotations.
Set Implicit Arguments.

Inductive call : Type := CPeek | CNext | CNextAccum | CAccumDone.

Inductive answer (TT Pos : Type) : Type :=
| AItem (o : option (item Pos))
| AText (t : TT)
| AFailed (e : alloc_error).
Arguments AItem {TT Pos} _.
Arguments AText {TT Pos} _.
Arguments AFailed {TT Pos} _.

Section Calls.
Context {S A TT Pos : Type} (so : stream_ops S A TT Pos).

(** A call and its answer; a panic is not an answer. *)
Definition do_call (c : call) (s : S) (a : A) : res Empty_set (answer TT Pos) * (S * A) :=
  let answer_of {X} (f : X -> answer TT Pos) (r : res alloc_error X) :=
    match r with Ok x => Ok (f x) | Err e => Ok (AFailed e) | Panic => Panic | OutOfFuel => OutOfFuel end in
  match c with
  | CPeek => let (r, s') := s_peek so s in (res_map AItem r, (s', a))
  | CNext => let (r, s') := s_next so s in (res_map AItem r, (s', a))
  | CNextAccum => let (r, sa) := s_next_accum so s a in (answer_of AItem r, sa)
  | CAccumDone => let (r, sa) := s_accum_done so s a in (answer_of AText r, sa)
  end.

(** A sequence of calls. *)
Fixpoint do_calls (cs : list call) (s : S) (a : A) : res Empty_set (list (answer TT Pos)) * (S * A) :=
  match cs with
  | [] => (Ok [], (s, a))
  | c :: cs' =>
      match do_call c s a with
      | (Ok x, (s', a')) => let (r, sa) := do_calls cs' s' a' in (res_map (cons x) r, sa)
      | (Err e, sa) => (Err e, sa)
      | (Panic, sa) => (Panic, sa)
      | (OutOfFuel, sa) => (OutOfFuel, sa)
      end
  end.
End Calls.

Section Documented.
Context {Pos : Type}.
Local Notation text := (list (item Pos)).

(** The documented answers, when [rest] are the items to come and [pend] the
    accumulated ones: [peek] changes nothing, [next] drops the accumulation,
    [next_accum] adds to it and preserves it at the end, [accum_done] returns and
    resets it. *)
Fixpoint documented (cs : list call) (rest pend : text) : list (answer text Pos) :=
  match cs with
  | [] => []
  | CPeek :: cs' => AItem (hd_error rest) :: documented cs' rest pend
  | CNext :: cs' => AItem (hd_error rest) :: documented cs' (tl rest) []
  | CNextAccum :: cs' => AItem (hd_error rest) :: documented cs' (tl rest) (pend ++ firstn 1 rest)
  | CAccumDone :: cs' => AText pend :: documented cs' rest []
  end.

(** The same when allocation may fail: that may happen to [next_accum] and
    [accum_done] while something is accumulated, which is lost then; no item to
    come is lost. *)
Inductive may_answer : list call -> text -> text -> list (answer text Pos) -> Prop :=
| ma_nil rest pend : may_answer [] rest pend []
| ma_peek cs rest pend l : may_answer cs rest pend l ->
    may_answer (CPeek :: cs) rest pend (AItem (hd_error rest) :: l)
| ma_next cs rest pend l : may_answer cs (tl rest) [] l ->
    may_answer (CNext :: cs) rest pend (AItem (hd_error rest) :: l)
| ma_next_accum cs rest pend l : may_answer cs (tl rest) (pend ++ firstn 1 rest) l ->
    may_answer (CNextAccum :: cs) rest pend (AItem (hd_error rest) :: l)
| ma_next_accum_fail cs rest pend l : pend <> [] -> may_answer cs rest [] l ->
    may_answer (CNextAccum :: cs) rest pend (AFailed AllocExhausted :: l)
| ma_accum_done cs rest pend l : may_answer cs rest [] l ->
    may_answer (CAccumDone :: cs) rest pend (AText pend :: l)
| ma_accum_done_fail cs rest pend l : pend <> [] -> may_answer cs rest [] l ->
    may_answer (CAccumDone :: cs) rest pend (AFailed AllocExhausted :: l).
End Documented.

(** Answers with texts that consist of the given items. *)
Definition answer_rel {TT Pos} (R : TT -> list (item Pos) -> Prop) (x : answer TT Pos)
    (y : answer (list (item Pos)) Pos) : Prop :=
  match x, y with
  | AItem o, AItem o' => o = o'
  | AText t, AText l => R t l
  | AFailed e, AFailed e' => e = e'
  | _, _ => False
  end.
