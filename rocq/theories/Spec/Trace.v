(** Recording calls of combiners: the combiners' state gets a log to which every
    call is added. *)
From Coq Require Import List NArith.
From Verif.Model Require Import Prelude Parser.
Import ListNotations.
Set Implicit Arguments.

Section Trace.
Context {W TT ET Pos CE : Type}.

(** A call of a combiner and its result. *)
Inductive event : Type :=
| OperativeCall (operator : datum TT ET) (operands : TT)
    (result : option (datum TT ET) + error Pos CE)
| ApplicativeCall (operator arguments : datum TT ET)
    (result : option (datum TT ET) + error Pos CE).

Definition ev_result (e : event) : option (datum TT ET) + error Pos CE :=
  match e with OperativeCall _ _ r => r | ApplicativeCall _ _ r => r end.

Definition logged (bnd : bindings W TT ET Pos CE)
  : bindings (W * list event) TT ET Pos CE := fun d =>
  match bnd d with
  | Some (Operative f) => Some (Operative (fun d t wl =>
      let (r, w') := f d t (fst wl) in (r, (w', snd wl ++ [OperativeCall d t r]))))
  | Some (Applicative f) => Some (Applicative (fun d l wl =>
      let (r, w') := f d l (fst wl) in (r, (w', snd wl ++ [ApplicativeCall d l r]))))
  | None => None
  end.

(** All calls succeeded. *)
Definition all_ok (l : list event) : Prop := Forall (fun e => exists o, ev_result e = inl o) l.

(** [calls w w']: successful calls of combiners take their state from [w] to [w']. *)
Inductive calls (bnd : bindings W TT ET Pos CE) : W -> W -> Prop :=
| calls_refl w : calls bnd w w
| calls_operative w w1 w2 d0 d f t o :
    calls bnd w w1 -> bnd d0 = Some (Operative f) -> f d t w1 = (inl o, w2) -> calls bnd w w2
| calls_applicative w w1 w2 d0 d f l o :
    calls bnd w w1 -> bnd d0 = Some (Applicative f) -> f d l w1 = (inl o, w2) -> calls bnd w w2.

End Trace.
