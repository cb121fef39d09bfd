(** Sequences of calls of streams that obey the contract. *)
From Coq Require Import List NArith.
From Verif.Model Require Import Prelude Parser.
From Verif.Spec Require Import Contract Calls.
Import ListNotations.
Set Implicit Arguments.

Section CallFacts.
Context {S A TT Pos W : Type} (F : Prop) (view : A -> W) (so : stream_ops S A TT Pos).
Context (Rs : S -> list (item Pos) -> list (item Pos) -> Prop) (Rt : TT -> list (item Pos) -> Prop).
Local Notation rel := (Forall2 (answer_rel Rt)).

Lemma calls_documented (SC : stream_contract False view so Rs Rt) : forall cs s a rest pend, Rs s rest pend ->
  exists xs s' a', do_calls so cs s a = (Ok xs, (s', a')) /\ rel xs (documented cs rest pend) /\ view a' = view a.
Proof.
  induction cs as [|c cs IH]; intros s a rest pend H.
  { exists [], s, a. repeat split; constructor. }
  destruct c; cbn [do_calls do_call documented].
  - destruct (sc_peek SC _ _ _ H) as (s1 & -> & H1). cbn [res_map].
    destruct (IH s1 a _ _ H1) as (xs & s' & a' & -> & Hx & Hv).
    exists (AItem (hd_error rest) :: xs), s', a'. split; [reflexivity|]. split; [|exact Hv]. constructor; auto. reflexivity.
  - destruct (sc_next SC _ _ _ H) as (s1 & -> & H1). cbn [res_map].
    destruct (IH s1 a _ _ H1) as (xs & s' & a' & -> & Hx & Hv).
    exists (AItem (hd_error rest) :: xs), s', a'. split; [reflexivity|]. split; [|exact Hv]. constructor; auto. reflexivity.
  - destruct (sc_next_accum SC _ a _ _ H) as [(s1 & a1 & -> & V & H1)|[[] _]].
    destruct (IH s1 a1 _ _ H1) as (xs & s' & a' & -> & Hx & Hv).
    exists (AItem (hd_error rest) :: xs), s', a'. split; [reflexivity|]. split; [|congruence]. constructor; auto. reflexivity.
  - destruct (sc_accum_done SC _ a _ _ H) as [(s1 & a1 & t & -> & V & Ht & H1)|[[] _]].
    destruct (IH s1 a1 _ _ H1) as (xs & s' & a' & -> & Hx & Hv).
    exists (AText t :: xs), s', a'. split; [reflexivity|]. split; [|congruence]. constructor; auto.
Qed.

Lemma calls_may_answer (SC : stream_contract F view so Rs Rt) : forall cs s a rest pend, Rs s rest pend ->
  exists xs ys s' a', do_calls so cs s a = (Ok xs, (s', a')) /\ may_answer cs rest pend ys /\ rel xs ys /\
    view a' = view a.
Proof.
  induction cs as [|c cs IH]; intros s a rest pend H.
  { exists [], [], s, a. repeat split; constructor. }
  destruct c; cbn [do_calls do_call].
  - destruct (sc_peek SC _ _ _ H) as (s1 & -> & H1). cbn [res_map].
    destruct (IH s1 a _ _ H1) as (xs & ys & s' & a' & -> & Hy & Hx & Hv).
    exists (AItem (hd_error rest) :: xs), (AItem (hd_error rest) :: ys), s', a'.
    split; [reflexivity|]. split; [constructor; auto|]. split; [|exact Hv]. constructor; auto. reflexivity.
  - destruct (sc_next SC _ _ _ H) as (s1 & -> & H1). cbn [res_map].
    destruct (IH s1 a _ _ H1) as (xs & ys & s' & a' & -> & Hy & Hx & Hv).
    exists (AItem (hd_error rest) :: xs), (AItem (hd_error rest) :: ys), s', a'.
    split; [reflexivity|]. split; [constructor; auto|]. split; [|exact Hv]. constructor; auto. reflexivity.
  - destruct (sc_next_accum SC _ a _ _ H) as [(s1 & a1 & -> & V & H1)|(HF & s1 & a1 & -> & V & Hp & H1)].
    + destruct (IH s1 a1 _ _ H1) as (xs & ys & s' & a' & -> & Hy & Hx & Hv).
      exists (AItem (hd_error rest) :: xs), (AItem (hd_error rest) :: ys), s', a'.
      split; [reflexivity|]. split; [constructor; auto|]. split; [|congruence]. constructor; auto. reflexivity.
    + destruct (IH s1 a1 _ _ H1) as (xs & ys & s' & a' & -> & Hy & Hx & Hv).
      exists (AFailed AllocExhausted :: xs), (AFailed AllocExhausted :: ys), s', a'.
      split; [reflexivity|]. split; [apply ma_next_accum_fail; auto|]. split; [|congruence]. constructor; auto. reflexivity.
  - destruct (sc_accum_done SC _ a _ _ H) as [(s1 & a1 & t & -> & V & Ht & H1)|(HF & s1 & a1 & -> & V & Hp & H1)].
    + destruct (IH s1 a1 _ _ H1) as (xs & ys & s' & a' & -> & Hy & Hx & Hv).
      exists (AText t :: xs), (AText pend :: ys), s', a'.
      split; [reflexivity|]. split; [apply ma_accum_done; auto|]. split; [|congruence]. constructor; auto.
    + destruct (IH s1 a1 _ _ H1) as (xs & ys & s' & a' & -> & Hy & Hx & Hv).
      exists (AFailed AllocExhausted :: xs), (AFailed AllocExhausted :: ys), s', a'.
      split; [reflexivity|]. split; [apply ma_accum_done_fail; auto|]. split; [|congruence]. constructor; auto. reflexivity.
Qed.

Lemma answers_mono (R R' : TT -> list (item Pos) -> Prop) : (forall t l, R t l -> R' t l) ->
  forall xs ys, Forall2 (answer_rel R) xs ys -> Forall2 (answer_rel R') xs ys.
Proof.
  intros HR xs ys H. induction H as [|x y xs ys Hx _ IH]; constructor; auto.
  destruct x, y; cbn in *; auto.
Qed.
End CallFacts.
