(** C01, C02, C10: termination, absence of panics and clean state between
    forms, for every classifier, all bindings and failing allocators. *)
From Coq Require Import List NArith Arith.
From Verif.Model Require Import Prelude Parser Iter Utf8 Chunk TextIter PosStr PosStrish
  TextVec TextDatumList CharIter StrishIter Alloc DefaultClassifier TextMethods DatumMethods Bindings Premade.
From Verif.Spec Require Import Contract ChunkContract History.
From Verif.Proofs Require Import Safety Refine ChunkFacts TextFacts AllocFacts HistoryFacts Transfer Instances Concrete.
From Verif.Tests Require Import Cases.
Import ListNotations.
Local Notation N_len r := (N.of_nat (length r)).

Section Generic.
Context {S A TT ET Pos CE W : Type}.
Context (umax : N) (cc : classifier) (so : stream_ops S A TT Pos) (co : concat_ops A TT)
        (ao : alloc_ops A TT ET) (bnd : bindings A TT ET Pos CE).
Context (Rs : S -> list (item Pos) -> list (item Pos) -> Prop)
        (Rt : TT -> list (item Pos) -> Prop).
Context (F : Prop) (view : A -> W).
Context (SC : stream_contract F view so Rs Rt) (TC : concat_contract F view co Rt)
        (AC : alloc_contract F view ao).
Local Notation next := (iter_next umax cc so co ao bnd).
Local Notation called := (called umax cc so co ao bnd).

(** C01.  A parser over the source [s] has been asked for items any number of
    times.  Then the next call returns, if it is given at least a number of
    steps linear in the length of the source; if it returns an item then at
    least one character has been consumed; and there have been at most as many
    items as characters consumed. *)
Theorem C01_next_returns st s rs st1 :
  ps_depth st = 0%N -> Rs (ps_strm st) s [] -> (N_len s <= umax)%N -> called st rs st1 ->
  exists r p, Rs (ps_strm st1) r p /\ suffix r s /\
    length (some_items rs) + length r <= length s /\
    exists o st2, (forall fuel, 3 * length s + 3 <= fuel -> next fuel st1 = (Ok o, st2)) /\
      match o with
      | None => True
      | Some _ => exists r' p', Rs (ps_strm st2) r' p' /\ suffix r' r /\ length r' < length r
      end.
Proof.
  intros D H Hu C. destruct (history_safe SC TC AC _ D H Hu C)
    as (r & p & H1 & _ & _ & H2 & H3 & o & st2 & H4 & _ & H5).
  exists r, p. split; [exact H1|]. split; [exact H2|]. split; [exact H3|]. exists o, st2. split; assumption.
Qed.

(** After [None] comes only [None]. *)
Theorem C01_fused st s a b st1 :
  ps_depth st = 0%N -> Rs (ps_strm st) s [] -> (N_len s <= umax)%N ->
  called st (a ++ None :: b) st1 -> Forall (eq None) b.
Proof.
  intros D H Hu C. eapply (called_after_none SC TC AC); [exact C|exact Hu| |reflexivity].
  split; [exact D|]. exists []. auto.
Qed.

(** C02.  No call panics. *)
Theorem C02_no_panic st s rs st1 fuel :
  ps_depth st = 0%N -> Rs (ps_strm st) s [] -> (N_len s <= umax)%N -> called st rs st1 ->
  fst (next fuel st1) <> Panic.
Proof.
  intros D H Hu C. destruct (history_safe SC TC AC _ D H Hu C)
    as (r & p & _ & _ & _ & _ & _ & o & st2 & _ & H4 & _).
  destruct (H4 fuel) as [->| ->]; discriminate.
Qed.

(** C10.  After any calls, with whatever results, the nest depth is 0 and
    nothing is pending unless the stream is at its end. *)
Theorem C10_clean_between_forms st s rs st1 :
  ps_depth st = 0%N -> Rs (ps_strm st) s [] -> (N_len s <= umax)%N -> called st rs st1 ->
  ps_depth st1 = 0%N /\ exists r p, Rs (ps_strm st1) r p /\ suffix r s /\ (p = [] \/ r = []).
Proof.
  intros D H Hu C. destruct (history_safe SC TC AC _ D H Hu C)
    as (r & p & H1 & H2 & H3 & H4 & _). split; [exact H2|]. exists r, p. auto.
Qed.
End Generic.
Print Assumptions C01_next_returns.
Print Assumptions C01_fused.
Print Assumptions C02_no_panic.
Print Assumptions C10_clean_between_forms.

(** The ready-made parsers, with arbitrary bindings: they return at most as many
    items as there are characters, without panicking (the number of steps given
    to them is linear in the input). *)
Theorem C01_parse_str {W ET CE} ET_eq ET_hash hasher input (m : im_bindings (W:=W) (ET:=ET) (CE:=CE)) w :
  (N_len input <= usize_max)%N ->
  exists items st, parse_str_with ET_eq ET_hash hasher input m w = (Ok items, Some st) /\
    length items <= length input.
Proof.
  intros Hu. destruct (parse_str_with_safe ET_eq ET_hash hasher input m w Hu) as (s & all & st & st' & _ & _ & E & Hl).
  exists (upto_err all), st. split; [exact E|]. exact (Nat.le_trans _ _ _ (upto_len all) Hl).
Qed.
Print Assumptions C01_parse_str.

Theorem C01_parse_stream {W ET CE} ET_eq ET_hash hasher strs (m : st_bindings (W:=W) (ET:=ET) (CE:=CE)) w :
  (N_len (List.concat strs) <= usize_max)%N ->
  exists items st, parse_stream_with ET_eq ET_hash hasher strs m w = (Ok items, Some st) /\
    length items <= length (List.concat strs).
Proof.
  intros Hu. destruct (parse_stream_with_safe ET_eq ET_hash hasher strs m w Hu) as (s & all & st & st' & _ & _ & E & Hl).
  exists (upto_err all), st. split; [exact E|]. exact (Nat.le_trans _ _ _ (upto_len all) Hl).
Qed.
Print Assumptions C01_parse_stream.

Theorem C01_parse_chars {W ET CE} ET_eq ET_hash hasher input (m : st_bindings (W:=W) (ET:=ET) (CE:=CE)) w :
  (N_len input <= usize_max)%N ->
  exists items st, parse_chars_with ET_eq ET_hash hasher input m w = (Ok items, st) /\
    length items <= length input.
Proof.
  intros Hu. destruct (parse_chars_with_safe ET_eq ET_hash hasher input m w Hu) as (all & st & st' & _ & E & Hl).
  exists (upto_err all), st. split; [exact E|]. exact (Nat.le_trans _ _ _ (upto_len all) Hl).
Qed.
Print Assumptions C01_parse_chars.

(** [input] is any well-formed text, for example one got from [from_str] or from
    parsing; [a] is any state of the slice allocator. *)
Theorem C01_parse_text {W ET CE} ET_eq input l (m : nh_bindings (W:=W) (ET:=ET) (CE:=CE)) a :
  text_items (nh_ops (W:=W) (ET:=ET)) posstr_any input l -> (N_len l <= usize_max)%N ->
  exists items st, parse_text_with ET_eq input m a = (Ok items, Some st) /\ length items <= length l.
Proof.
  intros Hi Hu. destruct (parse_text_with_safe ET_eq m a Hi Hu) as (s & all & st & st' & _ & _ & E & Hl).
  exists (upto_err all), st. split; [exact E|]. exact (Nat.le_trans _ _ _ (upto_len all) Hl).
Qed.
Print Assumptions C01_parse_text.

(** A case: in-memory parsing of "a}{q {x}}{err y}{b" gives a text aborted by an
    unbalanced end, a quoted text, a combiner's error, a missing end, and then
    the end for ever.  The hypotheses hold of it. *)
Definition src := lit "a}{q {x}}{err y}{b".
Example termination_case :
  let Rk := posstr_rep src in
  let Rks := posstr_state src in
  let st := im_start "a}{q {x}}{err y}{b" 0%N in
  stream_contract False (fun w : N => w) (im_stream (W:=N)) (titer_rep Rk Rks (im_ops (W:=N))) (text_items (im_ops (W:=N)) Rk) /\
  concat_contract False (fun w : N => w) (text_concat_ops (im_ops (W:=N))) (text_items (im_ops (W:=N)) Rk) /\
  alloc_contract False (fun w : N => w) (box_alloc (TT:=im_text) (ET:=N)) /\
  ps_depth st = 0%N /\ titer_rep Rk Rks (im_ops (W:=N)) (ps_strm st) (str_items src [] src) [] /\
  exists q st1, called usize_max default_classifier (im_stream (W:=N)) (text_concat_ops (im_ops (W:=N))) box_alloc
    (im_lookup num_eq num_hash sum_hasher im_map) st
    [Some (inr (UnbalancedEndChar (StrPos src 1 1))); Some (inl (DText q));
     Some (inr (FailedCombiner 7%N)); Some (inr MissingEndChar); None; None] st1.
Proof.
  intros Rk Rks st. pose proof (tvec_contract (posstr_contract src) False (fun w : N => w)) as XC.
  split; [apply (titer_contract (posstr_contract src) XC)|]. split; [apply XC|].
  split; [apply box_alloc_contract|]. split; [reflexivity|]. split.
  - destruct (titer_new_rep (posstr_contract src) (xc_from XC _ _ (posstr_from_rep src))) as (s & Es & Hs).
    assert (E : ps_strm st = s).
    { unfold st, im_start.
      assert (Es' : titer_new posstr_ops (im_ops (W:=N)) (im_from "a}{q {x}}{err y}{b") = Ok s) by exact Es.
      rewrite Es'. reflexivity. }
    rewrite E. exact Hs.
  - clear Rk Rks XC. subst st. do 2 eexists. do 6 (eapply called_next with (fuel := 60); [vm_compute; reflexivity|]).
    apply called_none.
Qed.
