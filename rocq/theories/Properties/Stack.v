(** C42: the parser's call depth. *)
From Coq Require Import List NArith Arith Lia.
From Verif.Model Require Import Prelude Parser Iter Stack Utf8 Chunk TextIter PosStr PosStrish
  TextVec TextDatumList CharIter StrishIter Alloc DefaultClassifier TextMethods DatumMethods Bindings Premade.
From Verif.Spec Require Import Contract ChunkContract History Grammar Nesting AbsStream.
From Verif.Proofs Require Import Safety Refine ChunkFacts TextFacts AllocFacts HistoryFacts Transfer Instances Concrete ClassifierFacts StackFacts StackTight.
From Verif.Tests Require Import Cases.
From Verif.Properties Require Import Termination.
Import ListNotations.

Section Generic.
Context {S A TT ET Pos CE W : Type}.
Context (umax : N) (cc : classifier) (DC : disjoint_classes cc).
Context (so : stream_ops S A TT Pos) (co : concat_ops A TT) (ao : alloc_ops A TT ET) (bnd : bindings A TT ET Pos CE).
Context (Rs : S -> list (item Pos) -> list (item Pos) -> Prop) (Rt : TT -> list (item Pos) -> Prop).
Context (F : Prop) (view : A -> W).
Context (SC : stream_contract F view so Rs Rt) (TC : concat_contract F view co Rt).

(** The instrumented parser is the parser. *)
Theorem C42_same_parser fuel st :
  fst (do_next_frames umax cc so co ao bnd fuel st) = do_next umax cc so co ao bnd fuel st.
Proof. apply (proj1 (erase umax cc so co ao bnd fuel) Base 1 st). Qed.

(** C42.  A parser over the source [s] has been asked for items any number of times,
    with whatever results.  The next call, whether it succeeds, fails, or is
    stopped early, uses at most three stack frames for each level of nesting
    of unescaped delimiters in [s], and three more; for all bindings, any text
    type and allocator, however long [s] is. *)
Theorem C42_frames st s rs st1 fuel :
  ps_depth st = 0%N -> Rs (ps_strm st) s [] -> called umax cc so co ao bnd st rs st1 ->
  snd (do_next_frames umax cc so co ao bnd fuel st1) <= 3 * nesting cc s + 3.
Proof. apply (called_frames DC SC TC). Qed.
End Generic.
Print Assumptions C42_same_parser.
Print Assumptions C42_frames.

(** The in-memory parser, with any bindings. *)
Theorem C42_parse_str {W ET CE} ET_eq ET_hash hasher input (m : im_bindings (W:=W) (ET:=ET) (CE:=CE)) w s rs st1 fuel :
  titer_new posstr_ops (im_ops (W:=W)) (tx_from (im_ops (W:=W)) (posstr_from input)) = Ok s ->
  let bnd := im_lookup ET_eq ET_hash hasher m in
  called usize_max default_classifier (im_stream (W:=W)) (text_concat_ops im_ops) box_alloc bnd (parse_iter_new s w) rs st1 ->
  snd (do_next_frames usize_max default_classifier (im_stream (W:=W)) (text_concat_ops im_ops) box_alloc bnd fuel st1)
    <= 3 * nesting default_classifier (str_items input [] input) + 3.
Proof.
  intros Es bnd C. pose proof (tvec_contract (posstr_contract input) False (fun w : W => w)) as XC.
  destruct (titer_new_rep (posstr_contract input) (xc_from XC _ _ (posstr_from_rep input))) as (s' & Es' & Hs).
  assert (s' = s) as ->.
  { assert (E : titer_new posstr_ops (im_ops (W:=W)) (tx_from (im_ops (W:=W)) (posstr_from input)) = Ok s') by exact Es'. congruence. }
  eapply (C42_frames _ _ default_disjoint) with (st := parse_iter_new s w); [apply (titer_contract (posstr_contract input) XC)|apply XC|reflexivity|exact Hs|exact C].
Qed.
Print Assumptions C42_parse_str.

(** The bound is attained for every nesting depth: by "{f {f ... x}}". *)
Theorem C42_attained {W ET Pos CE} (p : Pos) (w : W) n fuel :
  (N.of_nat (S n) <= usize_max)%N -> 10 * n + 30 <= fuel ->
  exists s, nesting default_classifier s = S n /\
    exists d, do_next_frames (ET:=ET) (CE:=CE) usize_max default_classifier abs_stream abs_concat abs_alloc (fun _ => None) fuel
                (parse_iter_new (s : list (item Pos), []) w)
      = ((Ok (Some d), parse_iter_new ([], []) w), 3 * nesting default_classifier s + 3).
Proof.
  intros Hu Hf. exists (tower p (S n)). rewrite tower_nesting. split; [reflexivity|]. exists (tower_datum p (S n)). exact (tower_frames p w Hf Hu).
Qed.
Print Assumptions C42_attained.

(** The nesting does not depend on the length: any number of nests side by side. *)
Example C42_case_flat : forall n,
  nesting default_classifier (str_items (lit "{f {x}}") [] (lit "{f {x}}")) = 2 /\
  nesting default_classifier (List.concat (repeat (str_items (lit "{f {x}}") [] (lit "{f {x}}")) (S n))) = 2.
Proof.
  intros n. split; [reflexivity|]. unfold nesting. induction n as [|n IH]; [reflexivity|].
  cbn [repeat List.concat]. cbn [repeat List.concat] in IH. 
  match goal with |- deepest _ _ _ (?a ++ ?b) = _ => change (Nat.max 2 (Nat.max 1 (deepest default_classifier false 0 b)) = 2) end.
  rewrite IH. reflexivity.
Qed.
(** Escaped delimiters do not nest; unmatched ends do not count. *)
Example C42_case_nesting : nesting default_classifier (str_items (lit "}}\{\{{a}{{\}}}") [] (lit "}}\{\{{a}{{\}}}")) = 2.
Proof. reflexivity. Qed.
(** The source of [termination_case] (bindings with operatives and errors): its
    hypotheses are those of C42; the second call ("{q {x}}") uses 5 frames. *)
Example C42_case : exists st1, called usize_max default_classifier (im_stream (W:=N)) (text_concat_ops (im_ops (W:=N))) box_alloc
    (im_lookup num_eq num_hash sum_hasher im_map) (im_start "a}{q {x}}{err y}{b" 0%N)
    [Some (inr (UnbalancedEndChar (StrPos src 1 1)))] st1 /\
  snd (do_next_frames usize_max default_classifier (im_stream (W:=N)) (text_concat_ops (im_ops (W:=N))) box_alloc
    (im_lookup num_eq num_hash sum_hasher im_map) 60 st1) = 5 /\
  nesting default_classifier (str_items src [] src) = 2.
Proof.
  eexists. split; [eapply called_next with (fuel := 60); [vm_compute; reflexivity|apply called_none]|]. split; vm_compute; reflexivity.
Qed.
