(** C54: the meaning of all sources in the examples' notation. *)
From Coq Require Import List NArith ZArith Bool.
From Verif.Model Require Import Prelude Parser Iter Utf8 Chunk TextIter PosStr TextVec TextDatumList Alloc
  DefaultClassifier DatumMethods TextMethods Bindings Premade Numeral ExampleLang.
From Verif.Spec Require Import Contract ChunkContract AbsStream Grammar Balance Lawful Run Unclosed Extended.
From Verif.Proofs Require Import Sim AbsParse Transfer UnclosedFacts Refine Instances RunFacts ClassifierFacts ExampleFacts ExampleRuns ExampleMeaning.
From Verif.Properties Require Import WholeRun.
From Verif.Tests Require Import Str.
Import ListNotations.
Local Notation N_len r := (N.of_nat (length r)).
Local Notation cc := default_classifier.

(** Any source: what [parse_str_with] of examples/common_basic.rs returns is what the
    grammar says with the four operators of the notation ([notation] in Spec/Extended.v), up to
    the first error, and if there is none the clock was read accordingly.  By C56_total and
    C56_unique each source has exactly one such meaning. *)
Theorem C54_meaning {W} (now : W -> N * W) hasher input w aitems w' : (N_len input <= usize_max)%N ->
  run cc (notation name_time now None) w (str_source input) aitems w' ->
  exists items st, cb_parse now hasher input w = (Ok items, Some st) /\
    Forall2 (pitem_rel (text_items (im_ops (W:=W)) posstr_any) (@eq (variants N)) (@eq strpos)
      (my_error_rel (datum_rel (text_items (im_ops (W:=W)) posstr_any) (@eq (variants N))))) items (upto_err aitems) /\
    (forall ads, aitems = map inl ads -> ps_alloc st = w').
Proof. apply cb_meaning. Qed.

(** The same for core/examples/stack_only.rs, unless there are too few slots: then the
    datums before the allocation that failed. *)
Theorem C54_stack_meaning {W} input (w : W) aitems w' : Forall (fun c => is_scalar c = true) input -> (N_len input <= usize_max)%N ->
  run cc (notation name_thing (fun a => (tt, a)) (Some 39)) w (str_source input) aitems w' ->
  exists k, forall slots, exists items st, so_parse input slots w = (Ok items, Some st) /\
    let Rt := text_items (nh_ops (W:=W) (ET:=variants unit)) posstr_any in
    let Ri := pitem_rel Rt (@eq (variants unit)) (@eq strpos) (my_error_rel (datum_rel Rt (@eq (variants unit)))) in
    (Forall2 Ri items (upto_err aitems) \/
     length slots < k /\ exists ds e front rest, items = map inl ds ++ [inr (FailedAlloc e)] /\
       upto_err aitems = front ++ rest /\ Forall2 Ri (map inl ds) front).
Proof. apply so_meaning. Qed.

(** A case: all four operators, also with operands that are not allowed. *)
Local Definition cb_now (t : N) : N * N := (t, t + 1)%N.
Example C54_meaning_case : exists aitems,
  run cc (notation name_time cb_now None) 7%N (str_source (lit "{{compound} {int 5}{current-time}}{# x}{current-time {int 6}}y")) aitems 8%N /\
  exists p, nth_error aitems 0 = Some (inl (DList (DExtra (Integer 5)) (DList (DExtra (Other 7%N)) DEmptyList))) /\
    nth_error aitems 1 = Some (inr (FailedCombiner (Darnit (DList (DExtra (Integer 6)) DEmptyList)))) /\
    nth_error aitems 2 = Some (inl (DText [Item 121%N p])) /\ length aitems = 3.
Proof.
  assert (H : exists items st', iterates usize_max cc abs_stream abs_concat abs_alloc (notation name_time cb_now None)
      (ast (str_source (lit "{{compound} {int 5}{current-time}}{# x}{current-time {int 6}}y")) [] 0%N 7%N) items st' /\ ps_alloc st' = 8%N /\
    exists p, nth_error items 0 = Some (inl (DList (DExtra (Integer 5)) (DList (DExtra (Other 7%N)) DEmptyList))) /\
      nth_error items 1 = Some (inr (FailedCombiner (Darnit (DList (DExtra (Integer 6)) DEmptyList)))) /\
      nth_error items 2 = Some (inl (DText [Item 121%N p])) /\ length items = 3).
  { eexists _, _. split; [exists 10, 200; vm_compute; reflexivity|]. split; [reflexivity|]. eexists. repeat split. }
  destruct H as (items & st' & H & E & p & E0 & E1 & E2 & E3).
  destruct (iterates_run default_disjoint H) as (q & w' & -> & Hr). cbn in E. subst w'.
  exists items. split; [exact Hr|]. exists p. auto.
Qed.
(** With the characters of stack_only.rs. *)
Example C54_stack_meaning_case : Forall (fun c => is_scalar c = true) (lit "{thing}{int -5}") /\
  exists aitems, run cc (notation name_thing (fun a => (tt, a)) (Some 39)) 7%N (str_source (lit "{thing}{int -5}")) aitems 7%N /\
    aitems = [inl (DExtra (Other tt)); inl (DExtra (Integer (-5)))].
Proof.
  split; [repeat constructor|].
  assert (H : exists st', iterates usize_max cc abs_stream abs_concat abs_alloc (notation name_thing (fun a => (tt, a)) (Some 39))
      (ast (str_source (lit "{thing}{int -5}")) [] 0%N 7%N) [inl (DExtra (Other tt)); inl (DExtra (Integer (-5)))] st' /\ ps_alloc st' = 7%N).
  { eexists. split; [exists 10, 200; vm_compute; reflexivity|]. reflexivity. }
  destruct H as (st' & H & E). destruct (iterates_run default_disjoint H) as (q & w' & -> & Hr). cbn in E. subst w'. eauto.
Qed.
Print Assumptions C54_meaning.
Print Assumptions C54_stack_meaning.
