(** C16-C20 and C40: source streams, and what texts are made of. *)
From Coq Require Import List NArith Arith Bool Lia.
From Verif.Model Require Import Prelude Parser Iter Utf8 Chunk TextIter PosStr PosStrish
  TextVec TextDatumList CharIter StrishIter Alloc DefaultClassifier TextMethods DatumMethods Bindings Premade.
From Verif.Spec Require Import Contract ChunkContract Run Calls Slices Trace History Outcome.
From Verif.Proofs Require Import Sim Refine ChunkFacts TextFacts AllocFacts Instances RunFacts Transfer PremadeFacts Concrete
  CallFacts TwoRuns Diag Inv.
From Verif.Tests Require Import Str Cases.
Import ListNotations.
Local Notation N_len r := (N.of_nat (length r)).

(** ** C16: sequences of calls *)

(** Streams of texts of any type over chunks of any type, with allocation that
    does not fail. *)
Theorem C16_text {TT C CS A Pos W} (k : chunk_ops C CS Pos) Rc Rcs (KC : chunk_contract k Rc Rcs)
    (view : A -> W) (x : text_ops TT C A) (XC : text_contract False view x Rc) t l :
  text_items x Rc t l ->
  exists s, titer_new k x t = Ok s /\ forall calls a, exists answers s' a',
    do_calls (titer_stream k x) calls s a = (Ok answers, (s', a')) /\
    Forall2 (answer_rel (reads k x)) answers (documented calls l []) /\ view a' = view a.
Proof.
  intros H. destruct (titer_new_rep (A:=A) (Rcs:=Rcs) KC H) as (s & E & Hs). exists s. split; [exact E|].
  intros calls a. destruct (calls_documented (titer_contract KC XC) calls _ a _ _ Hs) as (xs & s' & a' & Ed & Hx & Hv).
  exists xs, s', a'. split; [exact Ed|]. split; [|exact Hv].
  eapply answers_mono; [|exact Hx]. intros; eapply text_reads; eauto.
Qed.

(** In-memory texts: any chunks that are slices of strings, cut in any way. *)
Theorem C16_str {TT A W} (view : A -> W) (x : text_ops TT posstr A) (XC : text_contract False view x posstr_any) t l :
  text_items x posstr_any t l ->
  exists s, titer_new posstr_ops x t = Ok s /\ forall calls a, exists answers s' a',
    do_calls (titer_stream posstr_ops x) calls s a = (Ok answers, (s', a')) /\
    Forall2 (answer_rel (reads posstr_ops x)) answers (documented calls l []) /\ view a' = view a.
Proof. exact (C16_text posstr_ops _ _ posstr_any_contract view x XC t l). Qed.

(** Streams of characters. *)
Theorem C16_chars {TT A W} (view : A -> W) (x : text_ops TT posstrish A)
    (XC : text_contract False view x posstrish_any) input calls a :
  exists answers s' a',
    do_calls (chariter_stream x) calls (chariter_new input) a = (Ok answers, (s', a')) /\
    Forall2 (answer_rel (reads posstrish_ops x)) answers (documented calls (char_source input) []) /\
    view a' = view a.
Proof.
  destruct (calls_documented (chariter_contract XC (@any_chars input)) calls _ a _ _ (chariter_new_rep input))
    as (xs & s' & a' & Ed & Hx & Hv).
  exists xs, s', a'. split; [exact Ed|]. split; [|exact Hv].
  rewrite char_source_eq. eapply answers_mono; [|exact Hx].
  intros; eapply text_reads; eauto using posstrish_any_contract.
Qed.

(** Streams of strings, empty ones included. *)
Theorem C16_strings {TT A W} (view : A -> W) (x : text_ops TT posstrish A)
    (XC : text_contract False view x posstrish_any) strs :
  exists s, strishiter_new strs = Ok s /\ forall calls a, exists answers s' a',
    do_calls (strishiter_stream x) calls s a = (Ok answers, (s', a')) /\
    Forall2 (answer_rel (reads posstrish_ops x)) answers (documented calls (char_source (List.concat strs)) []) /\
    view a' = view a.
Proof.
  destruct (strishiter_new_rep (fun _ _ => True) x (@any_strs strs)) as (s & E & Hs). exists s. split; [exact E|].
  intros calls a.
  destruct (calls_documented (strishiter_contract XC (@any_strs strs)) calls _ a _ _ Hs) as (xs & s' & a' & Ed & Hx & Hv).
  exists xs, s', a'. split; [exact Ed|]. split; [|exact Hv].
  rewrite char_source_eq. eapply answers_mono; [|exact Hx].
  intros; eapply text_reads; eauto using posstrish_any_contract.
Qed.

(** When concatenating texts may fail to allocate ([F]): an accumulation may be
    lost, with an error, but never an item. *)
Theorem C16_failing {TT C CS A Pos W} (k : chunk_ops C CS Pos) Rc Rcs (KC : chunk_contract k Rc Rcs)
    (F : Prop) (view : A -> W) (x : text_ops TT C A) (XC : text_contract F view x Rc) t l :
  text_items x Rc t l ->
  exists s, titer_new k x t = Ok s /\ forall calls a, exists answers allowed s' a',
    do_calls (titer_stream k x) calls s a = (Ok answers, (s', a')) /\
    may_answer calls l [] allowed /\ Forall2 (answer_rel (reads k x)) answers allowed /\ view a' = view a.
Proof.
  intros H. destruct (titer_new_rep (A:=A) (Rcs:=Rcs) KC H) as (s & E & Hs). exists s. split; [exact E|].
  intros calls a. destruct (calls_may_answer (titer_contract KC XC) calls _ a _ _ Hs) as (xs & ys & s' & a' & Ed & Hy & Hx & Hv).
  exists xs, ys, s', a'. split; [exact Ed|]. split; [exact Hy|]. split; [|exact Hv].
  eapply answers_mono; [|exact Hx]. intros; eapply text_reads; eauto.
Qed.

Theorem C16_slots {W ET} t l :
  text_items (nh_ops (W:=W) (ET:=ET)) posstr_any t l ->
  exists s, titer_new posstr_ops (nh_ops (W:=W) (ET:=ET)) t = Ok s /\ forall calls slots w, exists answers allowed s' (a' : nh_alloc_state (W:=W) (ET:=ET)),
    do_calls nh_stream calls s (nh_parser slots w) = (Ok answers, (s', a')) /\
    may_answer calls l [] allowed /\ Forall2 (answer_rel (reads posstr_ops (nh_ops (W:=W) (ET:=ET)))) answers allowed /\ snd a' = w.
Proof.
  intros H. destruct (C16_failing _ _ _ posstr_any_contract _ _ _
    (tdl_contract posstr_any_contract (@slice_alloc_contract W (nh_text (ET:=ET)) ET)) _ _ H) as (s & E & G).
  exists s. split; [exact E|]. intros calls slots w. apply (G calls (nh_parser slots w)).
Qed.

(** ** C17, C18: different streams with the same characters *)
Section Agree.
Context {W ET CE : Type} (ET_eq : ET -> ET -> bool) (ET_hash : ET -> list hash_word)
        (XH : forall a b, ET_eq a b = true -> ET_hash a = ET_hash b).
Local Notation same_strs := (same_text posstrish_ops (st_ops (W:=W)) posstrish_ops (st_ops (W:=W)) eq).
Local Notation same_str := (same_text posstr_ops (im_ops (W:=W)) posstrish_ops (st_ops (W:=W)) same_pos).
Local Notation alike := (st_alike (W:=W) (ET:=ET) (CE:=CE)).
Local Notation im_alike := (im_st_alike (W:=W) (ET:=ET) (CE:=CE)).

(** The same characters cut into strings in two ways: the same items, in which
    texts have the same characters at the same positions, errors are at the
    same positions, and the combiners end in the same state. *)
Theorem C17_chunking hasher strs1 strs2 m1 m2 w : alike m1 m2 ->
  List.concat strs1 = List.concat strs2 -> (N_len (List.concat strs1) <= usize_max)%N ->
  exists items1 st1 items2 st2,
    parse_stream_with ET_eq ET_hash hasher strs1 m1 w = (Ok items1, Some st1) /\
    parse_stream_with ET_eq ET_hash hasher strs2 m2 w = (Ok items2, Some st2) /\
    Forall2 (pitem_rel same_strs eq eq eq) items1 items2 /\ ps_alloc st1 = ps_alloc st2.
Proof.
  intros Hm Ec Hu. destruct (streams_agree ET_eq ET_hash XH hasher hasher _ _ w Hm Ec Hu) as (i1 & s1 & i2 & s2 & E1 & E2 & Hi & Ha).
  exists i1, s1, i2, s2. split; [exact E1|]. split; [exact E2|]. split; [|exact Ha].
  eapply Forall2_mono; [|exact Hi]. intros a b. apply pitem_rel_mono. apply st_same_reads.
Qed.

(** Without bindings. *)
Theorem C17_no_bindings hasher strs1 strs2 (w : W) :
  List.concat strs1 = List.concat strs2 -> (N_len (List.concat strs1) <= usize_max)%N ->
  exists items1 st1 items2 st2,
    parse_stream (CE:=CE) ET_eq ET_hash hasher strs1 w = (Ok items1, Some st1) /\
    parse_stream (CE:=CE) ET_eq ET_hash hasher strs2 w = (Ok items2, Some st2) /\
    Forall2 (pitem_rel same_strs eq eq eq) items1 items2.
Proof.
  intros Ec Hu. destruct (C17_chunking hasher strs1 strs2 [] [] w (Forall2_nil _) Ec Hu) as (i1 & s1 & i2 & s2 & E1 & E2 & Hi & _).
  exists i1, s1, i2, s2. auto.
Qed.

(** A string in memory and the same characters in a stream of strings. *)
Theorem C18_str_strings hasher input strs m1 m2 w : im_alike m1 m2 ->
  List.concat strs = input -> (N_len input <= usize_max)%N ->
  exists items1 st1 items2 st2,
    parse_str_with ET_eq ET_hash hasher input m1 w = (Ok items1, Some st1) /\
    parse_stream_with ET_eq ET_hash hasher strs m2 w = (Ok items2, Some st2) /\
    Forall2 (pitem_rel same_str eq same_pos eq) items1 items2 /\ ps_alloc st1 = ps_alloc st2.
Proof.
  intros Hm Ec Hu. destruct (str_agrees ET_eq ET_hash XH hasher hasher strs w Hm Ec Hu) as (i1 & s1 & i2 & s2 & E1 & E2 & Hi & Ha).
  exists i1, s1, i2, s2. split; [exact E1|]. split; [exact E2|]. split; [|exact Ha].
  eapply Forall2_mono; [|exact Hi]. intros a b. apply pitem_rel_mono. apply im_st_same_reads.
Qed.

(** A stream of strings and the same characters one by one. *)
Theorem C18_strings_chars hasher input strs m1 m2 w : alike m1 m2 ->
  List.concat strs = input -> (N_len input <= usize_max)%N ->
  exists items1 st1 items2 st2,
    parse_stream_with ET_eq ET_hash hasher strs m1 w = (Ok items1, Some st1) /\
    parse_chars_with ET_eq ET_hash hasher input m2 w = (Ok items2, st2) /\
    Forall2 (pitem_rel same_strs eq eq eq) items1 items2 /\ ps_alloc st1 = ps_alloc st2.
Proof.
  intros Hm Ec Hu. destruct (chars_agree ET_eq ET_hash XH hasher hasher strs w Hm Ec Hu) as (i1 & s1 & i2 & s2 & E1 & E2 & Hi & Ha).
  exists i1, s1, i2, s2. split; [exact E1|]. split; [exact E2|]. split; [|exact Ha].
  eapply Forall2_mono; [|exact Hi]. intros a b. apply pitem_rel_mono. apply st_same_reads.
Qed.

(** All three without bindings. *)
Theorem C18_no_bindings hasher input strs (w : W) :
  List.concat strs = input -> (N_len input <= usize_max)%N ->
  exists items1 st1 items2 st2 items3 st3,
    parse_str (CE:=CE) ET_eq ET_hash hasher input w = (Ok items1, Some st1) /\
    parse_stream (CE:=CE) ET_eq ET_hash hasher strs w = (Ok items2, Some st2) /\
    parse_chars_with (CE:=CE) ET_eq ET_hash hasher input [] w = (Ok items3, st3) /\
    Forall2 (pitem_rel same_str eq same_pos eq) items1 items2 /\
    Forall2 (pitem_rel same_strs eq eq eq) items2 items3.
Proof.
  intros Ec Hu.
  destruct (C18_str_strings hasher input strs [] [] w (Forall2_nil _) Ec Hu) as (i1 & s1 & i2 & s2 & E1 & E2 & Hi & _).
  destruct (C18_strings_chars hasher input strs [] [] w (Forall2_nil _) Ec Hu) as (i2' & s2' & i3 & s3 & E2' & E3 & Hi' & _).
  rewrite E2 in E2'. injection E2' as <- <-. exists i1, s1, i2, s2, i3, s3. auto 6.
Qed.
End Agree.

(** ** C19: slices of strings *)
Section Slices.
Context {W ET CE : Type} (ET_eq : ET -> ET -> bool) (ET_hash : ET -> list hash_word) (hasher : list hash_word -> N).
Local Notation imx := (im_ops (W:=W)).
Local Notation nhx := (nh_ops (W:=W) (ET:=ET)).

(** All texts in all returned datums are made of slices of [input] with true
    positions, or of other strings in [P] if combiners use such. *)
Theorem C19_str (P : str -> Prop) input (m : im_bindings (W:=W) (ET:=ET) (CE:=CE)) w : P input ->
  (forall key c, In (key, c) m -> combiner_keeps (sliced imx P) c) ->
  (N_len input <= usize_max)%N ->
  exists items st, parse_str_with ET_eq ET_hash hasher input m w = (Ok items, Some st) /\
    forall d, In (inl d) items -> all_texts (sliced imx P) d.
Proof.
  intros HP Hm Hu.
  destruct (parse_str_with_safe ET_eq ET_hash hasher input m w Hu) as (s0 & all & st & _ & Es & _ & E & _).
  exists (upto_err all), st. split; [exact E|].
  pose proof (posstr_in_contract P input HP) as KC.
  pose proof (tvec_contract KC False (fun w : W => w)) as XC.
  assert (Hi : text_items imx (posstr_in P) (tx_from imx (posstr_from input)) (str_items input [] input)).
  { apply (xc_from XC). exists (exist P input HP). apply posstr_from_rep. }
  destruct (titer_new_rep (A:=W) KC Hi) as (s & Es' & Hs).
  change (titer_new posstr_ops imx (tx_from imx (posstr_from input)) = Ok s) in Es'.
  unfold parse_str_with in E. rewrite Es' in E. unfold collect_up_to_first_err in E.
  destruct (take_while_collect _ _ _ _ _ _ _ _ _ _) as [r st1] eqn:Et. injection E as -> ->.
  intros d Hd. eapply all_texts_mono with (P := made (text_items imx (posstr_in P))); [intros t; apply (made_sliced imx P input t HP)|].
  eapply take_while_made with (bnd:=im_lookup ET_eq ET_hash hasher m) (st:=parse_iter_new s w);
    [exact (titer_contract KC XC)|exact (xc_concat XC)|exact (@box_alloc_contract W im_text ET)| |exact Hs|exact Et|exact Hd].
  intros key c Hb. apply hm_lookup_in in Hb as [k' Hin].
  eapply combiner_keeps_iff; [|exact (Hm _ _ Hin)]. intros t. symmetry. apply (made_sliced imx P input t HP).
Qed.

(** Without bindings: slices of the input only. *)
Theorem C19_no_bindings input (w : W) : (N_len input <= usize_max)%N ->
  exists items st, parse_str (CE:=CE) ET_eq ET_hash hasher input w = (Ok items, Some st) /\
    forall d, In (inl d) items -> all_texts (sliced imx (eq input)) d.
Proof. intros Hu. apply C19_str; auto. intros ? ? []. Qed.

(** The same without a heap: texts as lists of chunks, allocated in slots of
    given memory. *)
Theorem C19_text (P : str -> Prop) src input (m : nh_bindings (W:=W) (ET:=ET) (CE:=CE)) slots w : P src ->
  sliced nhx P input ->
  (forall key c, In (key, c) m -> combiner_keeps (sliced nhx P) c) ->
  (N.of_nat (seq_size posstr_size (tx_chunks nhx input)) <= usize_max)%N ->
  exists items st, parse_text_with ET_eq input m (nh_parser slots w) = (Ok items, Some st) /\
    forall d, In (inl d) items -> all_texts (sliced nhx P) d.
Proof.
  intros HP Hinp Hm Hu.
  pose proof (posstr_in_contract P src HP) as KC.
  pose proof (tdl_contract KC (@slice_alloc_contract W (nh_text (ET:=ET)) ET)) as XC.
  apply (made_sliced nhx P src input HP) in Hinp as [l Hl].
  assert (Hl' : text_items nhx posstr_any input l).
  { destruct Hl as (cs & ls & Ec & Hf & ->). exists cs, ls. split; [exact Ec|]. split; [|reflexivity].
    eapply Forall2_mono; [|exact Hf]. intros c l' [i Hc]. exists (proj1_sig i). exact Hc. }
  assert (El : seq_size posstr_size (tx_chunks nhx input) = length l) by (apply (text_size posstr_size_eq Hl')).
  rewrite El in Hu.
  destruct (parse_text_with_safe ET_eq m (nh_parser slots w) Hl' Hu) as (s0 & all & st & _ & _ & _ & E & _).
  exists (upto_err all), st. split; [exact E|].
  destruct (titer_new_rep (A:=nh_alloc_state (W:=W) (ET:=ET)) KC Hl) as (s & Es' & Hs).
  unfold parse_text_with in E. rewrite Es' in E.
  destruct (take_while_collect _ _ _ _ _ _ _ _ _ _) as [r st1] eqn:Et. injection E as -> ->.
  intros d Hd. eapply all_texts_mono with (P := made (text_items nhx (posstr_in P))); [intros t; apply (made_sliced nhx P src t HP)|].
  eapply take_while_made with (bnd:=nh_lookup ET_eq m) (st:=parse_iter_new s (nh_parser slots w));
    [exact (titer_contract KC XC)|exact (xc_concat XC)|exact (@slice_alloc_contract W nh_text ET)| |exact Hs|exact Et|exact Hd].
  intros key c Hb. apply pair_lookup_in in Hb as [k' Hin].
  eapply combiner_keeps_iff; [|exact (Hm _ _ Hin)]. intros t. symmetry. apply (made_sliced nhx P src t HP).
Qed.
End Slices.

(** Texts accumulated by any sequence of calls of the stream of a text. *)
Theorem C19_calls {TT A W} (F : Prop) (view : A -> W) (x : text_ops TT posstr A)
    (XC : forall Rc Rcs, chunk_contract posstr_ops Rc Rcs -> text_contract F view x Rc) (P : str -> Prop) src t :
  P src -> sliced x P t ->
  exists s, titer_new posstr_ops x t = Ok s /\ forall calls a, exists answers s' a',
    do_calls (titer_stream posstr_ops x) calls s a = (Ok answers, (s', a')) /\
    forall u, In (AText u) answers -> sliced x P u.
Proof.
  intros HP Ht. pose proof (posstr_in_contract P src HP) as KC. specialize (XC _ _ KC).
  apply (made_sliced x P src t HP) in Ht as [l Hl].
  destruct (titer_new_rep (A:=A) KC Hl) as (s & Es & Hs). exists s. split; [exact Es|]. intros calls a.
  destruct (calls_may_answer (titer_contract KC XC) calls _ a _ _ Hs) as (xs & ys & s' & a' & Ed & _ & Hx & _).
  exists xs, s', a'. split; [exact Ed|]. intros u Hu. destruct (Forall2_left _ Hx Hu) as ([|v|] & Hv); try contradiction.
  apply (made_sliced x P src u HP). exists v. exact Hv.
Qed.

(** ** C20: ranges of reference-counted strings *)
Section Ranges.
Context {W ET CE : Type} (ET_eq : ET -> ET -> bool) (ET_hash : ET -> list hash_word) (hasher : list hash_word -> N).
Local Notation stx := (st_ops (W:=W)).

Lemma st_lookup_keeps (m : st_bindings (W:=W) (ET:=ET) (CE:=CE)) held :
  (forall key c, In (key, c) m -> combiner_keeps (ranged stx held) c) ->
  forall d c, st_lookup ET_eq ET_hash hasher m d = Some c -> combiner_keeps (made (text_items stx (posstrish_rep held))) c.
Proof.
  intros Hm key c Hb. apply hm_lookup_in in Hb as [k' Hin].
  eapply combiner_keeps_iff; [|exact (Hm _ _ Hin)]. intros t. symmetry. apply made_ranged.
Qed.

(** Streams of strings: all texts in all returned datums are made of ranges of
    the strings. *)
Theorem C20_strings strs (m : st_bindings (W:=W) (ET:=ET) (CE:=CE)) w :
  (forall key c, In (key, c) m -> combiner_keeps (ranged stx (held_by strs)) c) ->
  (N_len (List.concat strs) <= usize_max)%N ->
  exists items st, parse_stream_with ET_eq ET_hash hasher strs m w = (Ok items, Some st) /\
    forall d, In (inl d) items -> all_texts (ranged stx (held_by strs)) d.
Proof.
  intros Hm Hu.
  destruct (parse_stream_with_safe ET_eq ET_hash hasher strs m w Hu) as (s0 & all & st & _ & _ & _ & E & _).
  exists (upto_err all), st. split; [exact E|].
  pose proof (tvec_contract (posstrish_contract (held_by strs)) False (fun w : W => w)) as XC.
  assert (Hok : forall l1 s l2, strs = l1 ++ s :: l2 -> held_by strs s (N_len (List.concat l1))).
  { intros l1 s l2 Es. exists l1, l2. auto. }
  destruct (strishiter_new_rep (held_by strs) stx Hok) as (s & Es & Hs).
  unfold parse_stream_with in E. rewrite Es in E. cbv zeta in E. unfold collect_up_to_first_err in E.
  destruct (take_while_collect _ _ _ _ _ _ _ _ _ _) as [r st1] eqn:Et. injection E as -> ->.
  intros d Hd. eapply all_texts_mono with (P := made (text_items stx (posstrish_rep (held_by strs)))); [intros t; apply made_ranged|].
  eapply take_while_made with (bnd:=st_lookup ET_eq ET_hash hasher m) (st:=parse_iter_new s w);
    [exact (strishiter_contract XC Hok)|exact (xc_concat XC)|exact (@box_alloc_contract W st_text ET)| |exact Hs|exact Et|exact Hd].
  apply st_lookup_keeps; auto.
Qed.

(** Streams of characters: ranges of strings collected from the input. *)
Theorem C20_chars input (m : st_bindings (W:=W) (ET:=ET) (CE:=CE)) w :
  (forall key c, In (key, c) m -> combiner_keeps (ranged stx (occurs_in input)) c) ->
  (N_len input <= usize_max)%N ->
  exists items st, parse_chars_with ET_eq ET_hash hasher input m w = (Ok items, st) /\
    forall d, In (inl d) items -> all_texts (ranged stx (occurs_in input)) d.
Proof.
  intros Hm Hu.
  destruct (parse_chars_with_safe ET_eq ET_hash hasher input m w Hu) as (all & st & _ & _ & E & _).
  exists (upto_err all), st. split; [exact E|].
  pose proof (tvec_contract (posstrish_contract (occurs_in input)) False (fun w : W => w)) as XC.
  assert (Hok : forall pre v post, input = pre ++ v ++ post -> occurs_in input v (N_len pre)).
  { intros pre v post Es. exists pre, post. auto. }
  unfold parse_chars_with in E. cbv zeta in E. unfold collect_up_to_first_err in E.
  intros d Hd. eapply all_texts_mono with (P := made (text_items stx (posstrish_rep (occurs_in input)))); [intros t; apply made_ranged|].
  eapply take_while_made with (bnd:=st_lookup ET_eq ET_hash hasher m) (st:=parse_iter_new (chariter_new input) w);
    [exact (chariter_contract XC Hok)|exact (xc_concat XC)|exact (@box_alloc_contract W st_text ET)| |exact (chariter_new_rep input)|exact E|exact Hd].
  apply st_lookup_keeps; auto.
Qed.
End Ranges.

(** Any sequence of calls, and texts of any type; together with C16 about the
    same answers. *)
Theorem C20_calls_strings {TT A W} (F : Prop) (view : A -> W) (x : text_ops TT posstrish A)
    (XC : forall Rc Rcs, chunk_contract posstrish_ops Rc Rcs -> text_contract F view x Rc) strs :
  exists s, strishiter_new strs = Ok s /\ forall calls a, exists answers s' a',
    do_calls (strishiter_stream x) calls s a = (Ok answers, (s', a')) /\
    forall u, In (AText u) answers -> ranged x (held_by strs) u.
Proof.
  specialize (XC _ _ (posstrish_contract (held_by strs))).
  assert (Hok : forall l1 s l2, strs = l1 ++ s :: l2 -> held_by strs s (N_len (List.concat l1))).
  { intros l1 s l2 Es. exists l1, l2. auto. }
  destruct (strishiter_new_rep (held_by strs) x Hok) as (s & Es & Hs).
  exists s. split; [exact Es|]. intros calls a.
  destruct (calls_may_answer (strishiter_contract XC Hok) calls _ a _ _ Hs) as (xs & ys & s' & a' & Ed & _ & Hx & _).
  exists xs, s', a'. split; [exact Ed|]. intros u Hu. destruct (Forall2_left _ Hx Hu) as ([|v|] & Hv); try contradiction.
  apply made_ranged. exists v. exact Hv.
Qed.

Theorem C20_calls_chars {TT A W} (F : Prop) (view : A -> W) (x : text_ops TT posstrish A)
    (XC : forall Rc Rcs, chunk_contract posstrish_ops Rc Rcs -> text_contract F view x Rc) input calls a :
  exists answers s' a',
    do_calls (chariter_stream x) calls (chariter_new input) a = (Ok answers, (s', a')) /\
    forall u, In (AText u) answers -> ranged x (occurs_in input) u.
Proof.
  specialize (XC _ _ (posstrish_contract (occurs_in input))).
  assert (Hok : forall pre v post, input = pre ++ v ++ post -> occurs_in input v (N_len pre)).
  { intros pre v post Es. exists pre, post. auto. }
  destruct (calls_may_answer (chariter_contract XC Hok) calls _ a _ _ (chariter_new_rep input)) as (xs & ys & s' & a' & Ed & _ & Hx & _).
  exists xs, s', a'. split; [exact Ed|]. intros u Hu. destruct (Forall2_left _ Hx Hu) as ([|v|] & Hv); try contradiction.
  apply made_ranged. exists v. exact Hv.
Qed.

(** ** C40: positions survive *)
Section Sources.
Context {S A TT C CS ET Pos CE W : Type} (k : chunk_ops C CS Pos) (Rc : C -> list (item Pos) -> Prop)
        (Rcs : CS -> list (item Pos) -> list (item Pos) -> Prop) (KC : chunk_contract k Rc Rcs).
Context (F : Prop) (view : A -> W) (x : text_ops TT C A) (XC : text_contract F view x Rc).
Context (umax : N) (cc : classifier) (ao : alloc_ops A TT ET) (AC : alloc_contract F view ao).
Context (src : list (item Pos)).
Local Notation of_src := (from_source k x Rc src).

Section Parse.
Context (so : stream_ops S A TT Pos) (Rs : S -> list (item Pos) -> list (item Pos) -> Prop)
        (SC : stream_contract F view so Rs (text_items x Rc)).
Local Notation called bnd := (called umax cc so (text_concat_ops x) ao bnd).

(** All texts in returned datums iterate over items of the source, with any
    bindings of combiners that do not bring in other texts. *)
Theorem C40_texts (bnd : bindings A TT ET Pos CE) st rs st' : Rs (ps_strm st) src [] ->
  (forall key c, bnd key = Some c -> combiner_keeps of_src c) ->
  called bnd st rs st' -> forall d, In (Some (inl d)) rs -> all_texts of_src d.
Proof.
  intros Hs Hb HC d Hd.
  assert (M : forall t, made (Rt_of src (text_items x Rc)) t <-> of_src t) by (intros; apply (made_from_source KC XC)).
  eapply all_texts_mono; [intros t; apply M|].
  eapply called_made; [exact (restrict_stream src SC)|exact (restrict_concat src (xc_concat XC))|exact AC| |exact HC| |exact Hd].
  - intros key c E. eapply combiner_keeps_iff; [intros t; symmetry; apply M|]. exact (Hb key c E).
  - exists src, []. split; [exact Hs|]. split; [apply Forall_forall; auto|constructor].
Qed.

(** All operands texts that operatives are called with iterate over items of
    the source: whatever [J] about their state the combiners keep when the
    operatives get such texts, they keep when parsing. *)
Theorem C40_operands (bnd : bindings A TT ET Pos CE) (J : W -> Prop) st rs st' : Rs (ps_strm st) src [] ->
  (forall key f, bnd key = Some (Operative f) -> forall t a, of_src t -> J (view a) -> J (view (snd (f key t a)))) ->
  (forall key f, bnd key = Some (Applicative f) -> forall l a, J (view a) -> J (view (snd (f key l a)))) ->
  called bnd st rs st' -> J (view (ps_alloc st)) -> J (view (ps_alloc st')).
Proof.
  intros Hs HO HA HC HJ.
  assert (M : forall t, made (Rt_of src (text_items x Rc)) t <-> of_src t) by (intros; apply (made_from_source KC XC)).
  assert (IV : invariant cc so (text_concat_ops x) ao bnd (inv_src view Rs src J) (from_src (text_items x Rc) src)
      (fun e => err_src cc src e \/ True) False).
  { apply contract_invariant with (F:=F); auto.
    - exact (xc_concat XC).
    - intros d f E t a Ht Ha. split; auto. apply (HO d f E); auto. apply M. exact Ht. }
  destruct (called_inv IV (fun x => x) HC) as [[H _] _]; [|exact H].
  split; [exact HJ|]. exists src, []. split; [exact Hs|]. split; [apply Forall_forall; auto|constructor].
Qed.
End Parse.

(** Parsing such a text again, with any bindings, reports unbalanced end
    characters only at positions where the source has end characters (unless
    a combiner makes up such an error). *)
Theorem C40_reparse (bnd : bindings A TT ET Pos CE) t s a rs st' p : of_src t -> titer_new k x t = Ok s ->
  (forall p, no_combiner_returns bnd (UnbalancedEndChar p)) ->
  called umax cc (titer_stream k x) (text_concat_ops x) ao bnd (parse_iter_new s a) rs st' ->
  In (Some (inr (UnbalancedEndChar p))) rs ->
  exists i, In i src /\ is_nest_end cc (it_ch i) = true /\ it_pos i = p.
Proof.
  intros (l & Hl & _ & Hi) Es Hn HC Hp.
  destruct (titer_new_rep (A:=A) KC Hl) as (s0 & Es0 & Hs). rewrite Es in Es0. injection Es0 as <-.
  assert (IV : invariant cc (titer_stream k x) (text_concat_ops x) ao bnd (inv_src view (titer_rep Rc Rcs x) src (fun _ => True))
      (from_src (text_items x Rc) src) (fun e => err_src cc src e \/ forall p, e <> UnbalancedEndChar p) False).
  { apply contract_invariant with (F:=F); auto.
    - exact (titer_contract KC XC).
    - exact (xc_concat XC).
    - intros d f E u b _ _. split; auto. intros e He q ->. apply (Hn q d _ E d u b (snd (f d u b))).
      rewrite <- He. destruct (f d u b); reflexivity.
    - intros d f E u b _. split; auto. intros e He q ->. apply (Hn q d _ E d u b (snd (f d u b))).
      rewrite <- He. destruct (f d u b); reflexivity. }
  destruct (called_inv IV (fun x => x) HC) as [_ H].
  { split; [exact Logic.I|]. exists l, []. split; [exact Hs|]. split; [apply Forall_forall; exact Hi|constructor]. }
  destruct (H _ Hp) as [(i & Hin & Hc & ->)|Hq]; [eauto|]. destruct (Hq p eq_refl).
Qed.
End Sources.

(** In memory: every operands text given to an operative, under any bindings, iterates
    over characters of the input with their positions; and parsing it again
    reports unbalanced end characters at such positions. *)
Theorem C40_str {W W2 ET CE} umax cc (bnd : bindings W im_text ET strpos CE) input w s rs st' :
  titer_new posstr_ops (im_ops (W:=W)) (tx_from (im_ops (W:=W)) (posstr_from input)) = Ok s ->
  called umax cc im_stream (text_concat_ops im_ops) box_alloc (logged bnd) (parse_iter_new s (w, [])) rs st' ->
  forall d t r, In (OperativeCall d t r) (snd (ps_alloc st')) ->
  from_source posstr_ops (im_ops (W:=W2)) posstr_any (str_source input) t /\
  forall umax2 cc2 (bnd2 : bindings W2 im_text ET strpos CE) s2 w2 rs2 st2 p,
    titer_new posstr_ops (im_ops (W:=W2)) t = Ok s2 ->
    (forall p, no_combiner_returns bnd2 (UnbalancedEndChar p)) ->
    called umax2 cc2 im_stream (text_concat_ops im_ops) box_alloc bnd2 (parse_iter_new s2 w2) rs2 st2 ->
    In (Some (inr (UnbalancedEndChar p))) rs2 ->
    exists n c, nth_error input n = Some c /\ is_nest_end cc2 c = true /\
      p = StrPos input (byte_len (firstn n input)) (N.of_nat n).
Proof.
  intros Es HC d t r Hin.
  pose (V := (W * list (event (TT:=im_text) (ET:=ET) (Pos:=strpos) (CE:=CE)))%type).
  pose proof (tvec_contract posstr_any_contract False (fun w : V => w)) as XC.
  pose proof (tvec_contract posstr_any_contract False (fun w : W2 => w)) as XC2.
  assert (Hi : text_items (im_ops (W:=V)) posstr_any
    (tx_from (im_ops (W:=W)) (posstr_from input)) (str_source input)).
  { apply (xc_from XC). apply posstr_from_any. }
  destruct (titer_new_rep (A:=V) posstr_any_contract Hi) as (s0 & Es0 & Hs).
  assert (E0 : Ok s = Ok s0) by (rewrite <- Es; exact Es0). injection E0 as <-.
  assert (Hf : from_source posstr_ops (im_ops (W:=W2)) posstr_any (str_source input) t).
  { pose proof (C40_operands (CE:=CE) posstr_ops posstr_any posstr_any_state posstr_any_contract False (fun w => w) im_ops XC umax cc
      box_alloc (@box_alloc_contract _ im_text ET) (str_source input) im_stream _ (titer_contract posstr_any_contract XC)
      (logged bnd)
      (fun wl => Forall (fun e => match e with OperativeCall _ u _ =>
          from_source posstr_ops (im_ops (W:=W2)) posstr_any (str_source input) u | _ => True end) (snd wl))
      (parse_iter_new s (w, [])) rs st' Hs) as G.
    cbn [parse_iter_new ps_alloc snd] in G.
    assert (G' := fun a b => proj1 (Forall_forall _ _) (G a b HC (Forall_nil _))).
    refine (G' _ _ (OperativeCall d t r) Hin).
    - intros key f E u a Hu Ha. unfold logged in E. destruct (bnd key) as [[g|g]|]; try discriminate. injection E as <-.
      destruct (g key u (fst a)) as [r' w']. cbn. apply Forall_app. split; [exact Ha|]. constructor; [|constructor].
      exact Hu.
    - intros key f E u a Ha. unfold logged in E. destruct (bnd key) as [[g|g]|]; try discriminate. injection E as <-.
      destruct (g key u (fst a)) as [r' w']. cbn. apply Forall_app. split; [exact Ha|]. constructor; [|constructor]. exact Logic.I. }
  split; [exact Hf|].
  intros umax2 cc2 bnd2 s2 w2 rs2 st2 p Es2 Hn HC2 Hp.
  destruct (C40_reparse posstr_ops posstr_any posstr_any_state posstr_any_contract False (fun w => w) im_ops XC2 umax2 cc2
      box_alloc (@box_alloc_contract _ im_text ET) (str_source input) bnd2 t s2 w2 rs2 st2 p Hf Es2 Hn HC2 Hp) as (i & Hi' & Hc & <-).
  unfold str_source in Hi'. apply in_map_iff in Hi' as (n & <- & Hn'). apply in_seq in Hn'. cbn in *.
  exists n, (nth n input 0%N). split; [|auto]. apply nth_error_nth'. lia.
Qed.

(** [RefCntSlice::slice] works like slicing a string: relative to the slice it is called
    on, within it, and with a panic (of the [debug_assert!]s) if and only if the range is
    not within it.  At an offset inside a character the result is no string, as for [str]. *)
Theorem C20_slice v s a b : rc_as_str v = Ok s ->
  match rc_slice v a b with
  | Ok v' => (a <= b <= byte_len s)%N /\ rs_str v' = rs_str v /\
      (rs_start v <= rs_start v' <= rs_end v' /\ rs_end v' <= rs_end v)%N /\ rc_as_str v' = str_slice s a b
  | Panic => (b < a \/ byte_len s < b)%N
  | _ => False
  end.
Proof. apply rc_slice_like. Qed.
Print Assumptions C20_slice.
Example C20_slice_case :
  let v := RcSlice (lit "xa" ++ [233%N] ++ lit "bc") 1 6 in
  rc_as_str v = Ok (lit "a" ++ [233%N] ++ lit "bc") /\ (exists v', rc_slice v 1 4 = Ok v' /\ rc_as_str v' = Ok ([233%N] ++ lit "b")) /\
  (exists v', rc_slice v 2 4 = Ok v' /\ rc_as_str v' = Panic) /\ rc_slice v 1 6 = Panic /\ rc_slice v 2 1 = Panic.
Proof. repeat split; try (eexists; split); vm_compute; reflexivity. Qed.

Print Assumptions C16_text.
Print Assumptions C16_str.
Print Assumptions C16_chars.
Print Assumptions C16_strings.
Print Assumptions C16_failing.
Print Assumptions C16_slots.
Print Assumptions C17_chunking.
Print Assumptions C17_no_bindings.
Print Assumptions C18_str_strings.
Print Assumptions C18_strings_chars.
Print Assumptions C18_no_bindings.
Print Assumptions C19_str.
Print Assumptions C19_no_bindings.
Print Assumptions C19_text.
Print Assumptions C19_calls.
Print Assumptions C20_strings.
Print Assumptions C20_chars.
Print Assumptions C20_calls_strings.
Print Assumptions C20_calls_chars.
Print Assumptions C40_texts.
Print Assumptions C40_operands.
Print Assumptions C40_reparse.
Print Assumptions C40_str.

(** ** Cases *)
Definition st_key (s : literal) : st_text := tx_from (st_ops (W:=N)) (posstrish_from (lit s)).
Arguments st_key _%lit.
(** [q] returns its operands text and counts, [l] returns its arguments. *)
Definition st_map : st_bindings (W:=N) (ET:=N) (CE:=N) := [
  (DText (st_key "q"), Operative (fun _ t w => (inl (Some (DText t)), w + 1)));
  (DText (st_key "l"), Applicative (fun _ l w => (inl (Some l), w)))]%N.
Definition im_map2 : im_bindings (W:=N) (ET:=N) (CE:=N) := [
  (DText (im_from "q"), Operative (fun _ t w => (inl (Some (DText t)), w + 1)));
  (DText (im_from "l"), Applicative (fun _ l w => (inl (Some l), w)))]%N.

Lemma st_key_items s : text_items (st_ops (W:=N)) posstrish_any (st_key s) (enumerate 0 (lit s)).
Proof.
  apply (xc_from (tvec_contract posstrish_any_contract False (fun w : N => w))).
  apply posstrish_new_rep. exact I.
Qed.
Lemma im_key_items s : text_items (im_ops (W:=N)) posstr_any (im_from s) (str_source (lit s)).
Proof.
  exact (xc_from (tvec_contract posstr_any_contract False (fun w : N => w)) _ _ (posstr_from_any (lit s))).
Qed.

(** The bindings treat texts alike. *)
Example C17_bindings : st_alike st_map st_map.
Proof.
  assert (K : forall s, st_same (W:=N) (st_key s) (st_key s)).
  { intros s. exists (enumerate 0 (lit s)), (enumerate 0 (lit s)). split; [apply st_key_items|].
    split; [apply st_key_items|]. apply item_rel_refl. }
  unfold st_alike, st_map. repeat apply Forall2_cons; try apply Forall2_nil; (split; [apply K|]);
    cbn; intros; subst; auto.
Qed.
Example C18_bindings : im_st_alike im_map2 st_map.
Proof.
  assert (K : forall s, im_st_same (W:=N) (im_from s) (st_key s)).
  { intros s. exists (str_source (lit s)), (enumerate 0 (lit s)). split; [apply im_key_items|].
    split; [apply st_key_items|]. rewrite str_source_eq. apply str_char_items. }
  unfold im_st_alike, st_map, im_map2. repeat apply Forall2_cons; try apply Forall2_nil; (split; [apply K|]);
    cbn; intros; subst; auto.
Qed.

(** A text of three chunks, one of them empty, over two strings: positions are
    those in the strings. *)
Definition xab : str := lit "xab".
Definition cut : im_text := Multi [PosStr (lit "ab") (StrPos xab 1 1); posstr_empty; posstr_from (lit "c")].
Lemma cut_items : text_items (im_ops (W:=N)) posstr_any cut (skipn 1 (str_source xab) ++ str_source (lit "c")).
Proof.
  exists [PosStr (lit "ab") (StrPos xab 1 1); posstr_empty; posstr_from (lit "c")],
    [skipn 1 (str_source xab); []; str_source (lit "c")].
  split; [reflexivity|]. split; [|reflexivity]. repeat apply Forall2_cons; try apply Forall2_nil.
  - exists xab. right. exists (lit "x"), (lit "ab"), []. repeat split; reflexivity.
  - exists []. left. split; reflexivity.
  - apply posstr_from_any.
Qed.

(** Peeking across chunks, accumulating over them, dropping an accumulation, and
    accumulating nothing at the end. *)
Definition some_calls : list call :=
  [CNextAccum; CNext; CNextAccum; CPeek; CNextAccum; CNextAccum; CAccumDone; CAccumDone].
Example C16_case :
  text_contract False (fun w : N => w) im_ops posstr_any /\
  documented some_calls (skipn 1 (str_source xab) ++ str_source (lit "c")) [] =
    [AItem (Some (Item 97 (StrPos xab 1 1))); AItem (Some (Item 98 (StrPos xab 2 2)));
     AItem (Some (Item 99 (StrPos (lit "c") 0 0))); AItem None; AItem None; AItem None;
     AText [Item 99 (StrPos (lit "c") 0 0)]; AText []]%N /\
  match titer_new posstr_ops (im_ops (W:=N)) cut with
  | Ok s => fst (do_calls im_stream some_calls s 0%N) =
      Ok [AItem (Some (Item 97 (StrPos xab 1 1))); AItem (Some (Item 98 (StrPos xab 2 2)));
          AItem (Some (Item 99 (StrPos (lit "c") 0 0))); AItem None; AItem None; AItem None;
          AText (Single (posstr_from (lit "c"))); AText tvec_empty]%N
  | _ => False
  end.
Proof. split; [apply imxc|]. split; vm_compute; reflexivity. Qed.

(** The same text in a list in slots of memory, none of which is free: accumulating
    into the next chunk fails, and the items after it are still there. *)
Definition cut_list : nh_text (ET:=N) :=
  TDL (PosStr (lit "ab") (StrPos xab 1 1)) (Some (DText (TDL (posstr_from (lit "cd")) None))).
Lemma cut_list_items : text_items (nh_ops (W:=N) (ET:=N)) posstr_any cut_list (skipn 1 (str_source xab) ++ str_source (lit "cd")).
Proof.
  exists [PosStr (lit "ab") (StrPos xab 1 1); posstr_from (lit "cd")], [skipn 1 (str_source xab); str_source (lit "cd")].
  split; [reflexivity|]. split; [|reflexivity]. repeat apply Forall2_cons; try apply Forall2_nil.
  - exists xab. right. exists (lit "x"), (lit "ab"), []. repeat split; reflexivity.
  - apply posstr_from_any.
Qed.
Example C16_slots_case :
  match titer_new posstr_ops (nh_ops (W:=N) (ET:=N)) cut_list with
  | Ok s =>
      fst (do_calls nh_stream [CNextAccum; CNextAccum; CNextAccum; CAccumDone; CNext] s (nh_parser [] 0%N)) =
        Ok [AItem (Some (Item 97 (StrPos xab 1 1))); AItem (Some (Item 98 (StrPos xab 2 2)));
            AItem (Some (Item 99 (StrPos (lit "cd") 0 0))); AFailed AllocExhausted;
            AItem (Some (Item 100 (StrPos (lit "cd") 1 1)))]%N /\
      fst (do_calls nh_stream [CNextAccum; CNextAccum; CNextAccum; CAccumDone; CNext] s (nh_parser [DEmptyNest] 0%N)) =
        Ok [AItem (Some (Item 97 (StrPos xab 1 1))); AItem (Some (Item 98 (StrPos xab 2 2)));
            AItem (Some (Item 99 (StrPos (lit "cd") 0 0)));
            AText (TDL (PosStr (lit "ab") (StrPos xab 1 1)) (Some (DText (TDL (PosStr (lit "c") (StrPos (lit "cd") 0 0)) None))));
            AItem (Some (Item 100 (StrPos (lit "cd") 1 1)))]%N
  | _ => False
  end.
Proof. vm_compute. split; reflexivity. Qed.

(** What the texts of results read, as items. *)
Definition st_items (t : st_text) : list (item charpos) :=
  match titer_new posstrish_ops (st_ops (W:=N)) t with
  | Ok s => match titer_collect posstrish_ops 1000 s with Ok l => l | _ => [] end
  | _ => []
  end.
Fixpoint show {TT X} (f : TT -> X) (d : datum TT N) : datum X N :=
  match d with
  | DText t => DText (f t)
  | DComb a b => DComb (show f a) (show f b)
  | DEmptyNest => DEmptyNest
  | DList a b => DList (show f a) (show f b)
  | DEmptyList => DEmptyList
  | DExtra x => DExtra x
  end.
Definition shows {TT X Pos} (f : TT -> X) (r : res Empty_set (list (datum TT N + error Pos N))) :=
  res_map (map (fun x => match x with inl d => inl (show f d) | inr e => inr e end)) r.

(** Escapes, nest forms and operands across the strings' boundaries; and an error. *)
Example C17_case :
  let strs1 := [lit "ab{"; lit "q {"; lit "x\"; lit "}y}"; []; lit "}"; lit "}z"] in
  let strs2 := [lit "ab{q {x\}y}"; lit "}}z"] in
  let expect : list (datum (list (item charpos)) N + error charpos N) :=
    [inl (DText [Item 97 0; Item 98 1]);
     inl (DText [Item 123 5; Item 120 6; Item 125 8; Item 121 9; Item 125 10]);
     inr (UnbalancedEndChar 12)]%N in
  List.concat strs1 = List.concat strs2 /\
  shows st_items (fst (parse_stream_with num_eq num_hash sum_hasher strs1 st_map 0%N)) = Ok expect /\
  shows st_items (fst (parse_stream_with num_eq num_hash sum_hasher strs2 st_map 0%N)) = Ok expect.
Proof. vm_compute. repeat split. Qed.

Definition im_char_items (t : im_text) : list (item charpos) :=
  match titer_new posstr_ops (im_ops (W:=N)) t with
  | Ok s => match titer_collect posstr_ops 1000 s with
            | Ok l => map (fun i => Item (it_ch i) (sp_char (it_pos i))) l | _ => [] end
  | _ => []
  end.
Example C18_case :
  let input := lit "{l x {q \}}}" in
  let expect : list (datum (list (item charpos)) N) :=
    [DList (DText [Item 120 3; Item 32 4]) (DList (DText [Item 125 9]) DEmptyList)]%N in
  shows im_char_items (fst (parse_str_with num_eq num_hash sum_hasher input im_map2 0%N)) = Ok (map inl expect) /\
  shows st_items (fst (parse_stream_with num_eq num_hash sum_hasher [lit "{l x "; lit "{q \}}}"] st_map 0%N)) = Ok (map inl expect) /\
  shows st_items (fst (parse_chars_with num_eq num_hash sum_hasher input st_map 0%N)) = Ok (map inl expect).
Proof. vm_compute. repeat split. Qed.

(** The combiners keep texts to slices, as they return what they are given. *)
Example C19_bindings P : forall key c, In (key, c) im_map2 -> combiner_keeps (sliced (im_ops (W:=N)) P) c.
Proof. intros key c [[= <- <-]|[[= <- <-]|[]]]; cbn; intros ? ? ? ? ? ? ? [= <- _]; cbn; auto. Qed.
(** Leaving out an escape character cuts the text into two slices of the input; a
    wrong slice would not be one: its string differs from the input there. *)
Definition esc : str := [123; 108; 32; 0x20AC; 92; 125; 98; 125]%N.
Example C19_case :
  fst (parse_str_with num_eq num_hash sum_hasher esc im_map2 0%N) =
    Ok [inl (DList (DText (Multi [PosStr [0x20AC] (StrPos esc 3 3); PosStr [125; 98] (StrPos esc 7 5)])) DEmptyList)]%N /\
  slice_of esc (PosStr [125; 98] (StrPos esc 7 5))%N /\
  ~ slice_of esc (PosStr [125; 98] (StrPos esc 6 4))%N.
Proof.
  split; [vm_compute; reflexivity|]. split; [vm_compute; repeat split; discriminate|].
  intros (_ & E & _). vm_compute in E. discriminate E.
Qed.

Example C20_bindings held : forall key c, In (key, c) st_map -> combiner_keeps (ranged (st_ops (W:=N)) held) c.
Proof. intros key c [[= <- <-]|[[= <- <-]|[]]]; cbn; intros ? ? ? ? ? ? ? [= <- _]; cbn; auto. Qed.
(** Ranges of the two strings; positions are those in the whole input. *)
Example C20_case :
  let strs := [[97; 123; 113; 32; 0x20AC; 92]; [92; 98; 125]]%N in
  fst (parse_stream_with num_eq num_hash sum_hasher strs st_map 0%N) =
    Ok [inl (DText (Single (PosStrish (RcSlice (nth 0 strs []) 0 1) 0)));
        inl (DText (Multi [PosStrish (RcSlice (nth 0 strs []) 4 7) 4; PosStrish (RcSlice (nth 1 strs []) 0 2) 6]))]%N /\
  range_of (held_by strs) (PosStrish (RcSlice (nth 1 strs []) 0 2) 6)%N /\
  ~ range_of (held_by strs) (PosStrish (RcSlice (nth 1 strs []) 0 2) 7)%N.
Proof.
  split; [vm_compute; reflexivity|]. split.
  - exists 6%N, [], [92; 98]%N, [125]%N. split; [|vm_compute; repeat split].
    exists [nth 0 [[97; 123; 113; 32; 0x20AC; 92]; [92; 98; 125]]%N []], []. split; reflexivity.
  - intros (base & q & u & r & (l1 & l2 & E & ->) & Ep & _ & _ & Eb). cbn in Ep. injection Ep as <-.
    cbn [length px_pos] in Eb. destruct l1 as [|a [|b [|c l1]]]; cbn in E; try discriminate E.
    injection E as <- _. discriminate Eb.
Qed.

(** An operands text with an escaped end character: reading it again, that
    character is an unmatched end, reported where it stands in the input. *)
Example C40_case :
  let input := lit "x{q a\}b}" in
  exists s st' d t r s2 st2,
    titer_new posstr_ops (im_ops (W:=N)) (tx_from (im_ops (W:=N)) (posstr_from input)) = Ok s /\
    called usize_max default_classifier im_stream (text_concat_ops im_ops) box_alloc
      (logged (im_lookup num_eq num_hash sum_hasher im_map2)) (parse_iter_new s (0%N, []))
      [Some (inl (DText (Single (PosStr (lit "x") (StrPos input 0 0))))); Some (inl (DText t)); None] st' /\
    snd (ps_alloc st') = [OperativeCall d t r] /\ im_char_items t = [Item 97 4; Item 125 6; Item 98 7]%N /\
    titer_new posstr_ops (im_ops (W:=N)) t = Ok s2 /\
    called usize_max default_classifier im_stream (text_concat_ops im_ops) box_alloc
      (im_lookup num_eq num_hash sum_hasher im_map2) (parse_iter_new s2 0%N)
      [Some (inr (UnbalancedEndChar (StrPos input 6 6)))] st2.
Proof.
  do 7 eexists. split; [vm_compute; reflexivity|]. split.
  { eapply called_next with (fuel := 50); [vm_compute; reflexivity|].
    eapply called_next with (fuel := 50); [vm_compute; reflexivity|].
    eapply called_next with (fuel := 50); [vm_compute; reflexivity|].
    apply called_none. }
  split; [vm_compute; reflexivity|]. split; [vm_compute; reflexivity|]. split; [vm_compute; reflexivity|].
  eapply called_next with (fuel := 50); [vm_compute; reflexivity|]. apply called_none.
Qed.
