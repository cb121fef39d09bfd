(** C31, C32 and C37: the functions that parse whole inputs, and the default
    classifier. *)
From Coq Require Import List NArith Arith Bool Lia.
From Verif.Model Require Import Prelude Parser Iter Utf8 Chunk TextIter PosStr PosStrish
  TextVec TextDatumList CharIter StrishIter Alloc DefaultClassifier TextMethods DatumMethods Bindings Premade.
From Verif.Spec Require Import Grammar ChunkContract Run History.
From Verif.Proofs Require Import Transfer Instances PremadeFacts Concrete ClassifierFacts.
From Verif.Tests Require Import Str Cases AbsCases.
Import ListNotations.
Local Notation N_len r := (N.of_nat (length r)).

(** ** C31: up to and including the first error *)

(** [items] are all of [all] if these are without errors, and else those up to
    and including the first error. *)
Definition up_to_first_error {D E} (items all : list (D + E)) : Prop :=
  (exists ds, all = map inl ds /\ items = map inl ds) \/
  (exists ds e more, all = map inl ds ++ inr e :: more /\ items = map inl ds ++ [inr e]).

Lemma upto_first_error {TT ET Pos CE} (all : list (parse_item (TT:=TT) (ET:=ET) (Pos:=Pos) (CE:=CE))) :
  up_to_first_error (upto_err all) all.
Proof.
  destruct (upto_err_cases all) as [(ds & ->)|(ds & e & rest & ->)].
  - left. exists ds. rewrite upto_err_ok. auto.
  - right. exists ds, e, rest. rewrite upto_err_err. auto.
Qed.

Section Whole.
Context {W ET CE : Type} (ET_eq : ET -> ET -> bool) (ET_hash : ET -> list hash_word) (hasher : list hash_word -> N).

(** [parse_str_with] against iterating with the parser over the same input. *)
Theorem C31_str input (m : im_bindings (W:=W) (ET:=ET) (CE:=CE)) w : (N_len input <= usize_max)%N ->
  exists s items all st st',
    titer_new posstr_ops (im_ops (W:=W)) (tx_from (im_ops (W:=W)) (posstr_from input)) = Ok s /\
    iterates usize_max default_classifier im_stream (text_concat_ops im_ops) box_alloc
      (im_lookup ET_eq ET_hash hasher m) (parse_iter_new s w) all st' /\
    parse_str_with ET_eq ET_hash hasher input m w = (Ok items, Some st) /\ up_to_first_error items all.
Proof.
  intros Hu. destruct (parse_str_with_safe ET_eq ET_hash hasher input m w Hu) as (s & all & st & st' & Es & Ea & E & _).
  exists s, (upto_err all), all, st, st'. split; [exact Es|]. split; [eexists _, _; exact Ea|]. split; [exact E|apply upto_first_error].
Qed.

Theorem C31_strings strs (m : st_bindings (W:=W) (ET:=ET) (CE:=CE)) w : (N_len (List.concat strs) <= usize_max)%N ->
  exists s items all st st', strishiter_new strs = Ok s /\
    iterates usize_max default_classifier st_stream (text_concat_ops st_ops) box_alloc
      (st_lookup ET_eq ET_hash hasher m) (parse_iter_new s w) all st' /\
    parse_stream_with ET_eq ET_hash hasher strs m w = (Ok items, Some st) /\ up_to_first_error items all.
Proof.
  intros Hu. destruct (parse_stream_with_safe ET_eq ET_hash hasher strs m w Hu) as (s & all & st & st' & Es & Ea & E & _).
  exists s, (upto_err all), all, st, st'. split; [exact Es|]. split; [eexists _, _; exact Ea|]. split; [exact E|apply upto_first_error].
Qed.

Theorem C31_chars input (m : st_bindings (W:=W) (ET:=ET) (CE:=CE)) w : (N_len input <= usize_max)%N ->
  exists items all st st',
    iterates usize_max default_classifier cs_stream (text_concat_ops st_ops) box_alloc
      (st_lookup ET_eq ET_hash hasher m) (parse_iter_new (chariter_new input) w) all st' /\
    parse_chars_with ET_eq ET_hash hasher input m w = (Ok items, st) /\ up_to_first_error items all.
Proof.
  intros Hu. destruct (parse_chars_with_safe ET_eq ET_hash hasher input m w Hu) as (all & st & st' & Ea & E & _).
  exists (upto_err all), all, st, st'. split; [eexists _, _; exact Ea|]. split; [exact E|apply upto_first_error].
Qed.

(** In memory without heap, from any state of the allocator. *)
Theorem C31_text input l (m : nh_bindings (W:=W) (ET:=ET) (CE:=CE)) a :
  text_items (nh_ops (W:=W) (ET:=ET)) posstr_any input l -> (N_len l <= usize_max)%N ->
  exists s items all st st', titer_new posstr_ops (nh_ops (W:=W) (ET:=ET)) input = Ok s /\
    iterates usize_max default_classifier nh_stream (text_concat_ops nh_ops) slice_alloc
      (nh_lookup ET_eq m) (parse_iter_new s a) all st' /\
    parse_text_with ET_eq input m a = (Ok items, Some st) /\ up_to_first_error items all.
Proof.
  intros Hi Hu. destruct (parse_text_with_safe ET_eq m a Hi Hu) as (s & all & st & st' & Es & Ea & E & _).
  exists s, (upto_err all), all, st, st'. split; [exact Es|]. split; [eexists _, _; exact Ea|]. split; [exact E|apply upto_first_error].
Qed.
End Whole.

(** ** C32: after the first error *)

(** What does happen: exactly one more call of [next] after an error (and none
    after [None]), whatever the streams, texts, allocators and bindings. *)
Theorem C32_one_more {S A TT ET Pos CE} umax cc (so : stream_ops S A TT Pos) co ao (bnd : bindings A TT ET Pos CE)
    n fuel st items st' :
  collect_up_to_first_err umax cc so co ao bnd n fuel st = (Ok items, st') ->
  (exists ds, items = map inl ds /\ called umax cc so co ao bnd st (map Some items ++ [None]) st') \/
  (exists ds e st1 o, items = map inl ds ++ [inr e] /\
    called umax cc so co ao bnd st (map Some items) st1 /\ called umax cc so co ao bnd st1 [o] st').
Proof.
  unfold collect_up_to_first_err. revert st items. induction n as [|n IH]; intros st items; cbn [take_while_collect]; [discriminate|].
  destruct (iter_next umax cc so co ao bnd fuel st) as [[[[d|e]|]|[]| |] s1] eqn:E1; try discriminate; cbn [keep_until_err is_err].
  - destruct (take_while_collect umax cc so co ao bnd n fuel false s1) as [[l|[]| |] s2] eqn:E2; try discriminate.
    intros [= <- ->]. destruct (IH _ _ E2) as [(ds & -> & H)|(ds & e & st1 & o & -> & H1 & H2)].
    + left. exists (d :: ds). split; [reflexivity|]. econstructor; eauto.
    + right. exists (d :: ds), e, st1, o. split; [reflexivity|]. split; [|exact H2]. econstructor; eauto.
  - destruct n as [|n]; cbn [take_while_collect]; [discriminate|].
    destruct (iter_next umax cc so co ao bnd fuel s1) as [[o|[]| |] s2] eqn:E2; try discriminate.
    intros E3. assert (items = [inr e] /\ s2 = st') as [-> ->].
    { destruct o as [x|]; cbn [keep_until_err] in E3; injection E3 as <- ->; auto. }
    right. exists [], e, s1, o. split; [reflexivity|]. split.
    + econstructor; [exact E1|constructor].
    + econstructor; [exact E2|constructor].
  - intros [= <- ->]. left. exists []. split; [reflexivity|]. econstructor; [exact E1|constructor].
Qed.

(** C31.  So what is collected has at most one error, and only as its last item. *)
Theorem C31_one_error {S A TT ET Pos CE} umax cc (so : stream_ops S A TT Pos) co ao (bnd : bindings A TT ET Pos CE)
    n fuel st items st' :
  collect_up_to_first_err umax cc so co ao bnd n fuel st = (Ok items, st') ->
  exists ds, items = map inl ds \/ exists e, items = map inl ds ++ [inr e].
Proof.
  intros H. destruct (C32_one_more _ _ _ _ _ _ _ _ _ _ _ H) as [(ds & -> & _)|(ds & e & _ & _ & -> & _)]; eauto.
Qed.

(** The documented immediate abort fails for each function: although the first
    item is an error ([st1] is the state then), a combiner is called after it
    (its count of calls changes), and the source is read on. *)
Theorem C32_abort_str_refuted :
  exists input (m : im_bindings (W:=N) (ET:=N) (CE:=N)) s e st st1,
    titer_new posstr_ops (im_ops (W:=N)) (tx_from (im_ops (W:=N)) (posstr_from input)) = Ok s /\
    called usize_max default_classifier im_stream (text_concat_ops im_ops) box_alloc
      (im_lookup num_eq num_hash sum_hasher m) (parse_iter_new s 0%N) [Some (inr e)] st1 /\
    parse_str_with num_eq num_hash sum_hasher input m 0%N = (Ok [inr e], Some st) /\
    ps_alloc st1 = 0%N /\ ps_alloc st = 1%N /\
    (exists i s', s_next (im_stream (W:=N)) (ps_strm st1) = (Ok (Some i), s')) /\
    (exists s', s_next (im_stream (W:=N)) (ps_strm st) = (Ok None, s')).
Proof.
  exists (lit "}{n x}"), im_map. do 4 eexists. split; [vm_compute; reflexivity|]. split.
  { eapply called_next with (fuel := 50); [vm_compute; reflexivity|]. constructor. }
  split; [vm_compute; reflexivity|]. split; [vm_compute; reflexivity|]. split; [vm_compute; reflexivity|]. split.
  - do 2 eexists. vm_compute. reflexivity.
  - eexists. vm_compute. reflexivity.
Qed.

(** Operative that counts its calls in the state. *)
Definition st_count : st_bindings (W:=N) (ET:=N) (CE:=N) :=
  [(DText (tx_from (st_ops (W:=N)) (posstrish_from (lit "n"))), Operative (fun _ _ w => (inl None, w + 1)%N))].
Definition nh_count : nh_bindings (W:=N) (ET:=N) (CE:=N) :=
  [(DText (tx_from (nh_ops (W:=N) (ET:=N)) (posstr_from (lit "n"))), Operative (fun _ _ w => (inl None, (fst w, snd w + 1)%N)))].

Theorem C32_abort_strings_refuted :
  exists strs s e st st1, strishiter_new strs = Ok s /\
    called usize_max default_classifier st_stream (text_concat_ops st_ops) box_alloc
      (st_lookup num_eq num_hash sum_hasher st_count) (parse_iter_new s 0%N) [Some (inr e)] st1 /\
    parse_stream_with num_eq num_hash sum_hasher strs st_count 0%N = (Ok [inr e], Some st) /\
    ps_alloc st1 = 0%N /\ ps_alloc st = 1%N.
Proof.
  exists [lit "}{"; lit "n x}"]. do 4 eexists. split; [vm_compute; reflexivity|]. split.
  { eapply called_next with (fuel := 50); [vm_compute; reflexivity|]. constructor. }
  split; [vm_compute; reflexivity|]. split; vm_compute; reflexivity.
Qed.

Theorem C32_abort_text_refuted :
  exists input s e st st1, titer_new posstr_ops (nh_ops (W:=N) (ET:=N)) input = Ok s /\
    called usize_max default_classifier nh_stream (text_concat_ops nh_ops) slice_alloc
      (nh_lookup num_eq nh_count) (parse_iter_new s (nh_parser [] 0%N)) [Some (inr e)] st1 /\
    parse_text_with num_eq input nh_count (nh_parser [] 0%N) = (Ok [inr e], Some st) /\
    snd (ps_alloc st1) = 0%N /\ snd (ps_alloc st) = 1%N.
Proof.
  exists (tx_from (nh_ops (W:=N) (ET:=N)) (posstr_from (lit "}{n x}"))). do 4 eexists. split; [vm_compute; reflexivity|]. split.
  { eapply called_next with (fuel := 50); [vm_compute; reflexivity|]. constructor. }
  split; [vm_compute; reflexivity|]. split; vm_compute; reflexivity.
Qed.

(** ** C37: the default classifier *)
Theorem C37_classes c :
  (is_nest_start default_classifier c = true <-> c = 123%N) /\
  (is_nest_end default_classifier c = true <-> c = 125%N) /\
  (is_nest_escape default_classifier c = true <-> c = 92%N) /\
  (is_whitespace default_classifier c = true <-> In c white_space).
Proof.
  cbn [default_classifier is_nest_start is_nest_end is_nest_escape is_whitespace].
  rewrite !N.eqb_eq. split; [split; congruence|]. split; [split; congruence|]. split; [split; congruence|].
  apply unicode_whitespace_iff.
Qed.

Theorem C37_disjoint : disjoint_classes default_classifier.
Proof. exact default_disjoint. Qed.

Print Assumptions C31_str.
Print Assumptions C31_strings.
Print Assumptions C31_chars.
Print Assumptions C31_text.
Print Assumptions C31_one_error.
Print Assumptions C32_one_more.
Print Assumptions C32_abort_str_refuted.
Print Assumptions C32_abort_strings_refuted.
Print Assumptions C32_abort_text_refuted.
Print Assumptions C37_classes.
Print Assumptions C37_disjoint.

(** ** Cases *)
(** All items of [a{q b}}c{n}}] (two errors and, between them, a call), and those returned. *)
Example C31_case :
  let pos (i : N) := StrPos (lit "a{q b}}c{n}}") i i in
  im_items_show (fst (im_collect 20 60 (im_start "a{q b}}c{n}}" 0%N))) =
    Ok [inl (DText [97]); inl (DText [98]); inr (UnbalancedEndChar (pos 6));
        inl (DText [99]); inl (DExtra 0); inr (UnbalancedEndChar (pos 11))]%N /\
  im_items_show (im_run "a{q b}}c{n}}") = Ok [inl (DText [97]); inl (DText [98]); inr (UnbalancedEndChar (pos 6))]%N.
Proof. vm_compute. split; reflexivity. Qed.
