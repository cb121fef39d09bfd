(** C64: the chunks of texts of a source of several chunks or strings are parts of those, as
    long as possible.  C65: which strings of the source stay referred to. *)
From Coq Require Import List NArith Arith Bool Lia.
From Verif.Model Require Import Prelude Parser Iter Utf8 Chunk TextIter PosStr PosStrish TextVec TextDatumList CharIter StrishIter Alloc
  DefaultClassifier TextMethods DatumMethods Bindings Premade.
From Verif.Spec Require Import Contract ChunkContract Run Memory TextWork Slices Pieces Held.
From Verif.Proofs Require Import ChunkFacts TextFacts AllocFacts Instances RunFacts Concrete Amortize PiecesFacts TextWorkFacts PiecesRuns
  SourceRuns ManyPieces ManyStreams ManyRuns HeldFacts ManyCalls.
From Verif.Tests Require Import Str Cases AbsCases.
Import ListNotations.
Local Notation N_len r := (N.of_nat (length r)).

(** ** Texts of several chunks *)
Theorem C64_vec {C CS Pos A ET CE} umax cc (k : chunk_ops C CS Pos) Rc Rcs (ao : alloc_ops A (tvec C) ET)
    (bnd : bindings A (tvec C) ET Pos CE) t srcs s a ds more st' :
  chunk_contract k Rc Rcs -> (forall d a d' a', a_new_datum ao d a = (Ok d', a') -> d' = d) ->
  Forall2 Rc (tvec_slice t) srcs -> NoDup (List.concat srcs) -> titer_new k (tvec_ops (A:=A) k) t = Ok s ->
  keeps_texts (fun t => exists ls, chunks_are_pieces_of (tvec_ops (A:=A) k) Rc srcs t ls) bnd ->
  iterates umax cc (titer_stream k (tvec_ops k)) (text_concat_ops (tvec_ops k)) ao bnd (parse_iter_new s a)
    (map inl ds ++ more) st' ->
  Forall (fun d => Forall (fun t => exists ls, chunks_are_pieces_of (tvec_ops (A:=A) k) Rc srcs t ls) (texts_in d)) ds.
Proof.
  intros KC HN Hc ND Es HB (n & fuel & E).
  assert (EM : empty_few (tvec_ops (A:=A) k) Rc) by (exists []; repeat split; auto).
  assert (JO : joins (tvec_ops (A:=A) k) Rc) by exact (shaped_joins KC (@tvec_shaped _ _ _ _ _)).
  refine (many_collect umax cc ao (titer_many_contract KC (tvec_contract KC False (fun a : A => a)) (fun c => eq_refl) EM JO srcs ND) EM JO ND HN HB _ _ _ _ _ _ E).
  exists [], (List.concat srcs). split; [reflexivity|]. cbn. eapply titer_new_many; eauto. reflexivity.
Qed.

Theorem C64_list {C CS Pos A W ET CE} umax cc (k : chunk_ops C CS Pos) Rc Rcs (F : Prop) (view : A -> W)
    (ao : alloc_ops A (tdl C ET) ET) (bnd : bindings A (tdl C ET) ET Pos CE) t cs srcs s a ds more st' :
  chunk_contract k Rc Rcs -> alloc_contract F view ao ->
  tdl_chunks t = seq_of cs -> Forall2 Rc cs srcs -> NoDup (List.concat srcs) -> titer_new k (tdl_ops k ao) t = Ok s ->
  keeps_texts (fun t => exists ls, chunks_are_pieces_of (tdl_ops k ao) Rc srcs t ls) bnd ->
  iterates umax cc (titer_stream k (tdl_ops k ao)) (text_concat_ops (tdl_ops k ao)) ao bnd (parse_iter_new s a)
    (map inl ds ++ more) st' ->
  Forall (fun d => Forall (fun t => exists ls, chunks_are_pieces_of (tdl_ops k ao) Rc srcs t ls) (texts_in d)) ds.
Proof.
  intros KC AC Et Hc ND Es HB (n & fuel & E).
  assert (HN : forall d a d' a', a_new_datum ao d a = (Ok d', a') -> d' = d).
  { intros d b d' b' K. destruct (AC d b) as [(b2 & K2 & _)|(_ & b2 & K2 & _)]; rewrite K in K2; [injection K2 as -> _; reflexivity|discriminate]. }
  assert (EM : empty_few (tdl_ops k ao) Rc).
  { exists [c_empty k]. repeat split; auto. constructor; [apply (kc_empty KC)|constructor]. }
  assert (JO : joins (tdl_ops k ao) Rc) by exact (shaped_joins KC (tdl_shaped k ao HN)).
  refine (many_collect umax cc ao (titer_many_contract KC (tdl_contract KC AC) (fun c => eq_refl) EM JO srcs ND) EM JO ND HN HB _ _ _ _ _ _ E).
  exists [], (List.concat srcs). split; [reflexivity|]. cbn. eapply titer_new_many; eauto.
Qed.

(** Such chunks are determined by the items, and no other way of putting the text together
    from parts of the source's chunks has fewer parts. *)
Theorem C64_fewest {TT C CS A Pos W} (k : chunk_ops C CS Pos) Rc Rcs (F : Prop) (view : A -> W) (x : text_ops TT C A) srcs t ls l :
  chunk_contract k Rc Rcs -> text_contract F view x Rc -> NoDup (List.concat srcs) ->
  chunks_are_pieces_of x Rc srcs t ls -> reads k x t l -> l <> [] ->
  chunk_count (tx_chunks x t) = length ls /\ Forall (fun p => p <> []) ls /\
  (forall ls', Forall (part_of_one srcs) ls' -> List.concat ls' = l -> length ls <= length ls') /\
  (forall ls', Forall (fun p => p <> []) ls' -> pieces_of srcs ls' -> List.concat ls' = l -> ls' = ls).
Proof.
  intros KC XC ND (cs & H1 & H2 & H3) HR Hl.
  assert (E : List.concat ls = l).
  { eapply reads_det; [|exact HR]. eapply text_reads; eauto. exists cs, ls. auto. }
  subst l. pose proof (many_nonempty H3 Hl) as Ne. repeat split.
  - rewrite H1, count_seq. clear -H2. induction H2; cbn; congruence.
  - exact Ne.
  - intros ls' Q Ec. eapply many_fewest; eauto.
  - intros ls' N' P' Ec. eapply many_unique; eauto.
Qed.

(** ** Iterators of strings *)
Theorem C64_strings {A ET CE} umax cc (ao : alloc_ops A (tvec posstrish) ET)
    (bnd : bindings A (tvec posstrish) ET charpos CE) strs s a ds more st' :
  (forall d a d' a', a_new_datum ao d a = (Ok d', a') -> d' = d) -> strishiter_new strs = Ok s ->
  keeps_texts (made_of_ranges strs) bnd ->
  iterates umax cc (strishiter_stream (tvec_ops posstrish_ops)) (text_concat_ops (tvec_ops posstrish_ops)) ao bnd
    (parse_iter_new s a) (map inl ds ++ more) st' ->
  Forall (fun d => Forall (made_of_ranges strs) (texts_in d)) ds.
Proof.
  intros HN Es HB (n & fuel & E).
  pose proof (tight_contract (held_by strs)) as KC. pose proof (string_sources_nodup strs) as ND.
  assert (Hok : forall l1 s l2, strs = l1 ++ s :: l2 -> held_by strs s (N_len (List.concat l1))) by (intros l1 s0 l2 Q; exists l1, l2; auto).
  assert (EM : empty_few (tvec_ops (A:=A) posstrish_ops) (tight_rep (held_by strs))) by (exists []; repeat split; auto).
  assert (JO : joins (tvec_ops (A:=A) posstrish_ops) (tight_rep (held_by strs)))
    by exact (shaped_joins KC (@tvec_shaped _ _ _ _ _)).
  apply (keeps_iff (made_iff (A:=A) strs)) in HB.
  assert (G := many_collect umax cc ao (strish_many_contract KC (tvec_contract KC False (fun a : A => a)) Hok (fun c => eq_refl) EM JO ND) EM JO ND HN HB).
  eapply Forall_impl; [|eapply G; [|exact E]].
  - intros d. apply Forall_impl. intros t. apply made_iff.
  - exists [], (List.concat (parts 0 strs)). split; [reflexivity|]. cbn.
    destruct (strish_new_many (held_by strs) (tvec_ops (A:=A) posstrish_ops) (tight_rep (held_by strs)) Hok) as (s' & Es' & H). rewrite Es in Es'. injection Es' as <-. exact H.
Qed.

(** Every text returned by [parse_stream_with] before the first error. *)
Theorem C64_parse_stream {W ET CE} ET_eq ET_hash hasher strs (m : st_bindings (W:=W) (ET:=ET) (CE:=CE)) w ds more st :
  keeps_texts (made_of_ranges strs) (st_lookup ET_eq ET_hash hasher m) ->
  (N_len (List.concat strs) <= usize_max)%N ->
  parse_stream_with ET_eq ET_hash hasher strs m w = (Ok (map inl ds ++ more), st) ->
  Forall (fun d => Forall (made_of_ranges strs) (texts_in d)) ds.
Proof.
  intros HB Hu E. destruct (parse_stream_with_safe ET_eq ET_hash hasher strs m w Hu) as (s & all & st1 & st' & Es & Ec & Ep & _).
  rewrite Ep in E. injection E as E _. destruct (upto_err_prefix _ _ _ E) as [rest ->].
  refine (C64_strings usize_max default_classifier (@box_alloc W st_text ET) _ strs s w ds rest st' _ Es HB _).
  - cbn. intros d a d' a' [= -> _]. reflexivity.
  - do 2 eexists. exact Ec.
Qed.

(** ** Which strings stay referred to *)

(** After calls of [next] that returned datums (or [None]): besides the strings not yet
    taken from the iterator, the stream refers only to those of [mid], of which at most two
    are not empty; all of those before them ([before]) were read.  The datums refer only to
    strings of which they have characters. *)
Theorem C65_strings {A ET CE} umax cc (ao : alloc_ops A (tvec posstrish) ET)
    (bnd : bindings A (tvec posstrish) ET charpos CE) strs s a ods st' :
  (forall d a d' a', a_new_datum ao d a = (Ok d', a') -> d' = d) -> strishiter_new strs = Ok s ->
  keeps_texts (made_of_ranges strs) bnd ->
  nexts umax cc (strishiter_stream (tvec_ops posstrish_ops)) (text_concat_ops (tvec_ops posstrish_ops)) ao bnd
    (parse_iter_new s a) (map (option_map inl) ods) st' ->
  let s' := ps_strm st' in
  (exists before mid r, strs = before ++ mid ++ si_iter s' /\
    nonempties (stream_strs (tvec_ops (A:=A) posstrish_ops) s') = nonempties mid /\ length (nonempties mid) <= 2 /\
    left_in (strishiter_stream (tvec_ops (A:=A) posstrish_ops)) s' r /\
    length (List.concat (si_iter s')) <= length r <= length (List.concat (mid ++ si_iter s'))) /\
  Forall (fun o => match o with Some d => Forall (made_of_ranges strs) (texts_in d) | None => True end) ods.
Proof.
  intros HN Es HB E.
  pose proof (tight_contract (held_by strs)) as KC. pose proof (string_sources_nodup strs) as ND.
  assert (Hok : forall l1 s l2, strs = l1 ++ s :: l2 -> held_by strs s (N_len (List.concat l1))) by (intros l1 s0 l2 Q; exists l1, l2; auto).
  assert (EM : empty_few (tvec_ops (A:=A) posstrish_ops) (tight_rep (held_by strs))) by (exists []; repeat split; auto).
  assert (JO : joins (tvec_ops (A:=A) posstrish_ops) (tight_rep (held_by strs))) by exact (shaped_joins KC (@tvec_shaped _ _ _ _ _)).
  apply (keeps_iff (made_iff (A:=A) strs)) in HB.
  pose proof (strish_many_contract KC (tvec_contract KC False (fun a : A => a)) Hok (fun c => eq_refl) EM JO ND) as SC0.
  pose proof (held_contract strs SC0) as SC.
  assert (H0 : many_started (fun s r p => strish_many (held_by strs) (tvec_ops (A:=A) posstrish_ops) strs (tight_rep (held_by strs)) s r p /\ held strs s) (parts 0 strs) s).
  { exists [], (List.concat (parts 0 strs)). split; [reflexivity|]. cbn.
    destruct (strish_new_many (held_by strs) (tvec_ops (A:=A) posstrish_ops) (tight_rep (held_by strs)) Hok) as (s2 & Es' & H). rewrite Es in Es'. injection Es' as <-.
    split; [exact H|]. apply new_held. exact Es. }
  destruct (many_nexts SC EM JO ND HN HB (st:=parse_iter_new s a) ods H0 E) as [G (pre & rest & _ & H1 & H2)]. split.
  - destruct (held_end H1 H2) as (before & mid & K1 & K2 & K3 & K4). exists before, mid, rest.
    split; [exact K1|]. split; [exact K2|]. split; [exact K3|]. split; [|exact K4]. eapply contract_left; [exact SC0|exact H1].
  - eapply Forall_impl; [|exact G]. intros [d|]; [|auto]. apply Forall_impl. intros t. apply made_iff.
Qed.

(** ** Any calls, also after errors *)
Theorem C64_vec_calls {C CS Pos A ET CE W} umax cc (k : chunk_ops C CS Pos) Rc Rcs (F : Prop) (view : A -> W) (ao : alloc_ops A (tvec C) ET)
    (bnd : bindings A (tvec C) ET Pos CE) t srcs s a os st' :
  chunk_contract k Rc Rcs -> alloc_contract F view ao ->
  Forall2 Rc (tvec_slice t) srcs -> NoDup (List.concat srcs) -> (N_len (List.concat srcs) <= umax)%N -> titer_new k (tvec_ops (A:=A) k) t = Ok s ->
  keeps_texts (fun t => exists ls, chunks_are_pieces_of (tvec_ops (A:=A) k) Rc srcs t ls) bnd ->
  nexts umax cc (titer_stream k (tvec_ops k)) (text_concat_ops (tvec_ops k)) ao bnd (parse_iter_new s a) os st' ->
  forall d, In (Some (inl d)) os -> Forall (fun t => exists ls, chunks_are_pieces_of (tvec_ops (A:=A) k) Rc srcs t ls) (texts_in d).
Proof.
  intros KC AC Hc ND Hu Es HB E d Hd.
  assert (EM : empty_few (tvec_ops (A:=A) k) Rc) by (exists []; repeat split; auto).
  assert (JO : joins (tvec_ops (A:=A) k) Rc) by exact (shaped_joins KC (@tvec_shaped _ _ _ _ _)).
  assert (XC := tvec_contract KC F view).
  destruct (many_calls (titer_many_contract KC XC (fun c => eq_refl) EM JO srcs ND) XC AC EM JO ND HB Hu E eq_refl) as [G _].
  - left. exists [], (List.concat srcs). split; [reflexivity|]. cbn. eapply titer_new_many; eauto. reflexivity.
  - rewrite Forall_forall in G. exact (G _ Hd).
Qed.
Theorem C64_list_calls {C CS Pos A W ET CE} umax cc (k : chunk_ops C CS Pos) Rc Rcs (F : Prop) (view : A -> W)
    (ao : alloc_ops A (tdl C ET) ET) (bnd : bindings A (tdl C ET) ET Pos CE) t cs srcs s a os st' :
  chunk_contract k Rc Rcs -> alloc_contract F view ao ->
  tdl_chunks t = seq_of cs -> Forall2 Rc cs srcs -> NoDup (List.concat srcs) -> (N_len (List.concat srcs) <= umax)%N -> titer_new k (tdl_ops k ao) t = Ok s ->
  keeps_texts (fun t => exists ls, chunks_are_pieces_of (tdl_ops k ao) Rc srcs t ls) bnd ->
  nexts umax cc (titer_stream k (tdl_ops k ao)) (text_concat_ops (tdl_ops k ao)) ao bnd (parse_iter_new s a) os st' ->
  forall d, In (Some (inl d)) os -> Forall (fun t => exists ls, chunks_are_pieces_of (tdl_ops k ao) Rc srcs t ls) (texts_in d).
Proof.
  intros KC AC Et Hc ND Hu Es HB E d Hd.
  assert (EM : empty_few (tdl_ops k ao) Rc).
  { exists [c_empty k]. repeat split; auto. constructor; [apply (kc_empty KC)|constructor]. }
  assert (JO : joins (tdl_ops k ao) Rc) by exact (shaped_joins KC (tdl_shaped k ao (alloc_same AC))).
  assert (XC := tdl_contract KC AC).
  destruct (many_calls (titer_many_contract KC XC (fun c => eq_refl) EM JO srcs ND) XC AC EM JO ND HB Hu E eq_refl) as [G _].
  - left. exists [], (List.concat srcs). split; [reflexivity|]. cbn. eapply titer_new_many; eauto.
  - rewrite Forall_forall in G. exact (G _ Hd).
Qed.

(** After any calls of [next], also such that returned errors: either all was read, or the
    stream refers to strings as in [C65_strings]. *)
Theorem C65_calls {A ET CE W} umax cc (F : Prop) (view : A -> W) (ao : alloc_ops A (tvec posstrish) ET)
    (bnd : bindings A (tvec posstrish) ET charpos CE) strs s a os st' :
  alloc_contract F view ao -> (N_len (List.concat strs) <= umax)%N -> strishiter_new strs = Ok s ->
  keeps_texts (made_of_ranges strs) bnd ->
  nexts umax cc (strishiter_stream (tvec_ops posstrish_ops)) (text_concat_ops (tvec_ops posstrish_ops)) ao bnd
    (parse_iter_new s a) os st' ->
  let s' := ps_strm st' in
  (exists before mid r, strs = before ++ mid ++ si_iter s' /\
    left_in (strishiter_stream (tvec_ops (A:=A) posstrish_ops)) s' r /\
    (r = [] \/
     nonempties (stream_strs (tvec_ops (A:=A) posstrish_ops) s') = nonempties mid /\ length (nonempties mid) <= 2 /\
     length (List.concat (si_iter s')) <= length r <= length (List.concat (mid ++ si_iter s')))) /\
  forall d, In (Some (inl d)) os -> Forall (made_of_ranges strs) (texts_in d).
Proof.
  intros AC Hu Es HB E.
  pose proof (tight_contract (held_by strs)) as KC. pose proof (string_sources_nodup strs) as ND.
  assert (Hok : forall l1 s l2, strs = l1 ++ s :: l2 -> held_by strs s (N_len (List.concat l1))) by (intros l1 s0 l2 Q; exists l1, l2; auto).
  assert (EM : empty_few (tvec_ops (A:=A) posstrish_ops) (tight_rep (held_by strs))) by (exists []; repeat split; auto).
  assert (JO : joins (tvec_ops (A:=A) posstrish_ops) (tight_rep (held_by strs))) by exact (shaped_joins KC (@tvec_shaped _ _ _ _ _)).
  apply (keeps_iff (made_iff (A:=A) strs)) in HB.
  assert (XC := tvec_contract (A:=A) KC F view).
  pose proof (strish_many_contract KC XC Hok (fun c => eq_refl) EM JO ND) as SC0.
  pose proof (held_contract strs SC0) as SC.
  assert (H0 : many_started (fun s r p => strish_many (held_by strs) (tvec_ops (A:=A) posstrish_ops) strs (tight_rep (held_by strs)) s r p /\ held strs s) (parts 0 strs) s).
  { exists [], (List.concat (parts 0 strs)). split; [reflexivity|]. cbn.
    destruct (strish_new_many (held_by strs) (tvec_ops (A:=A) posstrish_ops) (tight_rep (held_by strs)) Hok) as (s2 & Es' & H). rewrite Es in Es'. injection Es' as <-.
    split; [exact H|]. apply new_held. exact Es. }
  assert (Hu' : (N_len (List.concat (parts 0 strs)) <= umax)%N).
  { rewrite concat_parts, <- char_source_eq, char_source_length. exact Hu. }
  destruct (many_calls SC XC AC EM JO ND HB Hu' E eq_refl (or_introl H0)) as (G & _ & [(pre & rest & _ & H1 & H2)|(pend & H1 & H2)]). all: split.
  - destruct (held_end H1 H2) as (before & mid & K1 & K2 & K3 & K4). exists before, mid, rest.
    split; [exact K1|]. split; [eapply contract_left; [exact SC0|exact H1]|]. right. auto.
  - intros d Hd. rewrite Forall_forall in G. specialize (G _ Hd). eapply Forall_impl; [|exact G]. intros t. apply made_iff.
  - destruct H2 as (before & mid & K1 & _). exists before, mid, []. split; [exact K1|]. split; [eapply contract_left; [exact SC0|exact H1]|]. auto.
  - intros d Hd. rewrite Forall_forall in G. specialize (G _ Hd). eapply Forall_impl; [|exact G]. intros t. apply made_iff.
Qed.

Print Assumptions C64_vec.
Print Assumptions C64_list.
Print Assumptions C64_fewest.
Print Assumptions C64_strings.
Print Assumptions C64_parse_stream.
Print Assumptions C65_strings.
Print Assumptions C64_vec_calls.
Print Assumptions C64_list_calls.
Print Assumptions C65_calls.

(** ** Cases *)

(** Combiners that quote, list and remove. *)
Definition mp_key (s : literal) : st_text := tvec_from (posstrish_from (lit s)).
Arguments mp_key _%lit.
Definition mp_map : st_bindings (W:=N) (ET:=N) (CE:=N) := [
  (DText (mp_key "q"), Operative (fun _ t w => (inl (Some (DText t)), w + 1)));
  (DText (mp_key "l"), Applicative (fun _ l w => (inl (Some l), w)));
  (DText (mp_key "rm"), Operative (fun _ _ w => (inl None, w)))]%N.
Example C64_keeps ok : keeps_texts ok (st_lookup num_eq num_hash sum_hasher mp_map).
Proof.
  intros d _. unfold st_lookup, mp_map. cbn [hm_lookup].
  repeat match goal with |- context [if ?b then _ else _] => destruct b end; try exact I; cbn; intros; try discriminate;
    repeat match goal with H : (_, _) = (_, _) |- _ => injection H as <- _ end; cbn; auto.
Qed.

(** Texts cross strings, also empty ones, and are cut by escapes, also at the ends
    of strings. *)
Definition mp_strs : list str := [lit "ab"; []; lit "c\{d\"; lit "}e{q x{"; lit "y"; lit "\\z}w}"; []; lit "{l{r s}}}"; lit "t"].
Definition mp_run := parse_stream_with num_eq num_hash sum_hasher mp_strs mp_map 0%N.
Definition mp_oks {D E} : list (D + E) -> list D := fix go l := match l with inl d :: l' => d :: go l' | _ => [] end.
Definition mp_datums := match fst mp_run with Ok items => mp_oks items | _ => [] end.
Definition mp_ranges : list (list (nat * (nat * nat))) :=
  [[(0, (0, 2)); (2, (0, 1)); (2, (2, 4)); (3, (0, 2))];
   [(3, (5, 7)); (4, (0, 1)); (5, (1, 5))]; [(7, (3, 4))]; [(7, (5, 6))]].
Example C64_case :
  fst mp_run = Ok (map inl mp_datums ++ [inr (@UnbalancedEndChar charpos N 29%N)]) /\ length mp_datums = 3 /\
  map tvec_slice (flat_map (@texts_in _ _) mp_datums) = map (map (range_at mp_strs)) mp_ranges.
Proof. split; [vm_compute; reflexivity|]. split; vm_compute; reflexivity. Qed.

(** So the hypotheses of [C64_parse_stream] are met. *)
Lemma mp_good run : run = parse_stream_with num_eq num_hash sum_hasher mp_strs mp_map 0%N ->
  forall ds more, fst run = Ok (map inl ds ++ more) -> Forall (fun d => Forall (made_of_ranges mp_strs) (texts_in d)) ds.
Proof.
  intros E ds more K. destruct run as [r st]. cbn in K. subst r. symmetry in E. revert E. apply C64_parse_stream; [apply C64_keeps|].
  vm_compute. discriminate.
Qed.
Lemma mp_run_is : mp_run = parse_stream_with num_eq num_hash sum_hasher mp_strs mp_map 0%N.
Proof. reflexivity. Qed.
Example C64_case_good : Forall (fun d => Forall (made_of_ranges mp_strs) (texts_in d)) mp_datums.
Proof. exact (mp_good mp_run mp_run_is mp_datums _ (proj1 C64_case)). Qed.
(** Two ranges that could be one, and an empty one among others, are not allowed. *)
Example C64_not_good : ~ good_ranges mp_strs [(2, (0, 1)); (2, (1, 2))] /\ ~ good_ranges mp_strs [(0, (0, 1)); (0, (2, 2))] /\
  good_ranges mp_strs [(2, (0, 1)); (2, (2, 3)); (3, (0, 1))].
Proof.
  split; [|split].
  - intros [_ H]. apply (H [] _ _ [] eq_refl). split; reflexivity.
  - intros [H _]. inversion H as [|? ? _ K]; inversion K as [|? ? L _]; subst. cbn in L. lia.
  - split; [repeat constructor; cbn; lia|]. intros a r1 r2 b E [K1 K2]. destruct a as [|? [|? [|? [|? a]]]]; cbn in E; try discriminate E; inversion E; subst; cbn in *; lia.
Qed.

(** Texts of several chunks: one string in pieces, one of them empty. *)
Definition mp_src : str := lit "ab\{c{q x\}y}".
Definition mp_cut : list posstr := [slice_at mp_src (0, 1); slice_at mp_src (1, 4); posstr_empty; slice_at mp_src (4, 9); slice_at mp_src (9, 13)].
Definition mp_vec : tvec posstr := Multi mp_cut.
Definition mp_vec_run : list (list (list N)) :=
  match titer_new posstr_ops (im_ops (W:=N)) mp_vec with
  | Ok s => match fst (iter_collect 10 default_classifier (im_stream (W:=N)) (text_concat_ops im_ops) (@box_alloc N im_text N)
       (im_lookup (CE:=N) num_eq num_hash sum_hasher im_map) 20 100 (parse_iter_new s 0%N)) with
     | Ok items => map (fun t => map (@ps_val) (tvec_slice t)) (flat_map (@texts_in _ _) (mp_oks items)) | _ => [] end
  | _ => [] end.
Example C64_vec_case : mp_vec_run = [[lit "a"; lit "b"; lit "{"; lit "c"]; [lit "x"; lit "}y"]].
Proof. vm_compute. reflexivity. Qed.
(** The same as a list, with other combiners: those of [q] keep the text. *)
Definition mp_tdl : tdl posstr N := fold_right (fun c t => TDL c (Some (DText t))) (tdl_from (c_empty posstr_ops)) mp_cut.
Definition mp_tdl_ops := tdl_ops posstr_ops (@box_alloc N (tdl posstr N) N).
Definition mp_tdl_bnd : bindings N (tdl posstr N) N strpos N := fun d =>
  match d with DText (TDL c None) => if text_eqb posstr_ops mp_tdl_ops posstr_size (TDL c None) (tdl_from (posstr_from (lit "q"))) then Some (Operative (fun _ t w => (inl (Some (DText t)), w))) else None | _ => None end.
Definition mp_tdl_run : list (list (list N)) :=
  match titer_new posstr_ops mp_tdl_ops mp_tdl with
  | Ok s => match fst (iter_collect 10 default_classifier (titer_stream posstr_ops mp_tdl_ops) (text_concat_ops mp_tdl_ops) (@box_alloc N (tdl posstr N) N)
       mp_tdl_bnd 20 100 (parse_iter_new s 0%N)) with
     | Ok items => map (fun t => map (@ps_val) (chunk_list (tdl_chunks t))) (flat_map (@texts_in _ _) (mp_oks items)) | _ => [] end
  | _ => [] end.
Example C64_list_case : mp_tdl_run = mp_vec_run.
Proof. vm_compute. reflexivity. Qed.
Example C64_list_keeps ok : keeps_texts ok mp_tdl_bnd.
Proof.
  intros d _. unfold mp_tdl_bnd. destruct d as [[c [?|]]| | | | |]; try exact I.
  destruct (text_eqb _ _ _ _ _); [|exact I]. intros t w o w' Ht [= <- _]. cbn. auto.
Qed.

(** Calls of [next] on a stream of strings: what it returns, the strings referred to
    afterwards, and those not taken yet. *)
Definition mp_next (fuel : nat) (st : pstate (strishiter st_text) N) :=
  iter_next usize_max default_classifier (st_stream (W:=N)) (text_concat_ops st_ops) (@box_alloc N st_text N)
    (st_lookup (CE:=N) num_eq num_hash sum_hasher mp_map) fuel st.
Fixpoint mp_calls (fuel n : nat) (st : pstate (strishiter st_text) N) : list (bool * list str * list str) :=
  match n with
  | 0 => []
  | S n' => match mp_next fuel st with
    | (Ok o, st') => (match o with Some (inr _) => false | _ => true end, stream_strs (st_ops (W:=N)) (ps_strm st'), si_iter (ps_strm st')) :: mp_calls fuel n' st'
    | _ => []
    end
  end.
Definition mp_steps (n : nat) (strs : list str) :=
  match strishiter_new strs with Ok s => mp_calls 100 n (parse_iter_new s 0%N) | _ => [] end.
Example C65_case : mp_steps 5 [lit "ab"; lit "c{q x"; lit "y"; lit "z}{"; []; lit "l u"; lit "v}"; lit "{}"] =
  [(true, [lit "c{q x"], [lit "y"; lit "z}{"; []; lit "l u"; lit "v}"; lit "{}"]);
   (true, [lit "z}{"], [[]; lit "l u"; lit "v}"; lit "{}"]);
   (true, [lit "v}"], [lit "{}"]); (true, [lit "{}"], []); (true, [lit "{}"], [])].
Proof. vm_compute. reflexivity. Qed.
(** Two: that of the last character read, and the one looked ahead at. *)
Example C65_two : mp_steps 2 [lit "ab"; lit "c"; lit "{}"; lit "d"] =
  [(true, [lit "c"; lit "{}"], [lit "d"]); (true, [lit "{}"], [lit "d"])].
Proof. vm_compute. reflexivity. Qed.
(** After an error inside of a text there may be more: those of the unfinished text, also
    after calls that return [None]. *)
Example C65_after_error : mp_steps 2 [lit "{q {a"; lit "b"; lit "c"; lit "d"] =
  [(false, [lit "d"; lit "{q {a"; lit "b"; lit "c"], []); (true, [lit "d"; lit "{q {a"; lit "b"; lit "c"], [])].
Proof. vm_compute. reflexivity. Qed.
(** The hypotheses of [C65_strings] are met by [n] calls that return no errors. *)
Lemma mp_nexts fuel : forall n st, (forall x, In x (mp_calls fuel n st) -> fst (fst x) = true) -> length (mp_calls fuel n st) = n ->
  exists ods st', nexts usize_max default_classifier (st_stream (W:=N)) (text_concat_ops st_ops) (@box_alloc N st_text N)
      (st_lookup (CE:=N) num_eq num_hash sum_hasher mp_map) st (map (option_map inl) ods) st' /\ length ods = n.
Proof.
  induction n as [|n IH]; intros st H L; [exists [], st; split; [constructor|reflexivity]|]. cbn [mp_calls] in H, L.
  destruct (mp_next fuel st) as [[o| | |] st1] eqn:E; try discriminate L.
  injection L as L. destruct (IH st1) as (ods & st' & K & Kl); [intros x Hx; apply H; right; exact Hx|exact L|].
  assert (Ho : exists od, o = option_map inl od).
  { specialize (H _ (or_introl eq_refl)). destruct o as [[d|e]|]; [exists (Some d)|discriminate H|exists None]; reflexivity. }
  destruct Ho as [od ->]. exists (od :: ods), st'. split; [econstructor; [exact E|exact K]|cbn; congruence].
Qed.
Example C65_case_met strs s : strs = [lit "ab"; lit "c{q x"; lit "y"; lit "z}{"; []; lit "l u"; lit "v}"; lit "{}"] -> strishiter_new strs = Ok s ->
  exists ods st', nexts usize_max default_classifier (st_stream (W:=N)) (text_concat_ops st_ops) (@box_alloc N st_text N)
      (st_lookup (CE:=N) num_eq num_hash sum_hasher mp_map) (parse_iter_new s 0%N) (map (option_map inl) ods) st' /\ length ods = 5.
Proof.
  intros Es E. assert (K := C65_case). rewrite <- Es in K. unfold mp_steps in K. rewrite E in K. apply (mp_nexts 100); rewrite K; [|reflexivity].
  clear. cbn. intros x H. repeat destruct H as [<-|H]; try reflexivity. destruct H.
Qed.
(** Errors in between: an unmatched end delimiter inside of a text. *)
Example C65_resumed : mp_steps 4 [lit "ab"; lit "c}"; lit "d"; lit "e{q x"; lit "y}"] =
  [(false, [lit "c}"], [lit "d"; lit "e{q x"; lit "y}"]); (true, [lit "e{q x"], [lit "y}"]); (true, [lit "y}"], []); (true, [lit "y}"], [])].
Proof. vm_compute. reflexivity. Qed.
Lemma mp_nexts_any fuel : forall n st, length (mp_calls fuel n st) = n ->
  exists os st', nexts usize_max default_classifier (st_stream (W:=N)) (text_concat_ops st_ops) (@box_alloc N st_text N)
      (st_lookup (CE:=N) num_eq num_hash sum_hasher mp_map) st os st' /\ length os = n.
Proof.
  induction n as [|n IH]; intros st L; [exists [], st; split; [constructor|reflexivity]|]. cbn [mp_calls] in L.
  destruct (mp_next fuel st) as [[o| | |] st1] eqn:E; try discriminate L.
  injection L as L. destruct (IH st1 L) as (os & st' & K & Kl). exists (o :: os), st'. split; [econstructor; [exact E|exact K]|cbn; congruence].
Qed.
Example C65_resumed_met strs s : strs = [lit "ab"; lit "c}"; lit "d"; lit "e{q x"; lit "y}"] -> strishiter_new strs = Ok s ->
  exists os st', nexts usize_max default_classifier (st_stream (W:=N)) (text_concat_ops st_ops) (@box_alloc N st_text N)
      (st_lookup (CE:=N) num_eq num_hash sum_hasher mp_map) (parse_iter_new s 0%N) os st' /\ length os = 4.
Proof.
  intros Es E. assert (K := C65_resumed). rewrite <- Es in K. unfold mp_steps in K. rewrite E in K. apply (mp_nexts_any 100). rewrite K. reflexivity.
Qed.
