(** C57: the chunks of texts are slices of the source, as long as possible. *)
From Coq Require Import List NArith Arith Bool Lia.
From Verif.Model Require Import Prelude Parser Iter Utf8 Chunk TextIter PosStr PosStrish TextVec TextDatumList CharIter Alloc
  DefaultClassifier TextMethods DatumMethods Bindings Premade.
From Verif.Spec Require Import Contract ChunkContract Run Memory TextWork Pieces.
From Verif.Proofs Require Import ChunkFacts TextFacts AllocFacts Instances Transfer RunFacts Amortize PiecesFacts TextWorkFacts PiecesRuns.
From Verif.Tests Require Import Str Cases AbsCases.
Import ListNotations.
Local Notation N_len r := (N.of_nat (length r)).

(** A parser over the text [c.into()], one chunk of any kind that obeys the
    contract and consists of different items, with [TextVec] texts and any
    combiners that keep to texts made of pieces of the source.  [ds]: what is
    returned before the first error. *)
Theorem C57_vec {C CS Pos A ET CE} umax cc (k : chunk_ops C CS Pos) Rc Rcs (ao : alloc_ops A (tvec C) ET)
    (bnd : bindings A (tvec C) ET Pos CE) c src s a ds more st' :
  chunk_contract k Rc Rcs -> (forall d a d' a', a_new_datum ao d a = (Ok d', a') -> d' = d) ->
  Rc c src -> NoDup src -> titer_new k (tvec_ops (A:=A) k) (tvec_from c) = Ok s ->
  keeps_texts (fun t => exists ls, chunks_are_pieces (tvec_ops (A:=A) k) Rc src t ls) bnd ->
  iterates umax cc (titer_stream k (tvec_ops k)) (text_concat_ops (tvec_ops k)) ao bnd (parse_iter_new s a)
    (map inl ds ++ more) st' ->
  Forall (fun d => Forall (fun t => exists ls, chunks_are_pieces (tvec_ops (A:=A) k) Rc src t ls) (texts_in d)) ds.
Proof.
  intros KC HN Hc ND Es HB (n & fuel & E).
  eapply (titer_pieces KC (tvec_contract KC False (fun a : A => a))); eauto.
  - apply tvec_shaped.
  - exists []. repeat split; auto.
Qed.

(** With [TextDatumList] texts. *)
Theorem C57_list {C CS Pos A W ET CE} umax cc (k : chunk_ops C CS Pos) Rc Rcs (F : Prop) (view : A -> W)
    (ao : alloc_ops A (tdl C ET) ET) (bnd : bindings A (tdl C ET) ET Pos CE) c src s a ds more st' :
  chunk_contract k Rc Rcs -> alloc_contract F view ao ->
  Rc c src -> NoDup src -> titer_new k (tdl_ops k ao) (tdl_from c) = Ok s ->
  keeps_texts (fun t => exists ls, chunks_are_pieces (tdl_ops k ao) Rc src t ls) bnd ->
  iterates umax cc (titer_stream k (tdl_ops k ao)) (text_concat_ops (tdl_ops k ao)) ao bnd (parse_iter_new s a)
    (map inl ds ++ more) st' ->
  Forall (fun d => Forall (fun t => exists ls, chunks_are_pieces (tdl_ops k ao) Rc src t ls) (texts_in d)) ds.
Proof.
  intros KC AC Hc ND Es HB (n & fuel & E).
  assert (HN : forall d a d' a', a_new_datum ao d a = (Ok d', a') -> d' = d).
  { intros d b d' b' K. destruct (AC d b) as [(b2 & K2 & _)|(_ & b2 & K2 & _)]; rewrite K in K2; [injection K2 as -> _; reflexivity|discriminate]. }
  eapply (titer_pieces KC (tdl_contract KC AC)); eauto.
  - apply tdl_shaped. exact HN.
  - exists [c_empty k]. repeat split; auto. constructor; [apply (kc_empty KC)|constructor].
Qed.

(** Over an iterator of characters ([CharIterSourceStream]), whose strings are
    made anew. *)
Theorem C57_chars {A ET CE} umax cc (ao : alloc_ops A (tvec posstrish) ET)
    (bnd : bindings A (tvec posstrish) ET charpos CE) input a ds more st' :
  (forall d a d' a', a_new_datum ao d a = (Ok d', a') -> d' = d) ->
  keeps_texts (fun t => exists ls, chunks_are_pieces (tvec_ops (A:=A) posstrish_ops) posstrish_any (char_source input) t ls) bnd ->
  iterates umax cc (chariter_stream (tvec_ops posstrish_ops)) (text_concat_ops (tvec_ops posstrish_ops)) ao bnd
    (parse_iter_new (chariter_new input) a) (map inl ds ++ more) st' ->
  Forall (fun d => Forall (fun t => exists ls,
    chunks_are_pieces (tvec_ops (A:=A) posstrish_ops) posstrish_any (char_source input) t ls) (texts_in d)) ds.
Proof.
  intros HN HB (n & fuel & E). pose proof (char_source_nodup input) as ND. rewrite char_source_eq in *.
  eapply (chariter_pieces (tvec_contract posstrish_any_contract False (fun a : A => a))); eauto.
  - apply tvec_shaped.
  - exists []. repeat split; auto.
Qed.

(** Such chunks are determined by the items of the text, and no other way of
    putting it together from parts of the source has fewer parts. *)
Theorem C57_fewest {TT C CS A Pos W} (k : chunk_ops C CS Pos) Rc Rcs (F : Prop) (view : A -> W) (x : text_ops TT C A) src t ls l :
  chunk_contract k Rc Rcs -> text_contract F view x Rc -> NoDup src ->
  chunks_are_pieces x Rc src t ls -> reads k x t l -> l <> [] ->
  chunk_count (tx_chunks x t) = length ls /\ Forall (fun p => p <> []) ls /\
  (forall ls', Forall (part_of src) ls' -> List.concat ls' = l -> length ls <= length ls') /\
  (forall ls', Forall (fun p => p <> []) ls' -> pieces src ls' -> List.concat ls' = l -> ls' = ls).
Proof.
  intros KC XC ND (cs & H1 & H2 & H3) HR Hl.
  assert (E : List.concat ls = l).
  { eapply reads_det; [|exact HR]. eapply text_reads; eauto. exists cs, ls. auto. }
  subst l. pose proof (pieces_nonempty H3 Hl) as Ne. repeat split.
  - rewrite H1, count_seq. clear -H2. induction H2; cbn; congruence.
  - exact Ne.
  - intros ls' Q Ec. apply pieces_fewest with (src:=src); auto.
  - intros ls' N' P' Ec. apply pieces_unique with (src:=src); auto.
Qed.

(** In memory: every text returned by [parse_str_with] before the first error is
    empty, or consists of slices of the input with their positions, not empty and
    none adjacent to the next. *)
Theorem C57_parse_str {W ET CE} ET_eq ET_hash hasher input (m : im_bindings (W:=W) (ET:=ET) (CE:=CE)) w ds more st :
  keeps_texts (fun t => exists ls, chunks_are_pieces (im_ops (W:=W)) (posstr_rep input) (str_source input) t ls)
    (im_lookup ET_eq ET_hash hasher m) ->
  (N_len input <= usize_max)%N ->
  parse_str_with ET_eq ET_hash hasher input m w = (Ok (map inl ds ++ more), st) ->
  Forall (fun d => Forall (fun t => Forall (fun c => ps_val c = []) (tvec_slice t) \/
    exists rs, tvec_slice t = map (slice_at input) rs /\ good_slices input rs) (texts_in d)) ds.
Proof.
  intros HB Hu E. destruct (str_starts input w) as (s & Es & _).
  destruct (parse_str_iterates ET_eq ET_hash hasher (input:=input) m w (s:=s) Hu Es) as ((all & st' & I & st1 & E1) & _).
  rewrite E1 in E. injection E as E _. destruct (upto_err_prefix _ _ _ E) as [rest ->].
  assert (G := C57_vec usize_max default_classifier posstr_ops (posstr_rep input) (posstr_state input) (@box_alloc W im_text ET)
    (im_lookup ET_eq ET_hash hasher m) (posstr_from input) (str_source input) s w ds rest st' (posstr_contract input)).
  assert (K : Forall (fun d => Forall (fun t => exists ls, chunks_are_pieces (im_ops (W:=W)) (posstr_rep input) (str_source input) t ls) (texts_in d)) ds).
  { apply G; auto.
    - cbn. intros d a d' a' [= -> _]. reflexivity.
    - rewrite str_source_eq. apply posstr_from_rep.
    - apply str_source_nodup. }
  clear -K. eapply Forall_impl; [|exact K]. intros d. apply Forall_impl. intros t (ls & cs & H1 & H2 & H3).
  cbn in H1. apply seq_of_inj in H1. rewrite H1. destruct (List.concat ls) eqn:Ec.
  - left. clear - H2 Ec. induction H2 as [|c l cs ls Hc _ IH]; constructor; cbn in Ec; apply app_eq_nil in Ec; destruct Ec as [-> Ec]; auto.
    destruct Hc as [[H _]|(pre & v & post & _ & -> & H)]; [exact H|]. destruct v; [reflexivity|discriminate].
  - right. apply good_slices_of with (ls:=ls); auto. apply (pieces_nonempty H3). rewrite Ec. discriminate.
Qed.

Print Assumptions C57_vec.
Print Assumptions C57_list.
Print Assumptions C57_chars.
Print Assumptions C57_fewest.
Print Assumptions C57_parse_str.

(** ** Cases *)

(** The combiners of [im_map] (quoting, listing, removing, failing, counting)
    return only texts they are given. *)
Example C57_keeps ok : keeps_texts ok (im_lookup num_eq num_hash sum_hasher im_map).
Proof.
  intros d _. unfold im_lookup, im_map. cbn [hm_lookup].
  repeat match goal with |- context [if ?b then _ else _] => destruct b end; try exact I; cbn; intros; try discriminate;
    repeat match goal with H : (_, _) = (_, _) |- _ => injection H as <- _ end; cbn; auto.
Qed.

(** Escapes cut texts, also those given to combiners; nests inside operands texts
    do not; an error ends the list. *)
Definition pc_input : str := lit "a\{b\}{q x{y \\z}w}{\\}{l{r s}}}t".
Definition pc_ranges : list (list (nat * nat)) :=
  [[(0, 1); (2, 4); (5, 6)]; [(9, 13); (14, 18)]; [(21, 22)]; [(26, 27)]; [(28, 29)]].
Definition oks {D E} : list (D + E) -> list D := fix go l := match l with inl d :: l' => d :: go l' | _ => [] end.
Definition pc_run := parse_str_with num_eq num_hash sum_hasher pc_input im_map 0%N.
Definition pc_datums := match fst pc_run with Ok items => oks items | _ => [] end.
Example C57_case :
  fst pc_run = Ok (map inl pc_datums ++ [inr (UnbalancedEndChar (StrPos pc_input 31 31))]) /\ length pc_datums = 4 /\
  map tvec_slice (flat_map (@texts_in _ _) pc_datums) = map (map (slice_at pc_input)) pc_ranges.
Proof. split; [vm_compute; reflexivity|]. split; vm_compute; reflexivity. Qed.

(** So the hypotheses of [C57_parse_str] are met. *)
Example C57_case_good : Forall (fun d => Forall (fun t => Forall (fun c => ps_val c = []) (tvec_slice t) \/
    exists rs, tvec_slice t = map (slice_at pc_input) rs /\ good_slices pc_input rs) (texts_in d)) pc_datums.
Proof.
  apply (C57_parse_str num_eq num_hash sum_hasher pc_input im_map 0%N pc_datums [inr (UnbalancedEndChar (StrPos pc_input 31 31))] (snd pc_run)).
  - apply C57_keeps.
  - vm_compute. discriminate.
  - destruct C57_case as [E _]. fold pc_run. rewrite <- E. destruct pc_run. reflexivity.
Qed.

(** The same without a heap, over a text of one chunk, and over an iterator. *)
Definition pc_slots : list (nh_datum (ET:=N)) := repeat DEmptyList 30.
Definition pc_nh := parse_text_with (W:=N) (CE:=N) num_eq (tdl_from (posstr_from pc_input)) [] (nh_parser pc_slots 0%N).
Definition pc_nh_counts := match fst pc_nh with Ok items => chunk_counts (nh_ops (W:=N) (ET:=N)) (oks items) | _ => [] end.
Definition pc_chars := parse_chars_with (W:=N) (ET:=N) (CE:=N) num_eq num_hash sum_hasher pc_input [] 0%N.
Definition pc_chars_counts := match fst pc_chars with Ok items => chunk_counts (st_ops (W:=N)) (oks items) | _ => [] end.
Example C57_others : pc_nh_counts = [3; 1; 1; 1; 1; 1; 1; 1; 1; 1] /\ pc_chars_counts = pc_nh_counts.
Proof. split; vm_compute; reflexivity. Qed.
