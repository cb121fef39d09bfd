(** C38: whitespace around operators, and all other whitespace. *)
From Coq Require Import List NArith Arith.
From Verif.Model Require Import Prelude Parser Iter Utf8 Chunk TextIter PosStr PosStrish
  TextVec TextDatumList CharIter StrishIter Alloc DefaultClassifier TextMethods DatumMethods Bindings Premade.
From Verif.Spec Require Import Contract ChunkContract AbsStream Grammar Balance Lawful Run Kept Spacing.
From Verif.Proofs Require Import Sim Refine ChunkFacts TextFacts Instances RunFacts GrammarRuns ClassifierFacts TwoRuns White Transfer PremadeFacts.
From Verif.Tests Require Import AbsCases.
Import ListNotations.
Local Notation N_len r := (N.of_nat (length r)).

(** Two lawful parsers, on sources that differ only in the whitespace directly
    after nest starts ([respaced]), with bindings that treat texts with the same
    characters at related positions alike, and no operatives, give the same
    items: datums, errors and their order.  [Rp] relates positions (with [fun _ _
    => True] positions are not compared). *)
Section TwoSpacings.
Context {S1 A1 T1 E1 P1 C1 AE1 AC1 S2 A2 T2 E2 P2 C2 AE2 AC2 W : Type}.
Local Notation text1 := (list (item P1)).
Local Notation text2 := (list (item P2)).
Context (umax : N) (cc : classifier) (DC : disjoint_classes cc).
Context (so1 : stream_ops S1 A1 T1 P1) (co1 : concat_ops A1 T1) (ao1 : alloc_ops A1 T1 E1) (bnd1 : bindings A1 T1 E1 P1 C1)
        (view1 : A1 -> W) (abnd1 : bindings W text1 AE1 P1 AC1)
        (Rs1 : S1 -> text1 -> text1 -> Prop) (Rt1 : T1 -> text1 -> Prop) (Rx1 : E1 -> AE1 -> Prop) (Rc1 : C1 -> AC1 -> Prop)
        (LW1 : lawful False view1 so1 co1 ao1 bnd1 abnd1 Rs1 Rt1 Rx1 Rc1).
Context (so2 : stream_ops S2 A2 T2 P2) (co2 : concat_ops A2 T2) (ao2 : alloc_ops A2 T2 E2) (bnd2 : bindings A2 T2 E2 P2 C2)
        (view2 : A2 -> W) (abnd2 : bindings W text2 AE2 P2 AC2)
        (Rs2 : S2 -> text2 -> text2 -> Prop) (Rt2 : T2 -> text2 -> Prop) (Rx2 : E2 -> AE2 -> Prop) (Rc2 : C2 -> AC2 -> Prop)
        (LW2 : lawful False view2 so2 co2 ao2 bnd2 abnd2 Rs2 Rt2 Rx2 Rc2).
Context (Rp : P1 -> P2 -> Prop) (Rx : AE1 -> AE2 -> Prop) (Rc : AC1 -> AC2 -> Prop)
        (BS : bindings_sim abnd1 abnd2 False eq (Forall2 (item_rel Rp)) Rx Rp Rc) (NO : no_operatives abnd1).

Theorem C38_after_start st1 s1 st2 s2 w items1 st1' : starts_on Rs1 view1 st1 s1 w -> starts_on Rs2 view2 st2 s2 w ->
  (N_len s1 <= umax)%N -> (N_len s2 <= umax)%N -> respaced cc Rp s1 s2 ->
  iterates umax cc so1 co1 ao1 bnd1 st1 items1 st1' ->
  exists items2 st2' aitems1 aitems2, iterates umax cc so2 co2 ao2 bnd2 st2 items2 st2' /\
    Forall2 (pitem_rel Rt1 Rx1 eq Rc1) items1 aitems1 /\ Forall2 (pitem_rel Rt2 Rx2 eq Rc2) items2 aitems2 /\
    Forall2 (pitem_rel (Forall2 (item_rel Rp)) Rx Rp Rc) aitems1 aitems2 /\
    view1 (ps_alloc st1') = view2 (ps_alloc st2').
Proof. exact (respaced_iterates DC LW1 LW2 BS NO (st1:=st1) (s1:=s1) (st2:=st2) (s2:=s2) (w:=w) (items1:=items1) (st1':=st1')). Qed.
End TwoSpacings.
Print Assumptions C38_after_start.

(** Exactly one whitespace character [sp] after the operator [h] is dropped: the
    operands are what parsing the [body] after it by itself gives, also if
    the body begins with whitespace. *)
Section OneSpace.
Context {S A TT ET Pos CE W AE AC : Type}.
Context (umax : N) (cc : classifier) (so : stream_ops S A TT Pos) (co : concat_ops A TT)
        (ao : alloc_ops A TT ET) (bnd : bindings A TT ET Pos CE).
Local Notation text := (list (item Pos)).
Context (view : A -> W) (abnd : bindings W text AE Pos AC).
Context (Rs : S -> text -> text -> Prop) (Rt : TT -> text -> Prop)
        (Rx : ET -> AE -> Prop) (Rc : CE -> AC -> Prop).
Local Notation iterates := (iterates umax cc so co ao bnd).
Context (LW : lawful False view so co ao bnd abnd Rs Rt Rx Rc) (DC : disjoint_classes cc).

Theorem C38_one_space st st0 st0' w w1 o ws h d tx sp body e ds :
  starts_on Rs view st (o :: ws ++ h ++ sp :: body ++ [e]) w -> (N_len (o :: ws ++ h ++ sp :: body ++ [e]) <= umax)%N ->
  starts cc o -> Forall (white cc) ws -> head cc abnd w h d tx w1 -> abnd d = None -> white cc sp -> ends cc e ->
  esc_after cc false body = false ->
  starts_on Rs view st0 body w1 -> iterates st0 (map inl ds) st0' ->
  exists r st' ads, iterates st [inl r] st' /\ Forall2 (datum_rel Rt Rx) ds ads /\
    datum_rel Rt Rx r (DComb d (dlist ads)) /\ view (ps_alloc st') = view (ps_alloc st0').
Proof. intros. eapply (one_space LW DC); eauto. Qed.

(** All other whitespace is in the texts of the result: without bindings the
    characters in the texts are [kept cc s] (C39), which drops whitespace only
    directly after a nest start, or directly after an operator (one
    character). *)
Theorem C38_others_kept st s w ds st' (NB : forall d, abnd d = None) : starts_on Rs view st s w -> iterates st (map inl ds) st' ->
  exists ads, Forall2 (datum_rel Rt Rx) ds ads /\ flat_map (@texts_of _ _) ads = kept cc s.
Proof. intros H E; exact (iterates_kept LW DC NB _ H E). Qed.
End OneSpace.
Print Assumptions C38_one_space.
Print Assumptions C38_others_kept.

(** [parse_str]: changing the whitespace after one unescaped nest start, anywhere in
    the input. *)
Section ParseStr.
Context {W ET CE : Type} (ET_eq : ET -> ET -> bool) (ET_hash : ET -> list hash_word)
        (hasher : list hash_word -> N) (XH : forall a b, ET_eq a b = true -> ET_hash a = ET_hash b).
Local Notation im_ops := (im_ops (W:=W)).
Local Notation run_with := (parse_str_with (CE:=CE) ET_eq ET_hash hasher).
Local Notation any := (fun _ _ : strpos => True).
Local Notation is_white c := (is_whitespace default_classifier c = true).

Theorem C38_parse_str m am u o ws1 ws2 v (w : W) : str_bindings m am ->
  bindings_sim (abs_lookup ET_eq am) (abs_lookup ET_eq am) False eq (Forall2 (item_rel any)) eq any eq ->
  no_operatives (abs_lookup ET_eq am) ->
  is_nest_start default_classifier o = true -> esc_chars default_classifier false u = false ->
  Forall (fun c => is_white c) ws1 -> Forall (fun c => is_white c) ws2 ->
  (N_len (u ++ o :: ws1 ++ v) <= usize_max)%N -> (N_len (u ++ o :: ws2 ++ v) <= usize_max)%N ->
  exists items1 st1 items2 st2,
    run_with (u ++ o :: ws1 ++ v) m w = (Ok items1, Some st1) /\
    run_with (u ++ o :: ws2 ++ v) m w = (Ok items2, Some st2) /\
    Forall2 (pitem_rel (same_text posstr_ops im_ops posstr_ops im_ops any) eq any eq) items1 items2.
Proof.
  intros HB BS NO Ho Hu H1 H2 L1 L2.
  destruct (str_starts (u ++ o :: ws1 ++ v) w) as (s1 & Es1 & Hs1). destruct (str_starts (u ++ o :: ws2 ++ v) w) as (s2 & Es2 & Hs2).
  destruct (parse_str_iterates ET_eq ET_hash hasher m w L1 Es1) as ((all1 & st1' & E1 & st1 & Ep1) & _).
  destruct (parse_str_iterates ET_eq ET_hash hasher m w L2 Es2) as ((all2 & st2' & E2 & st2 & Ep2) & _).
  pose proof (str_lawful ET_eq ET_hash hasher XH HB) as LW.
  assert (R : respaced default_classifier any (str_source (u ++ o :: ws1 ++ v)) (str_source (u ++ o :: ws2 ++ v))).
  { eapply spaced_insert with (u := u) (v := v) (ws1 := ws1) (ws2 := ws2) (c := o); eauto using str_source_ch. intros. eapply spaced_same; eauto. }
  rewrite <- (str_source_length (u ++ o :: ws1 ++ v)) in L1. rewrite <- (str_source_length (u ++ o :: ws2 ++ v)) in L2.
  destruct (respaced_iterates default_disjoint LW LW BS NO Hs1 Hs2 L1 L2 R E1)
    as (i2 & t2 & a1 & a2 & E2' & F1 & F2 & F12 & _).
  destruct (iterates_det E2 E2') as (-> & _).
  exists (upto_err all1), st1, (upto_err i2), st2. split; [exact Ep1|]. split; [exact Ep2|].
  apply Transfer.upto_err_rel; [intros ? ? []|intros ? ? []|].
  eapply Forall2_mono; [|exact (across_items F1 F2 F12)].
  intros [d1|e1] [d2|e2]; cbn; auto.
  - apply datum_rel_mono.
    + intros x y (l1 & l2 & K1 & K2 & K). exists l1, l2. split; [|split; [|exact K]]; eapply im_text_reads; eauto using posstr_any_contract.
    + intros x y (x' & y' & -> & -> & ->). reflexivity.
  - destruct e1, e2; cbn; auto. intros (x' & y' & -> & -> & ->). reflexivity.
Qed.
End ParseStr.
Print Assumptions C38_parse_str.

(** Cases. *)
Definition im_app := firstn 1 (skipn 1 im_map) ++ skipn 3 im_map.
Definition abs_app := firstn 1 (skipn 1 abs_map) ++ skipn 3 abs_map.
Lemma abs_app_related : str_bindings im_app abs_app.
Proof.
  unfold str_bindings, im_related, im_app, abs_app, im_map, abs_map. cbn [firstn skipn app].
  repeat constructor; cbn [fst snd datum_rel];
    try apply im_from_items; unfold combiner_rel; intros; unfold Ra_view in *; subst; cbn; auto.
Qed.
Lemma abs_app_no_operatives : no_operatives (abs_lookup num_eq abs_app).
Proof.
  intros d f. unfold abs_lookup, abs_app, abs_map. cbn [firstn skipn app].
  repeat (cbn [pair_lookup]; match goal with |- context [if ?b then _ else _] => destruct b end; [cbn; congruence|]).
  cbn. discriminate.
Qed.
Lemma abs_app_positions : bindings_sim (abs_lookup num_eq abs_app) (abs_lookup num_eq abs_app) False eq
  (Forall2 (item_rel (fun _ _ : strpos => True))) eq (fun _ _ => True) eq.
Proof.
  intros d1 d2 H. destruct d1, d2; cbn in H; try contradiction; try exact I.
  assert (E : map it_ch t = map it_ch t0) by (induction H as [|x y l l' [K _] _ IH]; cbn; congruence).
  unfold abs_lookup, abs_app, abs_map. cbn [firstn skipn app]. unfold datum_eq. cbn [pair_lookup datum_eq_run fst]. unfold chars_eqb. rewrite E.
  repeat match goal with |- context [list_eq_dec N.eq_dec (map it_ch t0) ?k] => destruct (list_eq_dec N.eq_dec (map it_ch t0) k);
    [cbn; intros; subst; unfold cres_rel; cbn; auto|] end.
  exact I.
Qed.
(** Spaces after three nest starts (one after an escaped backslash), an error of a
    combiner and an unbalanced end; spaces elsewhere are significant. *)
Example C38_case_parse_str :
  str_bindings im_app abs_app /\ no_operatives (abs_lookup num_eq abs_app) /\
  esc_chars default_classifier false (lit "x \\") = false /\
  let show s := im_items_show (fst (parse_str_with num_eq num_hash sum_hasher (lit s) im_app 0%N)) in
  show " x \\{l{  {n }  b} c\{}"%lit = show " x \\{   l{  {n }  b} c\{}"%lit /\
  show " x \\{   l{  {n }  b} c\{}"%lit =
    Ok [inl (DText (lit " x \")); inl (DList (DComb (DExtra 0%N) (DList (DText (lit " b")) DEmptyList)) (DList (DText (lit " c{")) DEmptyList))] /\
  show "{ err x}"%lit = Ok [inr (FailedCombiner 7%N)] /\ show "{ {}  x}"%lit <> show "{{} x}"%lit.
Proof.
  split; [exact abs_app_related|]. split; [exact abs_app_no_operatives|]. split; [reflexivity|].
  repeat split; vm_compute; try reflexivity. discriminate.
Qed.

(** Two lawful parsers on respaced sources. *)
Example C38_case_after_start :
  starts_on (titer_rep posstr_any posstr_any_state (im_ops (W:=N))) (fun w : N => w) (im_start "\{{l {}}}" 0%N) (str_source (lit "\{{l {}}}")) 0%N /\
  starts_on (titer_rep posstr_any posstr_any_state (im_ops (W:=N))) (fun w : N => w) (im_start "\{{  l { }}}" 0%N) (str_source (lit "\{{  l { }}}")) 0%N /\
  respaced default_classifier (fun _ _ => True) (str_source (lit "\{{l {}}}")) (str_source (lit "\{{  l { }}}")) /\
  bindings_sim (abs_lookup num_eq abs_app) (abs_lookup num_eq abs_app) False eq
    (Forall2 (item_rel (fun _ _ : strpos => True))) eq (fun _ _ => True) eq /\
  exists l st', im_iterates im_app (im_start "\{{l {}}}" 0%N) l st' /\ length l = 3.
Proof.
  split; [apply im_start_on|]. split; [apply im_start_on|]. split; [|split; [exact abs_app_positions|]].
  - assert (T : forall a b : strpos, True) by auto.
    unfold str_source, lit. cbn [length seq map lit of_literal Strings.Byte.to_N].
    apply sp_escaped; [reflexivity|split; auto|split; auto|].
    apply (@sp_start _ _ default_classifier _ _ _ [] [_; _]); [reflexivity|split; auto|constructor|repeat constructor|].
    apply sp_char; [discriminate|discriminate|split; auto|]. apply sp_char; [discriminate|discriminate|split; auto|].
    apply (@sp_start _ _ default_classifier _ _ _ [] [_]); [reflexivity|split; auto|constructor|repeat constructor|].
    repeat (apply sp_char; [discriminate|discriminate|split; auto|]). constructor.
  - do 2 eexists. split; [exists 20, 100; vm_compute; reflexivity|reflexivity].
Qed.

(** The operator [op], then one dropped space, then the body [ x{y}]. *)
Example C38_case_one_space : let s := char_source (lit "{ op  x{y}}") in
  let body := firstn 5 (skipn 5 s) in
  s = nth 0 s (Item 0%N 0%N) :: firstn 1 (skipn 1 s) ++ firstn 2 (skipn 2 s) ++ nth 4 s (Item 0%N 0%N) :: body ++ [nth 10 s (Item 0%N 0%N)] /\
  head (W:=N) (ET:=N) (CE:=N) default_classifier (fun _ => None) 0%N (firstn 2 (skipn 2 s)) (DText (firstn 2 (skipn 2 s))) true 0%N /\
  esc_after default_classifier false body = false /\
  exists ds st', iterates (ET:=N) (CE:=N) usize_max default_classifier abs_stream abs_concat abs_alloc (fun _ => None) (abs_start body 0%N) (map inl ds) st' /\
    map (@texts_of _ _) ds = [firstn 2 body; firstn 1 (skipn 3 body)].
Proof.
  cbv zeta. split; [reflexivity|]. split; [|split; [reflexivity|]].
  - apply h_text; [discriminate|]. cbn. repeat constructor; cbn; discriminate.
  - eexists [_; _], _. split; [exists 20, 100; vm_compute; reflexivity|reflexivity].
Qed.

Example C38_case_others_kept :
  map it_ch (kept default_classifier (str_source (lit "  { op   x { y } } "))) = lit "  op  x y  " /\
  exists ds st', im_iterates [] (im_start "  { op   x { y } } " 0%N) (map inl ds) st'.
Proof. split; [reflexivity|]. eexists [_; _; _], _. exists 20, 100. vm_compute. reflexivity. Qed.
