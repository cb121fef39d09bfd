(** Parsing two sources one after the other. *)
From Coq Require Import List NArith Arith Bool Lia.
From Verif.Model Require Import Prelude Parser Iter Utf8 Chunk TextIter PosStr TextVec Alloc DefaultClassifier TextMethods DatumMethods Bindings Premade.
From Verif.Spec Require Import Contract ChunkContract Grammar Balance AbsStream Run Lawful Outcome Append.
From Verif.Proofs Require Import Wp Sim Refine Compose GrammarFacts AbsParse AbsIter Complete Transfer RunFacts NextFacts
  FormFacts PrefixFacts FormRuns ClassifierFacts Instances PremadeFacts TwoRuns TextFacts ChunkFacts GrammarRuns.
Import ListNotations.
Set Implicit Arguments.
Local Notation N_len r := (N.of_nat (length r)).

Lemma Forall2_length_eq {X Y} (R : X -> Y -> Prop) l1 l2 : Forall2 R l1 l2 -> length l1 = length l2.
Proof. induction 1; cbn; congruence. Qed.

(** [collect_up_to_first_err] makes one call of [next] more than it returns items. *)
Section TakeWhile.
Context {S A TT ET Pos CE : Type}.
Context (umax : N) (cc : classifier) (so : stream_ops S A TT Pos) (co : concat_ops A TT)
        (ao : alloc_ops A TT ET) (bnd : bindings A TT ET Pos CE).

Lemma take_while_nexts_err n fuel st items st' : take_while_collect umax cc so co ao bnd n fuel true st = (Ok items, st') ->
  items = [] /\ exists o, nexts umax cc so co ao bnd st [o] st'.
Proof.
  destruct n as [|n]; cbn [take_while_collect]; [discriminate|].
  destruct (iter_next umax cc so co ao bnd fuel st) as [[[x|]|[]| |] s1] eqn:E; try discriminate; cbn; intros H; injection H as <- <-.
  - split; [reflexivity|]. exists (Some x). econstructor; [exact E|constructor].
  - split; [reflexivity|]. exists None. econstructor; [exact E|constructor].
Qed.
Lemma take_while_nexts : forall n fuel st items st', take_while_collect umax cc so co ao bnd n fuel false st = (Ok items, st') ->
  exists o, nexts umax cc so co ao bnd st (map Some items ++ [o]) st'.
Proof.
  induction n as [|n IH]; intros fuel st items st' H; cbn [take_while_collect] in H; [discriminate|].
  destruct (iter_next umax cc so co ao bnd fuel st) as [[[x|]|[]| |] s1] eqn:E; try discriminate; cbn in H.
  - destruct x as [d|e]; cbn in H.
    + destruct (take_while_collect umax cc so co ao bnd n fuel false s1) as [[l|[]| |] s2] eqn:E2; cbn in H; try discriminate.
      injection H as <- <-. destruct (IH _ _ _ _ E2) as (o & N). exists o. cbn. econstructor; [exact E|exact N].
    + destruct (take_while_collect umax cc so co ao bnd n fuel true s1) as [[l|[]| |] s2] eqn:E2; cbn in H; try discriminate.
      injection H as <- <-. destruct (take_while_nexts_err _ _ _ E2) as (-> & o & N). exists o. cbn. econstructor; [exact E|exact N].
  - injection H as <- <-. exists None. cbn. econstructor; [exact E|constructor].
Qed.
End TakeWhile.

Section Append.
Context {W ET Pos CE : Type} (cc : classifier) (bnd : bindings W (list (item Pos)) ET Pos CE) (DC : disjoint_classes cc).

Lemma raw_last (s t u : list (item Pos)) y : raw cc (delimiter cc) s t -> s = u ++ [y] -> ends cc y -> esc_after cc false u = true.
Proof.
  intros Hr. revert u. induction Hr as [|x s t Hx He _ IH|x z s t Hx _ IH]; intros u E Hy.
  - destruct u; discriminate.
  - destruct u as [|x' u]; cbn in E; injection E as -> E.
    + unfold delimiter, ends in *. rewrite Hy, orb_true_r in Hx. discriminate.
    + cbn. unfold escapes in He. destruct (is_nest_escape cc (it_ch x')); [congruence|]. apply IH; auto.
  - destruct u as [|x' u]; cbn in E; [discriminate|]. injection E as -> E.
    cbn. unfold escapes in Hx. rewrite Hx. destruct u as [|z' u]; cbn in E; [reflexivity|].
    injection E as -> E. cbn. apply IH; auto.
Qed.
Lemma forms_last b w s ds w' b' : forms cc bnd false b w s ds w' b' -> b' = true ->
  (s = [] /\ b = true) \/ exists s1 s2 t, s = s1 ++ s2 /\ s2 <> [] /\ raw cc (delimiter cc) s2 t /\ esc_after cc false s1 = false.
Proof.
  intros H. remember false as eof eqn:E. revert E.
  induction H as [eof b w|eof w s t s' ds w' b' Hn Hr _ IH|w s t x Hr Hx|eof b w s d w1 s' ds w' b' Hns _ IH
    |eof b w s w1 s' ds w' b' Hns _ IH]; intros E Eb; subst; try discriminate; auto.
  - right. destruct (IH eq_refl eq_refl) as [(-> & _)|(s1 & s2 & t2 & -> & H1 & H2 & H3)].
    + exists [], s, t. rewrite app_nil_r. auto.
    + exists (s ++ s1), s2, t2. rewrite app_assoc, (esc_app cc), (esc_raw Hr). auto.
  - right. destruct (IH eq_refl eq_refl) as [(-> & Hb)|(s1 & s2 & t2 & -> & H1 & H2 & H3)]; [discriminate|].
    exists (s ++ s1), s2, t2. rewrite app_assoc, (esc_app cc), (proj1 (proj2 (@esc_grammar _ _ _ _ cc bnd DC)) _ _ _ _ Hns). auto.
  - right. destruct (IH eq_refl eq_refl) as [(-> & Hb)|(s1 & s2 & t2 & -> & H1 & H2 & H3)]; [discriminate|].
    exists (s ++ s1), s2, t2. rewrite app_assoc, (esc_app cc), (proj1 (proj2 (@esc_grammar _ _ _ _ cc bnd DC)) _ _ _ _ Hns). auto.
Qed.

(** What comes before can be split off. *)
Lemma separate_forms w u ads w1 b v : separate cc u v -> forms cc bnd true false w u ads w1 b ->
  forms cc bnd false false w u ads w1 b /\ (b = true -> text_stop cc Base 0 v).
Proof.
  intros (He & Hs) Hf. apply (forms_not_dangling DC) in Hf; [|exact He]. split; [exact Hf|]. intros Hb.
  destruct (forms_last Hf Hb) as [(_ & Hx)|(s1 & s2 & t & Es & H1 & H2 & H3)]; [discriminate|].
  destruct Hs as [Hs|[->|[(u' & y & Eu & Hy & Hu)|(y & v' & -> & Hy)]]].
  - subst. symmetry in Es. apply app_eq_nil in Es. destruct Es. contradiction.
  - exact I.
  - exfalso. destruct (exists_last H1) as (s3 & z & ->). rewrite app_assoc, Eu in Es. apply app_inj_tail in Es.
    destruct Es as (-> & <-). rewrite (esc_app cc), H3, (@raw_last _ _ _ _ H2 eq_refl Hy) in Hu. discriminate.
  - apply (starts_stop DC). exact Hy.
Qed.
End Append.

Section Lawful.
Context {S A TT ET Pos CE W AE AC : Type}.
Context (umax : N) (cc : classifier) (so : stream_ops S A TT Pos) (co : concat_ops A TT)
        (ao : alloc_ops A TT ET) (bnd : bindings A TT ET Pos CE).
Local Notation text := (list (item Pos)).
Context (view : A -> W) (abnd : bindings W text AE Pos AC).
Context (Rs : S -> text -> text -> Prop) (Rt : TT -> text -> Prop)
        (Rx : ET -> AE -> Prop) (Rc : CE -> AC -> Prop).
Local Notation iterates := (iterates umax cc so co ao bnd).
Local Notation starts_on := (starts_on Rs view).
Local Notation agree := (agree Rt Rx Rc).
Context (LW : lawful False view so co ao bnd abnd Rs Rt Rx Rc) (DC : disjoint_classes cc).

Lemma append_iterates st1 u w ds st1' st2 v items st2' st : separate cc u v -> (N_len u <= umax)%N ->
  starts_on st1 u w -> iterates st1 (map inl ds) st1' ->
  starts_on st2 v (view (ps_alloc st1')) -> iterates st2 items st2' ->
  starts_on st (u ++ v) w ->
  exists all st', iterates st all st' /\ agree all (map inl ds ++ items) /\ view (ps_alloc st') = view (ps_alloc st2').
Proof.
  intros HS HU H1 E1 H2 E2 H.
  destruct (iterates_sound LW _ DC H1 E1) as (ads & (b & Hf) & Hd).
  destruct (separate_forms DC HS Hf) as (Hf' & Hb).
  destruct (iterates_abs LW H2 E2) as (aitems & a' & Ea & Hi & Hs).
  pose proof (forms_prefix_iterates DC HU Hf' Hb Ea) as Eall.
  destruct (iterates_conc LW H Eall) as (all & st' & E & Hi' & Hs').
  exists all, st'. split; [exact E|]. split.
  - exists (map inl ads ++ aitems). split; [exact Hi'|]. apply Forall2_app; [|exact Hi].
    clear - Hd. induction Hd; cbn; constructor; auto.
  - destruct Hs as (_ & _ & K1), Hs' as (_ & _ & K2). unfold Ra_view in *. congruence.
Qed.
End Lawful.

(** In-memory parsing of two strings. *)
Section ParseStr.
Context {W ET CE : Type} (ET_eq : ET -> ET -> bool) (ET_hash : ET -> list hash_word)
        (hasher : list hash_word -> N) (XH : forall a b, ET_eq a b = true -> ET_hash a = ET_hash b).
Local Notation imx := (im_ops (W:=W)).
Local Notation text := (list (item strpos)).
Local Notation run := (parse_str_with (W:=W) (CE:=CE) ET_eq ET_hash hasher).
Local Notation ir k b := (Forall2 (item_rel (moved k b))).
Local Notation aiterates bnd := (iterates usize_max default_classifier (@abs_stream W strpos) abs_concat abs_alloc bnd).
Local Notation same k b := (same_text posstr_ops imx posstr_ops imx (moved k b)).

Lemma Rt12_ir k b (l1 l2 : text) : Rt12 eq eq (moved k b) l1 l2 <-> ir k b l1 l2.
Proof. split; [intros (x & y & -> & -> & H); exact H|]. intros H. exists l1, l2. auto. Qed.
Lemma bindings_sim_rt (bnd : bindings W text ET strpos CE) k b : position_blind bnd ->
  bindings_sim bnd bnd False eq (Rt12 eq eq (moved k b)) eq (moved k b) eq.
Proof.
  intros H d1 d2 Hd.
  assert (M : forall x y : datum text ET, datum_rel (Rt12 eq eq (moved k b)) eq x y -> datum_rel (ir k b) eq x y)
    by (intros x y; apply datum_rel_mono; auto; apply Rt12_ir).
  assert (M' : forall x y : datum text ET, datum_rel (ir k b) eq x y -> datum_rel (Rt12 eq eq (moved k b)) eq x y)
    by (intros x y; apply datum_rel_mono; auto; apply Rt12_ir).
  specialize (H k b d1 d2 (M _ _ Hd)). unfold option_rel in *. destruct (bnd d1) as [[f|f]|], (bnd d2) as [[g|g]|]; cbn in *; auto.
  - intros e1 e2 t1 t2 a1 a2 He Ht Ha. apply Rt12_ir in Ht. specialize (H _ _ _ _ _ _ (M _ _ He) Ht Ha).
    unfold cres_rel in *. destruct (f e1 t1 a1) as [[[x|]|x] a], (g e2 t2 a2) as [[[y|]|y] a']; cbn in *; intuition.
  - intros e1 e2 t1 t2 a1 a2 He Ht Ha. specialize (H _ _ _ _ _ _ (M _ _ He) (M _ _ Ht) Ha).
    unfold cres_rel in *. destruct (f e1 t1 a1) as [[[x|]|x] a], (g e2 t2 a2) as [[[y|]|y] a']; cbn in *; intuition.
Qed.

Lemma aiterates_moved (bnd : bindings W text ET strpos CE) k b s s' w items' a' : position_blind bnd -> ir k b s s' ->
  aiterates bnd (ast s' [] 0 w) items' a' ->
  exists items a, aiterates bnd (ast s [] 0 w) items a /\ Forall2 (pitem_rel (ir k b) eq (moved k b) eq) items items' /\
    ps_alloc a = ps_alloc a'.
Proof.
  intros HB Hs (n & f & E).
  assert (G : coll_rel (Rs12 abs_Rs abs_Rs (moved k b)) (Ra12 (fun w : W => w) (fun w => w) eq) (Rt12 eq eq (moved k b)) eq (moved k b) eq
    (iter_collect usize_max default_classifier (@abs_stream W strpos) abs_concat abs_alloc bnd n f (ast s [] 0 w))
    (iter_collect usize_max default_classifier (@abs_stream W strpos) abs_concat abs_alloc bnd n f (ast s' [] 0 w))).
  { apply sim_iter_collect with (L := False); auto.
    - apply compose_stream; apply abs_stream_contract.
    - apply compose_concat; apply abs_concat_contract.
    - apply compose_alloc; auto; apply abs_alloc_contract.
    - apply (bindings_sim_rt k b HB).
    - repeat split. exists s, [], s', []. repeat split; auto. }
  rewrite E in G. unfold coll_rel in G. cbn [fst snd] in G.
  destruct (iter_collect usize_max default_classifier (@abs_stream W strpos) abs_concat abs_alloc bnd n f (ast s [] 0 w))
    as [[items|[]| |] a] eqn:E1; try contradiction. destruct G as (Hi & _ & _ & Ha).
  exists items, a. split; [exists n, f; exact E1|]. split; [|exact Ha].
  eapply Forall2_mono; [|exact Hi]. intros [x|x] [y|y]; cbn; auto. apply datum_rel_mono; auto. apply Rt12_ir.
Qed.

Local Notation anexts bnd := (nexts usize_max default_classifier (@abs_stream W strpos) abs_concat abs_alloc bnd).
Lemma anexts_moved (bnd : bindings W text ET strpos CE) k b (HB : position_blind bnd) a2 os2 a2' : anexts bnd a2 os2 a2' -> forall a1,
  st_rel (Rs12 abs_Rs abs_Rs (moved k b)) (Ra12 (fun w : W => w) (fun w => w) eq) a1 a2 ->
  exists os1 a1', anexts bnd a1 os1 a1' /\ Forall2 (option_rel (pitem_rel (Rt12 eq eq (moved k b)) eq (moved k b) eq)) os1 os2 /\
    ps_alloc a1' = ps_alloc a2'.
Proof.
  induction 1 as [a2|f a2 o a3 os a4 E H IH]; intros a1 Ha.
  - exists [], a1. split; [constructor|]. split; [constructor|]. destruct Ha as (_ & _ & Ha). exact Ha.
  - assert (G : next_rel False (Rs12 abs_Rs abs_Rs (moved k b)) (Ra12 (fun w : W => w) (fun w => w) eq) (Rt12 eq eq (moved k b)) eq (moved k b) eq
      (iter_next usize_max default_classifier (@abs_stream W strpos) abs_concat abs_alloc bnd f a1)
      (iter_next usize_max default_classifier (@abs_stream W strpos) abs_concat abs_alloc bnd f a2)).
    { apply sim_iter_next; auto.
      - apply compose_stream; apply abs_stream_contract.
      - apply compose_concat; apply abs_concat_contract.
      - apply compose_alloc; auto; apply abs_alloc_contract.
      - apply (bindings_sim_rt k b HB). }
    rewrite E in G. unfold next_rel in G. cbn [fst snd] in G.
    destruct (iter_next usize_max default_classifier (@abs_stream W strpos) abs_concat abs_alloc bnd f a1) as [[o1|[]| |] a3'] eqn:E1;
      cbn [fst snd] in G; try contradiction. destruct G as [[Ho Hs]|[[] _]].
    destruct (IH _ Hs) as (os1 & a1' & Hn & Hf & Hw). exists (o1 :: os1), a1'.
    split; [econstructor; eauto|]. split; [constructor; auto|exact Hw].
Qed.

Lemma parse_str_nexts m i w s items st : titer_new posstr_ops imx (tx_from imx (posstr_from i)) = Ok s ->
  run i m w = (Ok items, Some st) ->
  exists o, nexts usize_max default_classifier (im_stream (W:=W)) (text_concat_ops imx) box_alloc
    (im_lookup ET_eq ET_hash hasher m) (parse_iter_new s w) (map Some items ++ [o]) st.
Proof.
  intros Es E. unfold parse_str_with in E. rewrite Es in E. unfold collect_up_to_first_err in E.
  destruct (take_while_collect _ _ _ _ _ _ _ _ _ _) as [r t] eqn:Et. injection E as -> ->.
  eapply take_while_nexts; exact Et.
Qed.

Lemma indexed_moved src src' k b v : forall ci bi ci' bi', ci = (ci' + k)%N -> bi = (bi' + b)%N ->
  ir k b (indexed (StrPos src 0 0) ci bi v) (indexed (StrPos src' 0 0) ci' bi' v).
Proof.
  induction v as [|c v IH]; intros ci bi ci' bi' Hc Hb; cbn [indexed sp_src sp_byte sp_char]; constructor.
  - split; [reflexivity|]. split; cbn [it_pos sp_char sp_byte]; lia.
  - apply IH; lia.
Qed.
Lemma str_items_moved src src' v pre : ir (N_len pre) (byte_len pre) (str_items src pre v) (str_items src' [] v).
Proof. apply indexed_moved; cbn; lia. Qed.

Lemma ir_chars k b l1 l2 : ir k b l1 l2 -> map it_ch l1 = map it_ch l2.
Proof. intros H. induction H as [|x y l1 l2 [E _] _ IH]; cbn; [reflexivity|]. f_equal; auto. Qed.
Lemma esc_after_chars {P Q} cc (u : list (item P)) (v : list (item Q)) : map it_ch u = map it_ch v ->
  forall e, esc_after cc e u = esc_after cc e v.
Proof.
  revert v. induction u as [|x u IH]; intros [|y v] E e; try discriminate; [reflexivity|].
  cbn in E. injection E as E1 E2. cbn. rewrite E1. apply IH. exact E2.
Qed.
Lemma map_last {X Y} (f : X -> Y) l l' y : map f l = l' ++ [y] -> exists l0 x, l = l0 ++ [x] /\ map f l0 = l' /\ f x = y.
Proof.
  intros E. destruct (exists_last (l:=l)) as (l0 & x & ->).
  - intros ->. destruct l'; discriminate.
  - rewrite map_app in E. cbn in E. apply app_inj_tail in E. destruct E. eauto.
Qed.
Lemma separate_chars {P Q} cc (u v : list (item P)) (u' v' : list (item Q)) :
  map it_ch u = map it_ch u' -> map it_ch v = map it_ch v' -> separate cc u' v' -> separate cc u v.
Proof.
  intros Eu Ev (He & Hs). split; [rewrite (esc_after_chars cc u u' Eu); exact He|].
  destruct Hs as [->|[->|[(u0 & y & -> & Hy & Hu)|(y & v0 & -> & Hy)]]].
  - left. destruct u; [reflexivity|discriminate].
  - right. left. destruct v; [reflexivity|discriminate].
  - right. right. left. rewrite map_app in Eu. cbn in Eu. destruct (@map_last _ _ _ _ _ _ Eu) as (l0 & x & -> & E0 & Ex).
    exists l0, x. split; [reflexivity|]. split; [unfold ends in *; congruence|].
    rewrite (esc_after_chars cc l0 u0 E0). exact Hu.
  - right. right. right. destruct v as [|x v]; [discriminate|]. cbn in Ev. injection Ev as E1 E2.
    exists x, v. split; [reflexivity|]. unfold starts in *. congruence.
Qed.

Lemma same_trans k b (i : datum (im_text) ET) x y j : datum_rel (text_items imx posstr_any) eq i x ->
  datum_rel (ir k b) eq x y -> datum_rel (text_items imx posstr_any) eq j y -> datum_rel (same k b) eq i j.
Proof.
  revert x y j. induction i; intros [] [] []; cbn; intuition (subst; eauto).
  exists t0, t1. eauto using (im_text_reads (W:=W) posstr_any_contract).
Qed.
Lemma pitem_trans k b items aitems aitems' items' :
  Forall2 (pitem_rel (text_items imx posstr_any) (@eq ET) (@eq strpos) (@eq CE)) items aitems ->
  Forall2 (pitem_rel (ir k b) eq (moved k b) eq) aitems aitems' ->
  Forall2 (pitem_rel (text_items imx posstr_any) eq eq eq) items' aitems' ->
  Forall2 (pitem_rel (same k b) eq (moved k b) eq) items items'.
Proof.
  intros H1 H2. revert items items' H1. induction H2 as [|x y l l' Hx _ IH]; intros items items' H1 H3.
  - inversion H1; inversion H3; constructor.
  - inversion H1 as [|i ? is ? Hi His]; subst. inversion H3 as [|j ? js ? Hj Hjs]; subst.
    constructor; [|apply IH; auto].
    destruct i as [i|i], x as [x|x], y as [y|y], j as [j|j]; cbn in *; try contradiction.
    + exact (@same_trans _ _ _ _ _ _ Hi Hx Hj).
    + destruct i, x, y, j; cbn in *; intuition; subst; auto.
Qed.

Lemma parse_str_append m am i1 i2 w ds1 st1 items2 st2 : str_bindings m am -> position_blind (abs_lookup ET_eq am) ->
  separate default_classifier (str_source i1) (str_source i2) -> (N_len (i1 ++ i2) <= usize_max)%N ->
  run i1 m w = (Ok (map inl ds1), Some st1) -> run i2 m (ps_alloc st1) = (Ok items2, Some st2) ->
  exists a b st, run (i1 ++ i2) m w = (Ok (map inl a ++ b), Some st) /\
    Forall2 (datum_rel (same 0 0) eq) a ds1 /\
    Forall2 (pitem_rel (same (N_len i1) (byte_len i1)) eq (moved (N_len i1) (byte_len i1)) eq) b items2 /\
    ps_alloc st = ps_alloc st2.
Proof.
  intros HB HP HS Hu E1 E2. pose proof (str_lawful ET_eq ET_hash hasher XH HB) as LW.
  assert (Hu1 : (N_len i1 <= usize_max)%N) by (rewrite app_length in Hu; lia).
  assert (Hu2 : (N_len i2 <= usize_max)%N) by (rewrite app_length in Hu; lia).
  destruct (str_starts i1 w) as (s1 & Es1 & Hs1), (str_starts i2 (ps_alloc st1)) as (s2 & Es2 & Hs2),
    (str_starts (i1 ++ i2) w) as (s & Es & Hs).
  destruct (parse_str_iterates ET_eq ET_hash hasher m w Hu1 Es1) as (_ & G1 & _). apply G1 in E1.
  destruct (parse_str_iterates ET_eq ET_hash hasher m (ps_alloc st1) Hu2 Es2) as ((all2 & st2' & G2 & st2'' & G2') & _).
  rewrite E2 in G2'. injection G2' as -> ->.
  destruct (iterates_abs LW Hs1 E1) as (ai1 & a1 & A1 & R1 & (_ & _ & V1)).
  destruct (iterates_abs LW Hs2 G2) as (ai2 & a2 & A2 & R2 & _).
  unfold Ra_view in V1. rewrite V1 in A2.
  set (U := str_items (i1 ++ i2) [] i1). set (V := str_items (i1 ++ i2) i1 i2).
  assert (EUV : str_source (i1 ++ i2) = U ++ V) by (rewrite str_source_eq, str_items_app; reflexivity).
  assert (IU : ir 0 0 U (str_source i1)) by (rewrite str_source_eq; apply indexed_moved; reflexivity).
  assert (IV : ir (N_len i1) (byte_len i1) V (str_source i2)) by (rewrite str_source_eq; apply str_items_moved).
  destruct (aiterates_moved HP IU A1) as (bi1 & b1 & B1 & T1 & W1).
  rewrite <- W1 in A2. destruct (aiterates_moved HP IV A2) as (bi2 & b2 & B2 & T2 & _).
  assert (Hb1 : exists bds, bi1 = map inl bds).
  { clear -R1 T1. revert ai1 bi1 R1 T1. induction ds1 as [|d ds IH]; intros ai bi R T; cbn in R.
    - inversion R; subst. inversion T; subst. exists []. reflexivity.
    - inversion R as [|? x ? ? Hx Hr]; subst. inversion T as [|y ? ? ? Hy Ht]; subst.
      destruct (IH _ _ Hr Ht) as (bds & ->). destruct x as [x|x], y as [y|y]; cbn in *; try contradiction.
      exists (y :: bds). reflexivity. }
  destruct Hb1 as (bds & ->).
  assert (Hl : (N_len U <= usize_max)%N) by (unfold U, str_items; rewrite indexed_length; exact Hu1).
  assert (HSU : separate default_classifier U V) by (exact (@separate_chars _ _ _ _ _ _ _ (ir_chars IU) (ir_chars IV) HS)).
  assert (Eall : aiterates (abs_lookup ET_eq am) (ast (U ++ V) [] 0 w) (map inl bds ++ bi2) b2).
  { destruct B1 as (n & f & B1). destruct (parses_input _ _ default_disjoint _ _ _ _ _ B1) as (w' & -> & b & Hf).
    destruct (separate_forms default_disjoint HSU Hf) as (Hf' & Hb). cbn in B2.
    exact (forms_prefix_iterates default_disjoint Hl Hf' Hb B2). }
  rewrite <- EUV in Eall. destruct (iterates_conc LW Hs Eall) as (all & st' & E & Hi & _).
  destruct (parse_str_iterates ET_eq ET_hash hasher m w Hu Es) as ((all' & st'' & E' & stf & Ef) & _).
  destruct (iterates_det E E') as [<- <-].
  apply Forall2_app_inv_r in Hi. destruct Hi as (x1 & x2 & X1 & X2 & ->).
  pose proof (@pitem_trans _ _ _ _ _ _ X1 T1 R1) as Y1. pose proof (@pitem_trans _ _ _ _ _ _ X2 T2 R2) as Y2.
  assert (HX : exists a, x1 = map inl a /\ Forall2 (datum_rel (same 0 0) eq) a ds1).
  { clear -Y1. revert x1 Y1. induction ds1 as [|d ds IH]; intros x1 Y; cbn in Y; inversion Y as [|x ? l ? Hx Hl]; subst.
    - exists []. auto.
    - destruct (IH _ Hl) as (a & -> & Ha). destruct x as [x|x]; [|contradiction]. exists (x :: a). auto. }
  destruct HX as (a & -> & Ha).
  assert (Ea : upto_err (map inl a ++ x2) = map inl a ++ upto_err x2) by (clear; induction a; cbn; [reflexivity|]; f_equal; assumption).
  assert (Hx2 : Forall2 (pitem_rel (same (N_len i1) (byte_len i1)) eq (moved (N_len i1) (byte_len i1)) eq) (upto_err x2) (upto_err all2))
    by (apply Transfer.upto_err_rel; auto).
  exists a, (upto_err x2), stf. split; [rewrite Ef, Ea; reflexivity|]. split; [exact Ha|]. split; [exact Hx2|].
  destruct (@parse_str_nexts _ _ _ _ _ _ Es2 E2) as (o2 & N2). destruct (@parse_str_nexts _ _ _ _ _ _ Es Ef) as (o & N).
  destruct (nexts_abstract LW N2 (proj2 (strel_starts _ _ _ _ _) Hs2)) as (ao2 & c2 & C2 & RC2 & (_ & _ & VC2)).
  unfold Ra_view in VC2. rewrite V1, <- W1 in C2.
  assert (IVs : st_rel (Rs12 abs_Rs abs_Rs (moved (N_len i1) (byte_len i1))) (Ra12 (fun w : W => w) (fun w => w) eq)
    (ast V [] 0 (ps_alloc b1)) (ast (str_source i2) [] 0 (ps_alloc b1))).
  { repeat split. exists V, [], (str_source i2), []. repeat split; auto. }
  destruct (anexts_moved HP C2 IVs) as (bo2 & d2 & D2 & TD2 & WD2).
  assert (Dall : anexts (abs_lookup ET_eq am) (ast (U ++ V) [] 0 w) (map (fun d => Some (inl d)) bds ++ bo2) d2).
  { destruct B1 as (n & f & B1). destruct (parses_input _ _ default_disjoint _ _ _ _ _ B1) as (w' & -> & b & Hf).
    destruct (separate_forms default_disjoint HSU Hf) as (Hf' & Hb). cbn [ps_alloc ast] in D2.
    destruct (forms_prefix (umax:=usize_max) default_disjoint Hf' 0%N V) as (_ & _ & G); [lia|exact Hb|].
    destruct bo2 as [|z bo2]; [|apply G; auto].
    inversion TD2; subst. apply Forall2_length_eq in RC2. rewrite app_length in RC2. cbn in RC2. lia. }
  rewrite <- EUV in Dall. destruct (nexts_concrete LW Dall (proj2 (strel_starts _ _ _ _ _) Hs)) as (co & stc & Nc & RCc & (_ & _ & Vc)).
  unfold Ra_view in Vc.
  destruct (nexts_det N Nc) as [_ <-]; [|congruence].
  apply Forall2_length_eq in RC2, TD2, RCc, Ha, Hx2, T1, R1.
  rewrite map_length in T1, R1. rewrite app_length, map_length in RC2, RCc.
  rewrite Ea, app_length, map_length, app_length, map_length.
  assert (K : forall a ds ai bds x y ao bo c : nat, ds = ai -> bds = ai -> a = ds -> x = y -> y + 1 = ao -> bo = ao -> c = bds + bo ->
    a + x + 1 = c) by lia.
  exact (K _ _ _ _ _ _ _ _ _ R1 T1 Ha Hx2 RC2 TD2 RCc).
Qed.
End ParseStr.
