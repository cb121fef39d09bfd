(** The parser on a sequence of forms followed by anything, and on a nest form in
    which a combiner fails. *)
From Coq Require Import List NArith Arith Bool Lia.
From Verif.Model Require Import Prelude Parser Iter.
From Verif.Spec Require Import Contract Grammar Balance AbsStream Trace Fails Unclosed Run.
From Verif.Proofs Require Import Wp GrammarFacts AbsParse AbsIter Complete RunFacts NextFacts FormFacts.
Import ListNotations.
Set Implicit Arguments.
Local Notation N_len r := (N.of_nat (length r)).

Section Prefix.
Context {W ET Pos CE : Type}.
Local Notation source := (list (item Pos)).
Local Notation text := (list (item Pos)).
Context (umax : N) (cc : classifier) (bnd : bindings W text ET Pos CE).
Context (DC : disjoint_classes cc).
Local Notation forms := (forms cc bnd).
Local Notation nest := (nest cc bnd).
Local Notation lead := (lead cc bnd).
Local Notation head := (head cc bnd).
Local Notation fails := (fails cc bnd).
Local Notation so := (@abs_stream W Pos).
Local Notation co := (@abs_concat W Pos).
Local Notation ao := (@abs_alloc W ET Pos).
Local Notation p_next := (parse_next umax cc so co ao bnd).
Local Notation p_nested := (parse_nested umax cc so co ao bnd).
Local Notation p_all := (parse_all umax cc so co ao bnd).
Local Notation i_next := (iter_next umax cc so co ao bnd).
Local Notation anexts := (nexts umax cc so co ao bnd).
Local Notation aiterates := (iterates umax cc so co ao bnd).
Local Notation oks ds := (map (fun d => Some (inl d)) ds).

Lemma all_err s e s1 : ev (fun f => p_next f Base s) (Err e, s1) -> ev (fun f => p_all f Base s) (Err e, s1).
Proof.
  intros [f0 H]. apply ev_S. exists f0. intros f Hf. rewrite p_all_step. unfold bind at 1.
  rewrite H by exact Hf. reflexivity.
Qed.
Lemma all_some_err s d s1 e s2 :
  ev (fun f => p_next f Base s) (Ok (Some d), s1) ->
  ev (fun f => p_all f Base s1) (Err e, s2) -> ev (fun f => p_all f Base s) (Err e, s2).
Proof.
  intros [f0 H] [f1 H1]. apply ev_S. exists (f0 + f1). intros f Hf.
  rewrite p_all_step. unfold bind at 1. rewrite H by lia. unfold bind at 1 2 3. cbn -[bind parse_all].
  unfold bind. destruct s1 as [s1 dd w1]. cbn. rewrite H1 by lia. reflexivity.
Qed.
Lemma all_same_err s s1 e s2 :
  (forall out, ev (fun f => p_next f Base s1) out -> ev (fun f => p_next f Base s) out) ->
  ev (fun f => p_all f Base s1) (Err e, s2) -> ev (fun f => p_all f Base s) (Err e, s2).
Proof.
  intros Hs [f0 H].
  assert (exists o s', ev (fun f => p_next f Base s1) (o, s')) as (o & s' & E1).
  { pose proof (H (S f0) ltac:(lia)) as E. rewrite p_all_step in E. unfold bind at 1 in E.
    destruct (p_next f0 Base s1) as [o s'] eqn:En. exists o, s'.
    apply (next_total_ev _ _ _ _ _ _ En). intros ->. discriminate. }
  pose proof (Hs _ E1) as [f2 E2]. destruct E1 as [f1 E1].
  apply ev_S. exists (f0 + f1 + f2). intros f Hf.
  rewrite <- (H (S f)) by lia. rewrite !p_all_step. unfold bind at 1. symmetry. unfold bind at 1.
  rewrite E1, E2 by lia. reflexivity.
Qed.

Lemma nexts_ev s o s1 os s2 : ev (fun f => i_next f s) (Ok o, s1) -> anexts s1 os s2 -> anexts s (o :: os) s2.
Proof. intros [f H] Hn. econstructor; [apply (H f); lia|exact Hn]. Qed.
Lemma nexts_same s s1 o os s2 :
  (forall out, ev (fun f => p_next f Base s1) out -> ev (fun f => p_next f Base s) out) ->
  anexts s1 (o :: os) s2 -> anexts s (o :: os) s2.
Proof.
  intros Hs H. inversion H as [|f ? ? s3 ? ? E H']; subst.
  unfold iter_next, do_next in E. destruct (p_next f Base s1) as [r s4] eqn:En.
  assert (Hr : r <> OutOfFuel) by (intros ->; discriminate).
  destruct (Hs _ (next_total_ev _ _ _ _ _ _ En Hr)) as [f' H''].
  eapply nexts_cons with (fuel := f'); [|exact H']. unfold iter_next, do_next. rewrite H'' by lia. exact E.
Qed.

Lemma next_of_nest s r' w o w' : (N_len s <= umax)%N -> nest w s o w' ->
  match o with
  | inl (Some x) => ev (fun f => p_next f Base (ast (s ++ r') [] 0 w)) (Ok (Some x), ast r' [] 0 w')
  | inl None => forall out, ev (fun f => p_next f Base (ast r' [] 0 w')) out ->
      ev (fun f => p_next f Base (ast (s ++ r') [] 0 w)) out
  | inr e => ev (fun f => p_next f Base (ast (s ++ r') [] 0 w)) (Err e, ast r' [] 0 w')
  end.
Proof.
  intros Hu Hn. pose proof (nest_cons Hn) as Hco.
  assert (0 < length s) by (destruct Hco as (? & ? & -> & _); cbn; lia).
  assert (Hp : ev (fun f => p_nested f (ast (s ++ r') [] (0 + 1) w))
     (match o with inl x => Ok x | inr e => Err e end, ast r' [] (0 + 1) w')).
  { apply (proj1 (proj2 (grammar_parses umax bnd DC)) _ _ _ _ Hn 0%N r'). lia. }
  pose proof (next_nest (umax:=umax) bnd Base 0 w o ltac:(lia) Hco Hp) as G.
  destruct o as [[x|]|e].
  - apply next_base. exact G.
  - intros out Ho. apply next_base. auto.
  - apply next_base. exact G.
Qed.

Lemma forms_prefix b w s ds w' b' : forms false b w s ds w' b' ->
  forall d r', (d + N_len s <= umax)%N -> (b' = true -> text_stop cc Base d r') ->
  (b = true -> text_stop cc Base d (s ++ r')) /\
  (forall e s1, ev (fun f => p_all f Base (ast r' [] d w')) (Err e, s1) ->
     ev (fun f => p_all f Base (ast (s ++ r') [] d w)) (Err e, s1)) /\
  (d = 0%N -> forall o os s1, anexts (ast r' [] d w') (o :: os) s1 ->
     anexts (ast (s ++ r') [] d w) (oks ds ++ o :: os) s1).
Proof.
  remember false as eof eqn:Eeof. intros H. revert Eeof.
  induction H as [eof b w|eof w s t s' ds w' b' Hn Hr _ IH| |eof b w s x w1 s' ds w' b' Hns _ IH
                 |eof b w s w1 s' ds w' b' Hns _ IH]; intros Eeof d r' Hd Hb'.
  - split; [exact Hb'|]. split; auto.
  - rewrite app_length, Nat2N.inj_add in Hd.
    destruct (IH Eeof d r') as (IS & I1 & I2); [lia|auto|]. split; [discriminate|].
    rewrite <- app_assoc.
    assert (Ht : ev (fun f => p_next f Base (ast (s ++ s' ++ r') [] d w))
                    (Ok (Some (DText t)), ast (s' ++ r') [] d w)).
    { apply next_base. apply body_text; auto. discriminate. }
    split.
    + intros e s1 He. eapply all_some_err; [exact Ht|auto].
    + intros Hd0 o os s1 Ho. cbn. eapply nexts_ev; [apply next_item; exact Ht|auto].
  - discriminate.
  - rewrite app_length, Nat2N.inj_add in Hd.
    destruct (IH Eeof d r') as (_ & I1 & I2); [lia|auto|].
    pose proof (nest_cons Hns) as Hco.
    assert (0 < length s) by (destruct Hco as (? & ? & -> & _); cbn; lia).
    split.
    { intros _. destruct Hco as (z & s0 & -> & Hz). destruct (starts_facts DC Hz) as (E1 & E2 & _).
      cbn. unfold delimiter, ends. rewrite E1, E2. split; [reflexivity|discriminate]. }
    rewrite <- app_assoc.
    assert (Ht : ev (fun f => p_next f Base (ast (s ++ s' ++ r') [] d w))
                    (Ok (Some x), ast (s' ++ r') [] d w1)).
    { apply next_base. apply (next_nest (umax:=umax) bnd Base d w (inl (Some x))); auto; [lia|].
      apply (proj1 (proj2 (grammar_parses umax bnd DC)) _ _ _ _ Hns d). lia. }
    split.
    + intros e s1 He. eapply all_some_err; [exact Ht|auto].
    + intros Hd0 o os s1 Ho. cbn. eapply nexts_ev; [apply next_item; exact Ht|auto].
  - rewrite app_length, Nat2N.inj_add in Hd.
    destruct (IH Eeof d r') as (_ & I1 & I2); [lia|auto|].
    pose proof (nest_cons Hns) as Hco.
    assert (0 < length s) by (destruct Hco as (? & ? & -> & _); cbn; lia).
    split.
    { intros _. destruct Hco as (z & s0 & -> & Hz). destruct (starts_facts DC Hz) as (E1 & E2 & _).
      cbn. unfold delimiter, ends. rewrite E1, E2. split; [reflexivity|discriminate]. }
    rewrite <- app_assoc.
    assert (Ht : forall out, ev (fun f => p_next f Base (ast (s' ++ r') [] d w1)) out ->
      ev (fun f => p_next f Base (ast (s ++ s' ++ r') [] d w)) out).
    { intros out Ho. apply next_base.
      refine (next_nest (umax:=umax) bnd Base d w (inl None) _ Hco _ _ Ho); [lia|].
      apply (proj1 (proj2 (grammar_parses umax bnd DC)) _ _ _ _ Hns d). lia. }
    split.
    + intros e s1 He. eapply all_same_err; [exact Ht|auto].
    + intros Hd0 o os s1 Ho. specialize (I2 Hd0 _ _ _ Ho). destruct ds as [|d0 ds]; cbn in *;
        (eapply nexts_same; [exact Ht|exact I2]).
Qed.

(** Whole iterations. *)
Lemma forms_prefix_iterates w s ds w' b' r' items s1 : (N_len s <= umax)%N -> forms false false w s ds w' b' ->
  (b' = true -> text_stop cc Base 0 r') -> aiterates (ast r' [] 0 w') items s1 ->
  aiterates (ast (s ++ r') [] 0 w) (map inl ds ++ items) s1.
Proof.
  intros Hu Hf Hb Hi. rewrite iterates_nexts in *. rewrite map_app, map_map, <- app_assoc.
  destruct (forms_prefix Hf 0%N r') as (_ & _ & G); [lia|exact Hb|].
  destruct (map Some items ++ [None]) as [|o os] eqn:E; [destruct items; discriminate|].
  apply G; auto.
Qed.

(** Forms that are all removed. *)
Lemma removed_forms eof b w s w' b' : forms eof b w s [] w' b' -> s <> [] ->
  (forall b0, forms false b0 w s [] w' false) /\ exists x s', s = x :: s' /\ starts cc x.
Proof.
  remember [] as ds eqn:E. intros H. revert E.
  induction H as [eof b w|eof w s t s' ds w' b' Hn Hr _ IH| |eof b w s x w1 s' ds w' b' Hns _ IH
                 |eof b w s w1 s' ds w' b' Hns Hf IH]; intros E Hs; try discriminate; [congruence|].
  destruct (nest_cons Hns) as (x & s0 & Es & Hx). split; [|exists x, (s0 ++ s'); subst; auto].
  intros b0. eapply f_removed; [exact Hns|]. destruct s' as [|y s'].
  - inversion Hf; subst; try (match goal with H : _ ++ _ = [] |- _ => apply app_eq_nil in H; destruct H; subst end);
      try congruence; try discriminate; try constructor.
    + destruct (nest_cons ltac:(eassumption)) as (? & ? & ? & _). discriminate.
  - apply IH; auto. discriminate.
Qed.

(** A failing combiner. *)
Lemma starts_stop x (s : source) d : starts cc x -> text_stop cc Base d (x :: s).
Proof.
  intros Hx. destruct (starts_facts DC Hx) as (E1 & E2 & _). cbn. unfold delimiter, ends. rewrite E1, E2.
  split; [reflexivity|discriminate].
Qed.

(** [parse_nested] up to the operator. *)
Lemma nested_prefix x l w1 h dd tx w2 sp rest w d :
  starts cc x -> lead w l w1 -> head w1 h dd tx w2 -> sep cc tx sp rest -> rest <> [] ->
  (d + N_len (x :: l ++ h) <= umax)%N ->
  match bnd dd with Some (Operative _) => False | _ => True end ->
  forall e s1, ev (fun f => p_all f Base (ast rest [] (d + 1) w2)) (Err e, s1) ->
  ev (fun f => p_nested f (ast (x :: l ++ h ++ sp ++ rest) [] (d + 1) w)) (Err e, s1).
Proof.
  intros Hx Hl Hh Hsp Hr Hd Hb e s1 [f1 H]. cbn [length] in Hd. rewrite !app_length in Hd.
  assert (Hop : ev (fun f => p_next f Operator (ast (l ++ h ++ sp ++ rest) [] (d + 1) w))
    (Ok (Some dd), ast (sp ++ rest) [] (d + 1) w2)).
  { destruct (grammar_parses umax bnd DC) as (_ & _ & GL & GH).
    apply (GL _ _ _ Hl); [lia|]. apply (GH _ _ _ _ _ Hh); [lia|]. intros ->.
    destruct Hsp as [(z & -> & Hz)|(-> & Hz)]; cbn.
    - unfold operator_delimiter. unfold white in Hz. rewrite Hz. split; [reflexivity|discriminate].
    - destruct rest as [|z rest]; [congruence|]. cbn. unfold operator_delimiter, delimiter.
      unfold starts in Hz. rewrite Hz, orb_true_r. split; [reflexivity|discriminate]. }
  destruct Hop as [f0 Hop].
  apply ev_S. exists (f0 + f1). intros f Hf.
  rewrite p_nested_step. unfold bind at 1. cbn -[bind parse_next parse_text parse_all nest_end N.add sep].
  unfold starts in Hx. rewrite Hx. unfold bind at 1. cbn -[bind parse_next parse_text parse_all nest_end N.add].
  unfold bind at 1.
  change (PState (l ++ h ++ sp ++ rest, []) (d + 1)%N w) with (ast (l ++ h ++ sp ++ rest) [] (d + 1)%N w).
  rewrite Hop by lia.
  assert (Hpk : bind (peek so) (fun o => match o with
       | Some it => if is_whitespace cc (it_ch it)
                    then bind (next so) (fun _ => ret (CE:=CE) tt) else ret tt
       | None => ret tt
       end) (ast (sp ++ rest) [] (d + 1) w2) = (Ok tt, ast rest [] (d + 1) w2)).
  { destruct Hsp as [(z & -> & Hz)|(-> & Hz)]; unfold bind; cbn -[N.add].
    - unfold white in Hz. rewrite Hz. reflexivity.
    - destruct rest as [|z rest]; [congruence|]. cbn -[N.add].
      assert (is_whitespace cc (it_ch z) = false) as ->; [|reflexivity].
      destruct tx; [apply (starts_facts DC Hz)|]. unfold white in Hz.
      destruct (is_whitespace cc (it_ch z)); congruence. }
  unfold bind at 1 in Hpk. cbn -[bind next ret N.add] in Hpk.
  unfold bind at 1. cbn -[bind parse_next parse_text parse_all nest_end next ret N.add call new_datum].
  unfold bind at 1.
  change (PState (sp ++ rest, []) (d + 1)%N w2) with (ast (sp ++ rest) [] (d + 1)%N w2) in *.
  rewrite Hpk. destruct (bnd dd) as [[f2|f2]|]; [contradiction| |];
    unfold bind at 1; rewrite H by lia; reflexivity.
Qed.

Lemma fails_parse w s e w' : fails w s e w' -> forall d r, (d + N_len s <= umax)%N ->
  ev (fun f => p_nested f (ast (s ++ r) [] (d + 1) w)) (Err e, ast r [] (d + 1) w').
Proof.
  induction 1 as [w s e w' Hn|w x l w1 s e w' Hx Hl Hf IH|w x l w1 h dd tx w2 sp body ds w3 b s e w' Hx Hl Hh Hb Hs Hfo Hf IH];
    intros d r Hd.
  - apply (proj1 (proj2 (grammar_parses umax bnd DC)) _ _ _ _ Hn d r Hd).
  - cbn [length] in Hd. rewrite app_length in Hd. destruct (fails_cons Hf) as (z & s0 & Es & Hz).
    assert (0 < length s) by (subst s; cbn; lia).
    assert (Hop : ev (fun f => p_next f Operator (ast (l ++ s ++ r) [] (d + 1) w)) (Err e, ast r [] (d + 1) w')).
    { apply (proj1 (proj2 (proj2 (grammar_parses umax bnd DC))) _ _ _ Hl); [lia|].
      apply next_operator.
      - subst s. cbn. destruct (starts_facts DC Hz) as (_ & _ & _ & E). unfold white. congruence.
      - apply (next_nest (umax:=umax) bnd Operator (d + 1) w1 (inr e)); [lia|eauto|]. apply IH. lia. }
    destruct Hop as [f0 Hop]. apply ev_S. exists f0. intros f Hf0.
    replace ((x :: l ++ s) ++ r) with (x :: l ++ s ++ r) by (cbn; rewrite <- app_assoc; reflexivity).
    rewrite p_nested_step. unfold bind at 1. cbn -[bind parse_next parse_text parse_all nest_end N.add].
    unfold starts in Hx. rewrite Hx. unfold bind at 1. cbn -[bind parse_next parse_text parse_all nest_end N.add].
    unfold bind at 1. change (PState (l ++ s ++ r, []) (d + 1)%N w) with (ast (l ++ s ++ r) [] (d + 1)%N w).
    rewrite Hop by lia. reflexivity.
  - cbn [length] in Hd. rewrite !app_length in Hd. destruct (fails_cons Hf) as (z & s0 & Es & Hz).
    assert (0 < length s) by (subst s; cbn; lia).
    replace ((x :: l ++ h ++ sp ++ body ++ s) ++ r) with (x :: l ++ h ++ sp ++ (body ++ s ++ r))
      by (cbn; rewrite <- !app_assoc; reflexivity).
    eapply nested_prefix with (1 := Hx) (2 := Hl) (3 := Hh); auto.
    + destruct Hs as [Hs|(-> & Hs)]; [left; exact Hs|right]. split; [reflexivity|].
      destruct body; [|exact Hs]. subst s. exact Hs.
    + destruct body, s; discriminate.
    + cbn [length]. rewrite app_length. lia.
    + destruct (forms_prefix Hfo (d + 1)%N (s ++ r)) as (_ & G & _).
      * lia.
      * intros _. subst s. apply starts_stop. exact Hz.
      * apply G. apply all_err. apply next_base.
        apply (next_nest (umax:=umax) bnd Base (d + 1) w3 (inr e)); [lia|eauto|]. apply IH. lia.
Qed.

Lemma fails_nexts w u ds w1 b f e w' r : (N_len (u ++ f) <= umax)%N -> forms false false w u ds w1 b ->
  fails w1 f e w' -> anexts (ast (u ++ f ++ r) [] 0 w) (oks ds ++ [Some (inr e)]) (ast r [] 0 w').
Proof.
  intros Hu Hf Hx. rewrite app_length in Hu. destruct (fails_cons Hx) as (z & s0 & Es & Hz).
  assert (0 < length f) by (subst f; cbn; lia).
  destruct (forms_prefix Hf 0%N (f ++ r)) as (_ & _ & G).
  - lia.
  - intros _. subst f. apply starts_stop. exact Hz.
  - apply G; [reflexivity|]. eapply nexts_ev; [|constructor]. apply next_item_err, next_base.
    apply (next_nest (umax:=umax) bnd Base 0 w1 (inr e)); [lia|eauto|]. apply (fails_parse Hx 0%N). lia.
Qed.

(** A nest form at the start. *)
Lemma nest_nexts w s o w' r : (N_len s <= umax)%N -> nest w s o w' ->
  match o with
  | inl (Some d) => anexts (ast (s ++ r) [] 0 w) [Some (inl d)] (ast r [] 0 w')
  | inl None => forall x xs s1, anexts (ast r [] 0 w') (x :: xs) s1 -> anexts (ast (s ++ r) [] 0 w) (x :: xs) s1
  | inr e => anexts (ast (s ++ r) [] 0 w) [Some (inr e)] (ast r [] 0 w')
  end.
Proof.
  intros Hu Hn. pose proof (next_of_nest r Hu Hn) as G. destruct o as [[x|]|e].
  - eapply nexts_ev; [apply next_item; exact G|constructor].
  - intros x xs s1 H. eapply nexts_same; eauto.
  - eapply nexts_ev; [apply next_item_err; exact G|constructor].
Qed.

(** Removed forms between others. *)
Lemma removed_iterates w u ds w1 b fs w2 b2 v items s1 : (N_len (u ++ fs) <= umax)%N ->
  forms false false w u ds w1 b -> forms true false w1 fs [] w2 b2 -> fs <> [] ->
  aiterates (ast v [] 0 w2) items s1 -> aiterates (ast (u ++ fs ++ v) [] 0 w) (map inl ds ++ items) s1.
Proof.
  intros Hu Hf Hr Hn Hi. destruct (removed_forms Hr Hn) as [Hr' _].
  rewrite app_assoc. eapply forms_prefix_iterates with (b' := false); eauto; [|discriminate].
  rewrite <- (app_nil_r ds). eapply forms_app; eauto.
Qed.
(** Forms followed by forms. *)
Lemma forms_join eof w u ds w1 b v r ds' w2 b' : forms false false w u ds w1 b ->
  (b = true -> text_stop cc Base 0 (v ++ r)) -> forms eof false w1 v ds' w2 b' -> v <> [] ->
  forms eof false w (u ++ v) (ds ++ ds') w2 b'.
Proof.
  intros Hf Hb Hf' Hv. eapply forms_app; [exact Hf|]. destruct b; [|exact Hf'].
  apply (forms_after_text DC); auto. destruct v as [|z v]; [congruence|]. apply (Hb eq_refl).
Qed.

(** The items before the first error, and what this error is about. *)
Lemma nexts_mean e s1 ds : forall s w, anexts (ast s [] 0 w) (oks ds ++ [Some (inr e)]) s1 ->
  exists u r w1 b, s = u ++ r /\ forms false false w u ds w1 b /\
    (b = true -> text_stop cc Base 0 r) /\ err_means cc bnd Base 0 r w1 e s1.
Proof.
  induction ds as [|d ds IH]; intros s w H; inversion H as [|f ? ? s2 ? ? E H']; subst;
    pose proof (proj1 (parser_means umax bnd DC f) Base s 0%N w ltac:(discriminate) ltac:(discriminate)) as G;
    unfold wp in G; unfold iter_next, do_next in E;
    destruct (p_next f Base (ast s [] 0 w)) as [[[x|]|e0| |] s3]; try discriminate; cbn in G;
    injection E as -> ->.
  - inversion H'; subst. exists [], s, w, false. repeat split; auto; [constructor|discriminate].
  - destruct G as (u & r & w1 & -> & -> & _ & b & Hf & Hb).
    destruct (IH _ _ H') as (u' & r' & w2 & b' & -> & Hf' & Hb' & He).
    assert (at_end (u' ++ r') = false) as AE.
    { destruct (u' ++ r') as [|] eqn:Er; [|reflexivity]. apply app_eq_nil in Er. destruct Er as [-> ->].
      exfalso. clear -He. destruct He as (r' & p' & w' & _ & [(_ & _ & He & _)|[(_ & _ & u & x & ? & ? & He & _)|
        (_ & u & s & w1 & He & Hf & _)]]).
      - discriminate.
      - destruct u; discriminate.
      - destruct (fails_cons Hf) as (x & s0 & -> & _). destruct u; discriminate. }
    rewrite AE in Hf. destruct u' as [|z u'].
    + destruct (forms_nil_inv Hf') as (-> & -> & ->). exists u, r', w1, b. auto.
    + exists (u ++ z :: u'), r', w2, b'. rewrite <- app_assoc. repeat split; auto.
      change (d :: ds) with ([d] ++ ds). eapply forms_join; eauto. discriminate.
Qed.

(** The possible first errors. *)
Theorem first_error_cases w s ds e s1 : anexts (ast s [] 0 w) (oks ds ++ [Some (inr e)]) s1 ->
  (e = MissingEndChar /\ balance cc s = Unclosed /\ exists p w', s1 = ast [] p 0 w' /\
     exists u f w1 b, s = u ++ f /\ forms false false w u ds w1 b /\ unclosed cc bnd w1 f w') \/
  (exists u x r ds0 w' b, s = u ++ x :: r /\ ends cc x /\ e = UnbalancedEndChar (it_pos x) /\
     forms false false w u ds0 w' b /\ s1 = ast r [] 0 w' /\
     if b then exists t, ds0 = ds ++ [DText t] else ds0 = ds) \/
  (exists u f r w1 w' b, s = u ++ f ++ r /\ forms false false w u ds w1 b /\ fails w1 f e w' /\
     s1 = ast r [] 0 w').
Proof.
  intros H. destruct (nexts_mean _ _ H) as (u & r & w1 & b & -> & Hf & Hb & (r' & p' & w' & -> & He)).
  destruct He as [(-> & -> & Hs & _ & v & f & w2 & -> & Hf' & [(_ & _ & Hz)|Hn])|[(_ & -> & v & x & ds' & b' & -> & Hf' & Hd & Hx & ->)|
    (-> & v & f & w2 & -> & Hn & Hf')]].
  - lia.
  - left. split; auto. split; [unfold balance; rewrite (scan_forms DC 0 Hf) by discriminate; exact Hs|].
    exists p', w'. split; [reflexivity|]. destruct v as [|z v].
    + destruct (forms_nil_inv Hf') as (_ & -> & _). exists u, f, w1, b. auto.
    + exists (u ++ z :: v), f, w2, false. rewrite <- !app_assoc. repeat split; auto.
      rewrite <- (app_nil_r ds). eapply forms_join; eauto. discriminate.
  - right. left. destruct v as [|z v].
    + destruct (forms_nil_inv Hf') as (-> & -> & ->). exists u, x, r', ds, w1, b. repeat split; auto.
      destruct b; [|reflexivity]. specialize (Hb eq_refl). cbn in Hb. destruct Hb as [_ Hb]. specialize (Hb eq_refl Hx). lia.
    + exists (u ++ z :: v), x, r', (ds ++ ds'), w', b'. rewrite <- app_assoc. repeat split; auto.
      * eapply forms_join; eauto. discriminate.
      * destruct b'; [|subst; apply app_nil_r]. destruct Hd as [t ->]. eauto.
  - right. right. destruct v as [|z v].
    + destruct (forms_nil_inv Hf') as (_ & -> & _). exists u, f, r', w1, w', b. auto.
    + exists (u ++ z :: v), f, r', w2, w', false. rewrite <- !app_assoc. repeat split; auto.
      rewrite <- (app_nil_r ds). eapply forms_join; eauto. discriminate.
Qed.

End Prefix.
