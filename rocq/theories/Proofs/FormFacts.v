(** Nest forms of the grammar: they decompose in one way only; operative operands
    by counting; the parser on a sequence of forms followed by anything; failing
    combiners. *)
From Coq Require Import List NArith Arith Bool Lia.
From Verif.Model Require Import Prelude Parser Iter.
From Verif.Spec Require Import Contract Grammar Balance AbsStream Trace Fails Run.
From Verif.Proofs Require Import Wp GrammarFacts AbsParse AbsIter Complete.
Import ListNotations.
Set Implicit Arguments.
Local Notation N_len r := (N.of_nat (length r)).

Section Forms.
Context {W ET Pos CE : Type}.
Local Notation source := (list (item Pos)).
Local Notation text := (list (item Pos)).
Context (cc : classifier) (bnd : bindings W text ET Pos CE).
Context (DC : disjoint_classes cc).
Local Notation forms := (forms cc bnd).
Local Notation nest := (nest cc bnd).
Local Notation lead := (lead cc bnd).
Local Notation head := (head cc bnd).
Local Notation raw := (@raw Pos cc).
Local Notation quoted := (@quoted Pos cc).
Local Notation scn := (@scan Pos cc).
Local Notation esc := (@esc_after Pos cc).
Local Notation unesc := (@unescape Pos cc).

Lemma nest_unique w s r1 w1 r2 w2 : nest w s r1 w1 -> nest w s r2 w2 -> r1 = r2 /\ w1 = w2.
Proof.
  intros H1 H2. destruct (grammar_parses (N_len s) bnd DC) as (_ & G & _).
  pose proof (ev_unique (G _ _ _ _ H1 0%N [] ltac:(lia)) (G _ _ _ _ H2 0%N [] ltac:(lia))) as E.
  injection E as Er Ew. split; [|exact Ew]. destruct r1, r2; congruence.
Qed.

(** The last character of an operator. *)
Lemma raw_last s t : raw (operator_delimiter cc) s t -> s <> [] ->
  exists s0 z, s = s0 ++ [z] /\ (ends cc z -> esc false s0 = true).
Proof.
  induction 1 as [|x s t Hx Hne _ IH|x y s t Hx _ IH]; intros Hn; [congruence| |].
  - destruct s as [|x' s].
    + exists [], x. split; [reflexivity|]. intros He. exfalso. unfold operator_delimiter, delimiter, ends in *.
      rewrite He, !orb_true_r in Hx. discriminate.
    + destruct IH as (s0 & z & -> & H); [discriminate|]. exists (x :: s0), z. split; [reflexivity|].
      cbn. unfold escapes in Hne. apply not_true_is_false in Hne. rewrite Hne. exact H.
  - destruct s as [|x' s].
    + exists [x], y. split; [reflexivity|]. intros _. cbn. exact Hx.
    + destruct IH as (s0 & z & -> & H); [discriminate|]. exists (x :: y :: s0), z. split; [reflexivity|].
      cbn. unfold escapes in Hx. rewrite Hx. exact H.
Qed.

Lemma nest_shape w s r w' : nest w s r w' -> exists s0 z, s = s0 ++ [z] /\ ends cc z /\ esc false s0 = false.
Proof.
  destruct (esc_grammar bnd DC) as (GF & GN & GL & GH).
  assert (ST : forall (x : item Pos) s, starts cc x -> esc false (x :: s) = esc false s).
  { intros x s0 Hx. cbn. destruct (starts_facts DC Hx) as (_ & _ & -> & _). reflexivity. }
  intros H. destruct H as [w x l y w' Hx Hl Hy|w x l w1 h d tx w2 sp body ds w' b' y Hx Hl Hh Hb Hs Hf Hy
    |w x l w1 h d tx w2 f sp body ds w3 b' y r w' Hx Hl Hh Hb Hs Hf Hy Hc|w x l w1 h d tx w2 f sp body t y r w' Hx Hl Hh Hb Hs Hq Hy Hc].
  - exists (x :: l), y. split; [reflexivity|]. split; [exact Hy|]. rewrite ST by exact Hx. eauto.
  - exists (x :: l ++ h ++ sp ++ body), y. split; [cbn; rewrite <- !app_assoc; reflexivity|]. split; [exact Hy|].
    rewrite ST, !esc_app by exact Hx. rewrite (GL _ _ _ Hl), (GH _ _ _ _ _ Hh), (esc_sep DC Hs). eauto.
  - exists (x :: l ++ h ++ sp ++ body), y. split; [cbn; rewrite <- !app_assoc; reflexivity|]. split; [exact Hy|].
    rewrite ST, !esc_app by exact Hx. rewrite (GL _ _ _ Hl), (GH _ _ _ _ _ Hh), (esc_sep DC Hs). eauto.
  - exists (x :: l ++ h ++ sp ++ body), y. split; [cbn; rewrite <- !app_assoc; reflexivity|]. split; [exact Hy|].
    rewrite ST, !esc_app by exact Hx. rewrite (GL _ _ _ Hl), (GH _ _ _ _ _ Hh), (esc_sep DC Hs). eapply esc_quoted; eauto.
Qed.

Lemma head_shape w h d tx w' : head w h d tx w' ->
  exists h0 z, h = h0 ++ [z] /\ if tx then ends cc z -> esc false h0 = true else ends cc z /\ esc false h0 = false.
Proof.
  intros H. destruct H as [w s t Hn Hr|w s d w' Hn].
  - apply raw_last with t; auto.
  - eapply nest_shape; eauto.
Qed.

Lemma app_last {X} (a b : list X) x y : a ++ [x] = b ++ [y] -> a = b /\ x = y.
Proof. apply app_inj_tail. Qed.

(** The operator of a form. *)
Lemma operator_unique w l w1 h d tx w2 sp body y l' w1' h' d' tx' w2' sp' body' y' :
  lead w l w1 -> head w1 h d tx w2 -> sep cc tx sp body -> ends cc y ->
  lead w l' w1' -> head w1' h' d' tx' w2' -> sep cc tx' sp' body' -> ends cc y' ->
  l ++ h ++ sp ++ body ++ [y] = l' ++ h' ++ sp' ++ body' ++ [y'] ->
  d = d' /\ tx = tx' /\ w2 = w2' /\ sp = sp' /\ body = body' /\ y = y'.
Proof.
  intros Hl Hh Hs Hy Hl' Hh' Hs' Hy' E.
  set (um := (1 + N_len (l ++ h ++ sp ++ body ++ [y]) + N_len (l' ++ h'))%N).
  assert (L1 : (1 + N_len l <= um)%N) by (unfold um; rewrite !app_length; lia).
  assert (L2 : (1 + N_len h <= um)%N) by (unfold um; rewrite !app_length; lia).
  assert (L3 : (1 + N_len l' <= um)%N) by (unfold um; rewrite !app_length; lia).
  assert (L4 : (1 + N_len h' <= um)%N) by (unfold um; rewrite !app_length; lia).
  destruct (grammar_parses um bnd DC) as (_ & _ & GL & GH).
  pose proof (GL _ _ _ Hl 1%N _ _ L1 (GH _ _ _ _ _ Hh 1%N (sp ++ body ++ [y]) L2 (fun e => sep_stop _ _ Hs Hy e))) as E1.
  pose proof (GL _ _ _ Hl' 1%N _ _ L3 (GH _ _ _ _ _ Hh' 1%N (sp' ++ body' ++ [y']) L4 (fun e => sep_stop _ _ Hs' Hy' e))) as E2.
  rewrite E in E1. pose proof (ev_unique E1 E2) as E3. injection E3 as -> Er <-.
  assert (Elh : l ++ h = l' ++ h').
  { rewrite !(app_assoc l), !(app_assoc l') in E. rewrite Er in E. apply app_inv_tail in E. exact E. }
  assert (Etx : tx = tx').
  { destruct (head_shape Hh) as (h0 & z & -> & Hz), (head_shape Hh') as (h0' & z' & -> & Hz').
    rewrite !app_assoc in Elh. apply app_last in Elh. destruct Elh as [El <-].
    destruct (esc_grammar bnd DC) as (_ & _ & GLe & _).
    apply (f_equal (esc false)) in El. rewrite !esc_app, (GLe _ _ _ Hl), (GLe _ _ _ Hl') in El.
    destruct tx, tx'; auto.
    - destruct Hz' as [Hz1 Hz2]. specialize (Hz Hz1). congruence.
    - destruct Hz as [Hz1 Hz2]. specialize (Hz' Hz1). congruence. }
  subst tx'. split; [reflexivity|]. split; [reflexivity|]. split; [reflexivity|].
  assert (NW : forall (z : item Pos) b v, sep cc tx [] b -> b ++ [v] = z :: body ++ [y] \/ b ++ [v] = z :: body' ++ [y'] ->
    ~ white cc z).
  { intros z b v [(x & Ex & _)|(_ & Hb)] Hb'; [discriminate|]. destruct b as [|b0 b].
    - exfalso. destruct Hb' as [Hb'|Hb']; injection Hb' as _ Hb'; destruct body, body'; discriminate.
    - assert (b0 = z) as -> by (destruct Hb' as [Hb'|Hb']; injection Hb' as -> _; reflexivity).
      destruct tx; [|exact Hb]. destruct (starts_facts DC Hb) as (_ & _ & _ & Hw). unfold white. congruence. }
  assert (Esp : sp = sp').
  { destruct Hs as [(x & -> & Hx)|(-> & Hb)], Hs' as [(x' & -> & Hx')|(-> & Hb')]; auto.
    - injection Er as -> _. reflexivity.
    - exfalso. cbn [app] in Er. apply (NW x body' y'); auto. right. split; auto.
    - exfalso. cbn [app] in Er. apply (NW x' body y); auto. right. split; auto. }
  subst sp'. split; [reflexivity|]. apply app_inv_head in Er. apply app_last in Er. exact Er.
Qed.

(** A form with an operator, by its operator. *)
Definition form_means (d : datum text ET) (w2 : W) (body : source) (r : option (datum text ET) + error Pos CE) (w' : W) : Prop :=
  match bnd d with
  | None => exists ds b, forms false false w2 body ds w' b /\ r = inl (Some (DComb d (dlist ds)))
  | Some (Applicative f) => exists ds w3 b, forms false false w2 body ds w3 b /\ f d (dlist ds) w3 = (r, w')
  | Some (Operative f) => exists t, quoted body t /\ f d t w2 = (r, w')
  end.

Lemma nest_iff w x l w1 h d tx w2 sp body y r w' :
  starts cc x -> lead w l w1 -> head w1 h d tx w2 -> sep cc tx sp body -> ends cc y ->
  nest w (x :: l ++ h ++ sp ++ body ++ [y]) r w' <-> form_means d w2 body r w'.
Proof.
  intros Hx Hl Hh Hs Hy. split.
  - intros H. inversion H as [w0 x0 l0 y0 w0' Hx0 Hl0 Hy0 E0 E1 E2 E3
      |w0 x0 l0 w1' h0 d0 tx0 w2' sp0 body0 ds w0' b' y0 Hx0 Hl0 Hh0 Hb0 Hs0 Hf0 Hy0 E0 E1 E2 E3
      |w0 x0 l0 w1' h0 d0 tx0 w2' f sp0 body0 ds w3 b' y0 r0 w0' Hx0 Hl0 Hh0 Hb0 Hs0 Hf0 Hy0 Hc0 E0 E1 E2 E3
      |w0 x0 l0 w1' h0 d0 tx0 w2' f sp0 body0 t y0 r0 w0' Hx0 Hl0 Hh0 Hb0 Hs0 Hq0 Hy0 Hc0 E0 E1 E2 E3]; subst.
    + exfalso. match goal with E : _ ++ [y0] = _ |- _ => rename E into E1 end.
      set (um := (1 + N_len (l ++ h ++ sp ++ body ++ [y]))%N).
      assert (L1 : (1 + N_len l <= um)%N) by (unfold um; rewrite !app_length; lia).
      assert (L2 : (1 + N_len h <= um)%N) by (unfold um; rewrite !app_length; lia).
      assert (L3 : (1 + N_len l0 <= um)%N) by (unfold um; rewrite <- E1, !app_length; lia).
      destruct (grammar_parses um bnd DC) as (_ & _ & GL & GH).
      pose proof (GL _ _ _ Hl 1%N _ _ L1 (GH _ _ _ _ _ Hh 1%N (sp ++ body ++ [y]) L2 (fun e => sep_stop _ _ Hs Hy e))) as F1.
      pose proof (GL _ _ _ Hl0 1%N _ _ L3 (next_at_end um bnd DC Operator [] w' Hy0 (N.lt_0_1 : (0 < 1)%N))) as F2.
      rewrite E1 in F2. pose proof (ev_unique F1 F2) as F. discriminate.
    + match goal with E : _ ++ _ = _ |- _ =>
        destruct (operator_unique Hl0 Hh0 Hs0 Hy0 Hl Hh Hs Hy E) as (<- & <- & <- & <- & <- & <-) end.
      unfold form_means. rewrite Hb0. eauto.
    + match goal with E : _ ++ _ = _ |- _ =>
        destruct (operator_unique Hl0 Hh0 Hs0 Hy0 Hl Hh Hs Hy E) as (<- & <- & <- & <- & <- & <-) end.
      unfold form_means. rewrite Hb0. eauto.
    + match goal with E : _ ++ _ = _ |- _ =>
        destruct (operator_unique Hl0 Hh0 Hs0 Hy0 Hl Hh Hs Hy E) as (<- & <- & <- & <- & <- & <-) end.
      unfold form_means. rewrite Hb0. eauto.
  - unfold form_means. destruct (bnd d) as [[f|f]|] eqn:Eb.
    + intros (t & Hq & Hf). eapply n_operative; eauto.
    + intros (ds & w3 & b & Hf & Hc). eapply n_applicative; eauto.
    + intros (ds & b & Hf & ->). eapply n_unbound; eauto.
Qed.

(** Operands of operatives, by counting. *)
Lemma scan_qn : forall n s k, length s <= n -> scn false (N.of_nat k) s = Balanced -> esc false s = false ->
  qn cc k s (unesc false s).
Proof.
  induction n as [|n IH]; intros s k Hn Hs He.
  - destruct s; [|cbn in Hn; lia]. cbn in Hs. destruct (N.eqb_spec (N.of_nat k) 0); [|discriminate].
    assert (k = 0) as -> by lia. constructor.
  - destruct s as [|x s]; [apply (IH []); [cbn; lia|exact Hs|exact He]|]. cbn in Hn.
    cbn [scan esc_after unescape negb andb] in *.
    destruct (is_nest_escape cc (it_ch x)) eqn:E1.
    { destruct s as [|y s]; [discriminate|]. cbn [scan esc_after unescape negb andb] in *.
      apply qn_escaped; [exact E1|]. apply IH; auto. cbn in Hn. lia. }
    assert (NE : ~ escapes cc x) by (unfold escapes; congruence).
    destruct (is_nest_start cc (it_ch x)) eqn:E2.
    { apply qn_start; [exact E2|]. apply IH; auto; [lia|]. rewrite <- Hs. f_equal. lia. }
    destruct (is_nest_end cc (it_ch x)) eqn:E3.
    { destruct (N.eqb_spec (N.of_nat k) 0); [discriminate|]. destruct k as [|k]; [lia|].
      apply qn_end; [exact E3|]. apply IH; auto; [lia|]. rewrite <- Hs. f_equal. lia. }
    apply qn_plain; auto; [unfold delimiter; rewrite E2, E3; reflexivity|]. apply IH; auto. lia.
Qed.

Lemma qn_unescape k s t : qn cc k s t -> t = unesc false s.
Proof.
  induction 1 as [|k x s t Hx Hne _ IH|k x y s t Hx _ IH|k x s t Hx _ IH|k x s t Hx _ IH]; cbn; auto.
  - unfold escapes in Hne. apply not_true_is_false in Hne. rewrite Hne. congruence.
  - unfold escapes in Hx. rewrite Hx. congruence.
  - destruct (starts_facts DC Hx) as (_ & _ & -> & _). congruence.
  - destruct (ends_facts DC Hx) as (_ & _ & -> & _). congruence.
Qed.

Lemma quoted_iff s t : quoted s t <-> balance cc s = Balanced /\ esc false s = false /\ t = unesc false s.
Proof.
  split.
  - intros H. split; [|split].
    + pose proof (scan_quoted DC H 0 []) as E. rewrite app_nil_r in E. unfold balance. rewrite E. reflexivity.
    + eapply esc_quoted; eauto.
    + apply qn_iff in H. eapply qn_unescape; eauto.
  - intros (Hb & He & ->). apply qn_iff. eapply scan_qn; eauto.
Qed.
(** Removed forms before an operator and among operands. *)
Lemma removed_operator w s w1 x rest r w' : nest w s (inl None) w1 -> nest w1 (x :: rest) r w' ->
  nest w (x :: s ++ rest) r w'.
Proof.
  intros Hs H.
  assert (HL : forall l w2, lead w1 l w2 -> lead w (s ++ l) w2) by (intros; eapply l_removed; eauto).
  inversion H; subst.
  - rewrite app_assoc. eapply n_empty; eauto.
  - rewrite app_assoc. eapply n_unbound; eauto.
  - rewrite app_assoc. eapply n_applicative; eauto.
  - rewrite app_assoc. eapply n_operative; eauto.
Qed.
Lemma removed_operand eof w u ds w1 b s w2 v ds' w3 b' : forms false false w u ds w1 b ->
  nest w1 s (inl None) w2 -> forms eof false w2 v ds' w3 b' -> forms eof false w (u ++ s ++ v) (ds ++ ds') w3 b'.
Proof. intros Hu Hs Hv. eapply forms_app; [exact Hu|]. eapply f_removed; eauto. Qed.
(** What is between the delimiters of a nest form leaves the depth alone, so a
    source starts with at most one nest form. *)
Definition level (i : source) : Prop := forall d r, scn false d (i ++ r) = scn false d r.

Lemma level_app i j : level i -> level j -> level (i ++ j).
Proof. intros Hi Hj d r. rewrite <- app_assoc, Hi, Hj. reflexivity. Qed.
Lemma level_form w l w1 h d tx w2 sp body : lead w l w1 -> head w1 h d tx w2 -> sep cc tx sp body -> level body ->
  level (l ++ h ++ sp ++ body).
Proof.
  intros Hl Hh Hs Hb. repeat apply level_app; auto.
  - intros k r. eapply (proj1 (proj2 (proj2 (scan_grammar bnd DC)))); eauto.
  - intros k r. eapply (proj2 (proj2 (proj2 (scan_grammar bnd DC)))); eauto.
  - intros k r. eapply scan_sep; eauto.
Qed.
Lemma level_balanced body : balance cc body = Balanced -> esc false body = false -> level body.
Proof.
  intros Hb He d r. assert (Hq : quoted body (unesc false body)) by (apply quoted_iff; auto).
  apply (scan_quoted DC Hq).
Qed.
Lemma level_forms b w s ds w' b' : forms false b w s ds w' b' -> level s.
Proof. intros H d r. eapply (proj1 (scan_grammar bnd DC)); eauto. discriminate. Qed.
Lemma nest_inner w s r w' : nest w s r w' -> exists x i y, s = x :: i ++ [y] /\ starts cc x /\ ends cc y /\ level i.
Proof.
  intros H. inversion H; subst.
  - exists x, l, y. repeat split; auto. intros d r. eapply (proj1 (proj2 (proj2 (scan_grammar bnd DC)))); eauto.
  - exists x, (l ++ h ++ sp ++ body), y. rewrite <- !app_assoc. repeat split; auto.
    eapply level_form; eauto using level_forms.
  - exists x, (l ++ h ++ sp ++ body), y. rewrite <- !app_assoc. repeat split; auto.
    eapply level_form; eauto using level_forms.
  - exists x, (l ++ h ++ sp ++ body), y. rewrite <- !app_assoc. repeat split; auto.
    eapply level_form; eauto. intros k q. eapply scan_quoted; eauto.
Qed.
Lemma level_prefix i1 y1 r1 i2 y2 r2 : level i1 -> level i2 -> ends cc y1 -> ends cc y2 ->
  i1 ++ y1 :: r1 = i2 ++ y2 :: r2 -> i1 = i2 /\ y1 = y2 /\ r1 = r2.
Proof.
  intros L1 L2 H1 H2 E.
  assert (K : forall i1 y1 r1 i2 r2, level i1 -> level i2 -> ends cc y1 -> (exists q, i2 = i1 ++ q) ->
    i1 ++ y1 :: r1 = i2 ++ r2 -> i1 = i2).
  { clear -DC. intros i1 y1 r1 i2 r2 L1 L2 H1 [q ->] E. destruct q as [|z q]; [rewrite app_nil_r; reflexivity|].
    exfalso. rewrite <- app_assoc in E. apply app_inv_head in E. cbn in E. injection E as -> ->.
    specialize (L2 0%N []). rewrite <- app_assoc, L1 in L2. cbn [app] in L2. rewrite (scan_unmatched DC _ H1) in L2.
    discriminate. }
  assert (i1 = i2) as ->.
  { destruct (Nat.le_ge_cases (length i1) (length i2)) as [C|C].
    - eapply (K i1 y1 r1 i2 (y2 :: r2)); eauto. exists (skipn (length i1) i2).
      rewrite <- (firstn_skipn (length i1) i2) at 1. f_equal.
      transitivity (firstn (length i1) (i2 ++ y2 :: r2)).
      + rewrite firstn_app. replace (length i1 - length i2) with 0 by lia. rewrite app_nil_r. reflexivity.
      + rewrite <- E, firstn_app, firstn_all, Nat.sub_diag, app_nil_r. reflexivity.
    - symmetry. eapply (K i2 y2 r2 i1 (y1 :: r1)); eauto. exists (skipn (length i2) i1).
      rewrite <- (firstn_skipn (length i2) i1) at 1. f_equal.
      transitivity (firstn (length i2) (i1 ++ y1 :: r1)).
      + rewrite firstn_app. replace (length i2 - length i1) with 0 by lia. rewrite app_nil_r. reflexivity.
      + rewrite E, firstn_app, firstn_all, Nat.sub_diag, app_nil_r. reflexivity. }
  apply app_inv_head in E. injection E as -> ->. auto.
Qed.
Lemma nest_prefix w s r w' q x i y q' : nest w s r w' -> level i -> ends cc y -> s ++ q = (x :: i ++ [y]) ++ q' ->
  s = x :: i ++ [y] /\ q = q'.
Proof.
  intros H Hi Hy E. destruct (nest_inner H) as (x' & i' & y' & -> & _ & Hy' & Hi').
  cbn in E. rewrite <- !app_assoc in E. injection E as -> E.
  destruct (level_prefix _ _ Hi' Hi Hy' Hy E) as (-> & -> & ->). auto.
Qed.
End Forms.
