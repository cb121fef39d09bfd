(** Facts about the grammar and the balance counter. *)
From Coq Require Import List Arith NArith Bool Lia.
From Verif.Model Require Import Prelude Parser.
From Verif.Spec Require Import Grammar Balance.
Import ListNotations.
Set Implicit Arguments.

Section Facts.
Context {W ET Pos CE : Type}.
Local Notation source := (list (item Pos)).
Local Notation text := (list (item Pos)).
Context (cc : classifier) (bnd : bindings W text ET Pos CE).
Context (DC : disjoint_classes cc).
Local Notation forms := (forms cc bnd).
Local Notation nest := (nest cc bnd).
Local Notation lead := (lead cc bnd).
Local Notation head := (head cc bnd).
Local Notation raw := (@raw Pos cc).
Local Notation scn := (@scan Pos cc).
Local Notation quoted := (@quoted Pos cc).

(** Counting version of [quoted]: [k] nests are already open. *)
Inductive qn : nat -> source -> text -> Prop :=
| qn_nil : qn 0 [] []
| qn_plain k x s t :
    delimiter cc (it_ch x) = false -> ~ escapes cc x -> qn k s t -> qn k (x :: s) (x :: t)
| qn_escaped k x y s t : escapes cc x -> qn k s t -> qn k (x :: y :: s) (y :: t)
| qn_start k x s t : starts cc x -> qn (S k) s t -> qn k (x :: s) (x :: t)
| qn_end k x s t : ends cc x -> qn k s t -> qn (S k) (x :: s) (x :: t).

Lemma quoted_qn s t : quoted s t -> forall k s' t', qn k s' t' -> qn k (s ++ s') (t ++ t').
Proof.
  induction 1; intros k s' t' H'; cbn.
  - exact H'.
  - apply qn_plain; auto.
  - apply qn_escaped; auto.
  - rewrite <- !app_assoc. cbn. apply qn_start; auto.
    apply IHquoted1. apply qn_end; auto.
Qed.

(** Opening [k] nests. *)
Lemma qn_split k s t : qn (S k) s t ->
  exists s1 t1 y s2 t2, quoted s1 t1 /\ ends cc y /\ qn k s2 t2 /\
                        s = s1 ++ y :: s2 /\ t = t1 ++ y :: t2.
Proof.
  intros H. remember (length s) as n eqn:E. revert k s t E H.
  induction n as [n IH] using lt_wf_ind. intros k s t E H. subst n.
  inversion H as [|k' x s' t' h1 h2 h3|k' x y s' t' h1 h3|k' x s' t' h1 h3|k' x s' t' h1 h3]; subst.
  - destruct (IH (length s') ltac:(cbn; lia) _ _ _ eq_refl h3) as (s1 & t1 & y & s2 & t2 & g1 & g2 & g3 & -> & ->).
    exists (x :: s1), (x :: t1), y, s2, t2. repeat split; auto. apply q_plain; auto.
  - destruct (IH (length s') ltac:(cbn; lia) _ _ _ eq_refl h3) as (s1 & t1 & z & s2 & t2 & g1 & g2 & g3 & -> & ->).
    exists (x :: y :: s1), (y :: t1), z, s2, t2. repeat split; auto. apply q_escaped; auto.
  - destruct (IH (length s') ltac:(cbn; lia) _ _ _ eq_refl h3) as (s1 & t1 & y & s2 & t2 & g1 & g2 & g3 & -> & ->).
    destruct (IH (length s2) ltac:(cbn; rewrite app_length; cbn; lia) _ _ _ eq_refl g3) as (s3 & t3 & z & s4 & t4 & g4 & g5 & g6 & -> & ->).
    exists (x :: s1 ++ y :: s3), (x :: t1 ++ y :: t3), z, s4, t4.
    repeat split; auto; [apply q_nest; auto| |]; cbn; rewrite <- !app_assoc; reflexivity.
  - exists [], [], x, s', t'. repeat split; auto. constructor.
Qed.

Lemma qn_quoted s t : qn 0 s t -> quoted s t.
Proof.
  intros H. remember (length s) as n eqn:E. revert s t E H.
  induction n as [n IH] using lt_wf_ind. intros s t E H. subst n.
  inversion H as [|k' x s' t' h1 h2 h3|k' x y s' t' h1 h3|k' x s' t' h1 h3|]; subst.
  - constructor.
  - apply q_plain; auto. eapply IH; [|reflexivity|auto]. cbn; lia.
  - apply q_escaped; auto. eapply IH; [|reflexivity|auto]. cbn; lia.
  - destruct (qn_split h3) as (s1 & t1 & y & s2 & t2 & g1 & g2 & g3 & -> & ->).
    apply q_nest; auto. eapply IH; [|reflexivity|auto]. cbn. rewrite app_length; cbn; lia.
Qed.

Lemma qn_iff s t : qn 0 s t <-> quoted s t.
Proof.
  split; [apply qn_quoted|]. intros H.
  rewrite <- (app_nil_r s), <- (app_nil_r t). eapply quoted_qn; eauto. constructor.
Qed.

(** Texts. *)
Lemma raw_app stop s t s' t' : raw stop s t -> raw stop s' t' -> raw stop (s ++ s') (t ++ t').
Proof. induction 1; cbn; auto; constructor; auto. Qed.

Lemma raw_nonempty stop s t : raw stop s t -> s <> [] -> t <> [].
Proof. destruct 1; congruence. Qed.

(** Sequences. *)
Lemma forms_app eof b w s1 ds1 w1 b1 s2 ds2 w2 b2 :
  forms false b w s1 ds1 w1 b1 -> forms eof b1 w1 s2 ds2 w2 b2 ->
  forms eof b w (s1 ++ s2) (ds1 ++ ds2) w2 b2.
Proof.
  intros H. remember false as e eqn:E. revert E. induction H; intros E H2; cbn.
  - exact H2.
  - rewrite <- app_assoc. apply f_text; auto.
  - discriminate.
  - rewrite <- app_assoc. eapply f_nest; eauto.
  - rewrite <- app_assoc. eapply f_removed; eauto.
Qed.

Lemma forms_eof eof b w s ds w' b' : forms false b w s ds w' b' -> forms eof b w s ds w' b'.
Proof.
  intros H. rewrite <- (app_nil_r s), <- (app_nil_r ds).
  eapply forms_app; [exact H|constructor].
Qed.

Lemma nest_cons w s r w' : nest w s r w' -> exists x s', s = x :: s' /\ starts cc x.
Proof. destruct 1; eauto. Qed.

Lemma nest_last w s r w' : nest w s r w' -> exists s' y, s = s' ++ [y] /\ ends cc y.
Proof.
  destruct 1.
  - exists (x :: l), y. auto.
  - exists (x :: l ++ h ++ sp ++ body), y. cbn. rewrite <- !app_assoc. auto.
  - exists (x :: l ++ h ++ sp ++ body), y. cbn. rewrite <- !app_assoc. auto.
  - exists (x :: l ++ h ++ sp ++ body), y. cbn. rewrite <- !app_assoc. auto.
Qed.

(** A sequence not beginning with a text may follow a text. *)
Definition text_cannot_start (s : source) : Prop :=
  match s with [] => True | x :: _ => delimiter cc (it_ch x) = true end.

Lemma forms_after_text eof w s ds w' b' :
  forms eof false w s ds w' b' -> text_cannot_start s -> s <> [] ->
  forms eof true w s ds w' b'.
Proof.
  intros H Hs Hn. inversion H; subst.
  - congruence.
  - exfalso. match goal with H : raw _ _ _ |- _ => destruct H end; cbn in Hs; try congruence.
    unfold escapes, delimiter in *. destruct (is_nest_start cc (it_ch x)) eqn:E1.
    + destruct (dc_start DC _ E1) as (_ & ? & _). congruence.
    + cbn in Hs. destruct (dc_end DC _ Hs). congruence.
  - exfalso. unfold escapes in *.
    assert (K : forall c, delimiter cc c = true -> is_nest_escape cc c = false).
    { intros c Hc. unfold delimiter in Hc. apply orb_true_iff in Hc.
      destruct Hc as [Hc|Hc]; [apply (dc_start DC _ Hc)|apply (dc_end DC _ Hc)]. }
    match goal with H : raw _ _ _ |- _ => destruct H end; cbn in Hs;
      try (specialize (K _ Hs); unfold escapes in *); congruence.
  - eapply f_nest; eauto.
  - eapply f_removed; eauto.
Qed.

Lemma raw_hd_not_end s t :
  raw (delimiter cc) s t -> match s with [] => True | z :: _ => ~ ends cc z end.
Proof.
  intros [|z ? ? Hz|z ? ? ? Hz]; auto; intros E; unfold ends, escapes, delimiter in *.
  - rewrite E, orb_true_r in Hz. discriminate.
  - destruct (dc_end DC _ E). congruence.
Qed.

Lemma forms_hd_not_end eof b w s ds w' b' : forms eof b w s ds w' b' ->
  match s with [] => True | z :: _ => ~ ends cc z end.
Proof.
  assert (NS : forall z : item Pos, starts cc z -> ~ ends cc z).
  { intros z Hz E. unfold starts, ends in *. destruct (dc_start DC _ Hz). congruence. }
  induction 1; auto.
  - destruct s as [|z s]; [congruence|]. exact (raw_hd_not_end H0).
  - destruct s as [|z s]; cbn.
    + intros E. unfold ends, escapes in *. destruct (dc_end DC _ E). congruence.
    + exact (raw_hd_not_end H).
  - destruct (nest_cons H) as (z & s1 & -> & Hz). cbn. auto.
  - destruct (nest_cons H) as (z & s1 & -> & Hz). cbn. auto.
Qed.

(** Balance. *)
Lemma delimiter_escape c : is_nest_escape cc c = true -> delimiter cc c = false.
Proof.
  intros H. unfold delimiter. destruct (is_nest_start cc c) eqn:E1.
  - destruct (dc_start DC _ E1) as (_ & ? & _). congruence.
  - destruct (is_nest_end cc c) eqn:E2; auto. destruct (dc_end DC _ E2). congruence.
Qed.

Lemma scan_escaped d (x y : item Pos) s : escapes cc x -> scn false d (x :: y :: s) = scn false d s.
Proof. intros H. cbn. unfold escapes in H. rewrite H. reflexivity. Qed.

Lemma scan_dangling d (x : item Pos) : escapes cc x -> scn false d [x] = scn false d [].
Proof. intros H. cbn. unfold escapes in H. rewrite H. reflexivity. Qed.

Lemma scan_plain d x s : delimiter cc (it_ch x) = false -> ~ escapes cc x ->
  scn false d (x :: s) = scn false d s.
Proof.
  intros H1 H2. cbn. unfold escapes in H2. apply not_true_is_false in H2. rewrite H2.
  unfold delimiter in H1. apply orb_false_iff in H1. destruct H1 as [-> ->]. reflexivity.
Qed.

Lemma scan_start d x s : starts cc x -> scn false d (x :: s) = scn false (d + 1) s.
Proof.
  intros H. cbn. unfold starts in H. destruct (dc_start DC _ H) as (_ & -> & _).
  rewrite H. reflexivity.
Qed.

Lemma scan_end d x s : ends cc x -> (0 < d)%N -> scn false d (x :: s) = scn false (d - 1) s.
Proof.
  intros H Hd. cbn. unfold ends in H. destruct (dc_end DC _ H) as (-> & _).
  destruct (is_nest_start cc (it_ch x)) eqn:E.
  { destruct (dc_start DC _ E) as (? & _). congruence. }
  rewrite H. destruct (d =? 0)%N eqn:Z; [apply N.eqb_eq in Z; lia|reflexivity].
Qed.

Lemma scan_unmatched (x : item Pos) s : ends cc x -> scn false 0 (x :: s) = Unmatched (it_pos x).
Proof.
  intros H. cbn. unfold ends in H. destruct (dc_end DC _ H) as (-> & _).
  destruct (is_nest_start cc (it_ch x)) eqn:E.
  { destruct (dc_start DC _ E) as (? & _). congruence. }
  rewrite H. reflexivity.
Qed.

Lemma scan_white d x s : white cc x -> scn false d (x :: s) = scn false d s.
Proof.
  intros H. unfold white in H. apply scan_plain.
  - unfold delimiter. destruct (is_nest_start cc (it_ch x)) eqn:E1.
    + destruct (dc_start DC _ E1) as (_ & _ & ?). congruence.
    + destruct (is_nest_end cc (it_ch x)) eqn:E2; auto. destruct (dc_end DC _ E2). congruence.
  - intros E. pose proof (dc_escape DC _ E). congruence.
Qed.

Lemma scan_raw stop s t d r :
  (forall c, stop c = false -> delimiter cc c = false) ->
  raw stop s t -> scn false d (s ++ r) = scn false d r.
Proof.
  intros Hs. induction 1; cbn [app]; auto.
  - rewrite scan_plain; auto.
  - rewrite scan_escaped; auto.
Qed.

Lemma operator_delimiter_delimiter c : operator_delimiter cc c = false -> delimiter cc c = false.
Proof. unfold operator_delimiter. intros H. apply orb_false_iff in H. tauto. Qed.

Lemma scan_quoted s t : quoted s t -> forall d r, scn false d (s ++ r) = scn false d r.
Proof.
  induction 1; intros d r; cbn [app]; auto.
  - rewrite scan_plain; auto.
  - rewrite scan_escaped; auto.
  - rewrite scan_start; auto. rewrite <- app_assoc. cbn [app]. rewrite IHquoted1.
    rewrite scan_end; auto; [|lia]. rewrite IHquoted2. f_equal. lia.
Qed.

Lemma scan_sep is_text sp body d r : sep cc is_text sp body ->
  scn false d (sp ++ r) = scn false d r.
Proof.
  intros [(x & -> & H)|(-> & _)]; cbn [app]; auto. apply scan_white; auto.
Qed.

Lemma scan_grammar :
  (forall eof b w s ds w' b', forms eof b w s ds w' b' ->
     forall d r, (eof = true -> r = []) -> scn false d (s ++ r) = scn false d r) /\
  (forall w s o w', nest w s o w' -> forall d r, scn false d (s ++ r) = scn false d r) /\
  (forall w s w', lead w s w' -> forall d r, scn false d (s ++ r) = scn false d r) /\
  (forall w s dd tx w', head w s dd tx w' -> forall d r, scn false d (s ++ r) = scn false d r).
Proof.
  apply grammar_mind.
  - auto.
  - intros eof w s t s' ds w' b' _ Hr _ IH d r He. rewrite <- app_assoc.
    erewrite scan_raw by eauto. auto.
  - intros w s t x Hr Hx d r He. rewrite (He eq_refl), app_nil_r.
    erewrite scan_raw by eauto. apply scan_dangling; auto.
  - intros eof b w s d0 w1 s' ds w' b' _ IH1 _ IH2 d r He. rewrite <- app_assoc, IH1. auto.
  - intros eof b w s w1 s' ds w' b' _ IH1 _ IH2 d r He. rewrite <- app_assoc, IH1. auto.
  - intros w x l y w' Hx _ IH Hy d r. cbn [app]. rewrite scan_start by auto.
    rewrite <- app_assoc, IH. cbn [app]. rewrite scan_end by (auto; lia). f_equal; lia.
  - intros w x l w1 h dd tx w2 sp body ds w' b' y Hx _ IH1 _ IH2 _ Hsep _ IH3 Hy d r.
    cbn [app]. rewrite scan_start by auto. rewrite <- !app_assoc, IH1, IH2.
    erewrite scan_sep by eauto. rewrite IH3 by discriminate.
    cbn [app]. rewrite scan_end by (auto; lia). f_equal; lia.
  - intros w x l w1 h dd tx w2 f sp body ds w3 b' y o w' Hx _ IH1 _ IH2 _ Hsep _ IH3 Hy _ d r.
    cbn [app]. rewrite scan_start by auto. rewrite <- !app_assoc, IH1, IH2.
    erewrite scan_sep by eauto. rewrite IH3 by discriminate.
    cbn [app]. rewrite scan_end by (auto; lia). f_equal; lia.
  - intros w x l w1 h dd tx w2 f sp body t y o w' Hx _ IH1 _ IH2 _ Hsep Hq Hy _ d r.
    cbn [app]. rewrite scan_start by auto. rewrite <- !app_assoc, IH1, IH2.
    erewrite scan_sep by eauto. rewrite (scan_quoted Hq).
    cbn [app]. rewrite scan_end by (auto; lia). f_equal; lia.
  - auto.
  - intros w x s w' Hx _ IH d r. cbn [app]. rewrite scan_white; auto.
  - intros w s w1 s' w' _ IH1 _ IH2 d r. rewrite <- app_assoc, IH1. auto.
  - intros w s t _ Hr d r. eapply scan_raw; [|exact Hr]. apply operator_delimiter_delimiter.
  - auto.
Qed.

End Facts.
