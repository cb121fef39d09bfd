(** Without bindings: results are canonical, and no character is lost or
    invented. *)
From Coq Require Import List NArith Bool Lia Arith Wf_nat.
From Verif.Model Require Import Prelude Parser Iter.
From Verif.Spec Require Import Grammar Canonical Balance Kept AbsStream.
From Verif.Proofs Require Import GrammarFacts AbsParse Complete AbsIter.
Import ListNotations.
Set Implicit Arguments.

Section Facts.
Context {W ET Pos CE : Type} (cc : classifier) (bnd : bindings W (list (item Pos)) ET Pos CE).
Context (DC : disjoint_classes cc) (NB : forall d, bnd d = None).
Local Notation source := (list (item Pos)).
Local Notation text := (list (item Pos)).
Local Notation forms := (forms cc bnd).
Local Notation nest := (nest cc bnd).
Local Notation head := (head cc bnd).
Local Notation lead := (lead cc bnd).

Lemma canon_input_cons b (d : datum text ET) ds : (forall ds, canon_seq false ds -> canon_seq b (d :: ds)) ->
  canon_input false ds -> canon_input b (d :: ds).
Proof.
  intros H [H'|(ds' & -> & H')]; [left; auto|]. right. exists (d :: ds'). split; [reflexivity|].
  intros t Ht. cbn. auto.
Qed.

Lemma canon_grammar :
  (forall eof b w s ds w' b', forms eof b w s ds w' b' ->
     (eof = false -> canon_seq b ds) /\ canon_input b ds) /\
  (forall w s o w', nest w s o w' -> exists d, o = inl (Some d) /\ canon_nest d) /\
  (forall w s w', lead w s w' -> True) /\
  (forall w s d tx w', head w s d tx w' -> canon_operator d).
Proof.
  apply grammar_mind.
  - intros. split; [intros _|left]; constructor.
  - intros eof w s t s' ds w' b' Hs Hr _ [IH1 IH2].
    assert (Ht : t <> []) by (eapply raw_nonempty; eauto).
    split; [intros He; constructor; auto|].
    destruct IH2 as [H'|(ds' & -> & H')]; [left; constructor; auto|].
    right. exists (DText t :: ds'). split; [reflexivity|]. intros u Hu. cbn. constructor; auto.
  - intros w s t x Hr Hx. split; [discriminate|]. destruct t as [|y t].
    + right. exists []. split; [reflexivity|]. intros t Ht. constructor; [exact Ht|constructor].
    + left. constructor; [discriminate|constructor].
  - intros eof b w s d w1 s' ds w' b' _ (d' & E & Hd) _ [IH1 IH2]. injection E as <-.
    split; [intros He; constructor; auto|]. apply canon_input_cons; [|exact IH2].
    intros. constructor; auto.
  - intros eof b w s w1 s' ds w' b' _ (d' & E & _). discriminate.
  - intros. exists DEmptyNest. split; [reflexivity|constructor].
  - intros w x l w1 h d tx w2 sp body ds w' b' y _ _ _ _ Hh _ _ _ [Hb _] _.
    exists (DComb d (dlist ds)). split; [reflexivity|]. apply cn_comb; auto.
  - intros w x l w1 h d tx w2 f sp body ds w3 b' y r w' _ _ _ _ _ Hb. rewrite NB in Hb. discriminate.
  - intros w x l w1 h d tx w2 f sp body t y r w' _ _ _ _ _ Hb. rewrite NB in Hb. discriminate.
  - auto.
  - auto.
  - auto.
  - intros w s t Hs Hr. apply co_text. eapply raw_nonempty; eauto.
  - intros w s d w' _ (d' & E & Hd). injection E as <-. apply co_nest. exact Hd.
Qed.

Context (umax : N).
Local Notation i_collect := (iter_collect umax cc (@abs_stream W Pos) abs_concat (@abs_alloc W ET Pos) bnd).

Lemma items_canon : forall n f s w items s',
  i_collect n f (ast s [] 0 w) = (Ok items, s') -> canon_items items.
Proof.
  intros n f s w items. remember (length items) as k eqn:Ek.
  revert n s w items Ek. induction k as [k IH] using lt_wf_ind. intros n s w items -> s' E.
  destruct (items_mean umax bnd DC _ _ _ _ E) as [(ds & w' & b & -> & _ & Hf)|
    (ds & e & u & r & w1 & b & rest & r1 & p1 & w2 & n' & -> & -> & Hf & _ & (r' & p' & w' & Es & He) & Er)].
  - apply ci_end. exact (proj2 (proj1 canon_grammar _ _ _ _ _ _ _ Hf)).
  - assert (Hds : canon_seq false ds) by exact (proj1 (proj1 canon_grammar _ _ _ _ _ _ _ Hf) eq_refl).
    injection Es as -> -> ->.
    destruct He as [(-> & -> & _)|[(_ & -> & u' & x & ds' & b' & _ & _ & _ & _ & ->)|(_ & u' & s1 & w3 & _ & Hn & _)]].
    + destruct (i_collect_eof _ _ _ _ _ _ _ Er) as [-> _]. apply ci_missing. exact Hds.
    + apply ci_unbalanced; [exact Hds|]. eapply IH; [|reflexivity|exact Er].
      unfold parse_item. rewrite app_length. cbn [length]. lia.
    + destruct (fails_nest Hn) as (? & ? & ? & _ & Hn' & _).
      destruct (proj1 (proj2 canon_grammar) _ _ _ _ Hn') as (d & E' & _). discriminate.
Qed.

(** ** Characters kept *)
Local Notation rd := (@read_all Pos cc).
Local Notation R := Reader.

Lemma read_app r a b : rd r (a ++ b) =
  let (l1, r1) := rd r a in let (l2, r2) := rd r1 b in (l1 ++ l2, r2).
Proof.
  revert r. induction a as [|x a IH]; intros r; cbn.
  - destruct (rd r b). reflexivity.
  - destruct (read cc r x) as [k r1]. rewrite IH. destruct (rd r1 a) as [l1 r2], (rd r2 b) as [l2 r3].
    destruct k; reflexivity.
Qed.

Lemma read_escaped o p x y s : escapes cc x ->
  rd (R o p false) (x :: y :: s) = let (l, r) := rd (R o (after_char p) false) s in (y :: l, r).
Proof.
  unfold escapes. intros Hx. cbn [read_all]. unfold read at 1. cbn [rd_esc rd_outer rd_at]. rewrite Hx.
  cbn [read rd_esc rd_outer rd_at]. destruct (rd _ s). reflexivity.
Qed.

Lemma read_plain o p x s : delimiter cc (it_ch x) = false -> ~ escapes cc x ->
  (is_whitespace cc (it_ch x) = false \/ p = InForms) ->
  rd (R o p false) (x :: s) = let (l, r) := rd (R o (after_char p) false) s in (x :: l, r).
Proof.
  unfold escapes, delimiter. intros Hd He Hw. apply orb_false_elim in Hd. destruct Hd as [H1 H2].
  apply not_true_is_false in He. cbn [read_all]. unfold read. cbn [rd_esc rd_outer rd_at].
  rewrite He, H1, H2. destruct Hw as [-> | ->]; [destruct (rd _ s); reflexivity|].
  destruct (is_whitespace cc (it_ch x)); cbn; destruct (rd _ s); reflexivity.
Qed.

Lemma read_start o p x s : starts cc x ->
  rd (R o p false) (x :: s) = rd (R (after_nest p :: o) BeforeOperator false) s.
Proof.
  intros H. destruct (starts_facts DC H) as (H1 & H2 & H3 & H4).
  cbn [read_all]. unfold read. cbn [rd_esc rd_outer rd_at]. rewrite H3, H1. destruct (rd _ s). reflexivity.
Qed.

Lemma read_end o q p x s : ends cc x -> rd (R (q :: o) p false) (x :: s) = rd (R o q false) s.
Proof.
  intros H. destruct (ends_facts DC H) as (H1 & H2 & H3 & H4).
  cbn [read_all]. unfold read. cbn [rd_esc rd_outer rd_at]. rewrite H3, H1, H2. destruct (rd _ s). reflexivity.
Qed.

Lemma read_white o p x s : white cc x -> p <> InForms ->
  rd (R o p false) (x :: s) = rd (R o (match p with BeforeOperator => BeforeOperator | _ => InForms end) false) s.
Proof.
  unfold white. intros H Hp. cbn [read_all]. unfold read. cbn [rd_esc rd_outer rd_at].
  assert (E : is_nest_escape cc (it_ch x) = false).
  { destruct (is_nest_escape cc (it_ch x)) eqn:E; [|reflexivity]. pose proof (dc_escape DC _ E). congruence. }
  assert (E1 : is_nest_start cc (it_ch x) = false).
  { destruct (is_nest_start cc (it_ch x)) eqn:E1; [|reflexivity].
    destruct (dc_start DC _ E1) as (_ & _ & ?). congruence. }
  assert (E2 : is_nest_end cc (it_ch x) = false).
  { destruct (is_nest_end cc (it_ch x)) eqn:E2; [|reflexivity].
    destruct (dc_end DC _ E2) as (_ & ?). congruence. }
  rewrite E, E1, E2, H. destruct p; try congruence; destruct (rd _ s); reflexivity.
Qed.

Lemma after_char_idem p : after_char (after_char p) = after_char p.
Proof. destruct p; reflexivity. Qed.

Lemma read_raw o s t : raw cc (delimiter cc) s t ->
  rd (R o InForms false) s = (t, R o InForms false).
Proof.
  induction 1 as [|x s t Hd He _ IH|x y s t He _ IH]; [reflexivity| |].
  - rewrite read_plain by auto. cbn [after_char]. rewrite IH. reflexivity.
  - rewrite read_escaped by auto. cbn [after_char]. rewrite IH. reflexivity.
Qed.

Lemma read_operator o s t : raw cc (operator_delimiter cc) s t -> forall p, p = BeforeOperator \/ p = InOperator ->
  rd (R o p false) s = (t, R o (if s then p else InOperator) false).
Proof.
  induction 1 as [|x s t Hd He _ IH|x y s t He _ IH]; intros p Hp; [destruct Hp as [-> | ->]; reflexivity| |].
  - unfold operator_delimiter in Hd. apply orb_false_elim in Hd. destruct Hd as [Hw Hd].
    rewrite read_plain by auto. replace (after_char p) with InOperator by (destruct Hp as [-> | ->]; reflexivity).
    rewrite (IH InOperator) by auto. destruct s; reflexivity.
  - rewrite read_escaped by auto. replace (after_char p) with InOperator by (destruct Hp as [-> | ->]; reflexivity).
    rewrite (IH InOperator) by auto. destruct s; reflexivity.
Qed.

Lemma texts_dlist (ds : list (datum text ET)) : texts_of (dlist ds) = flat_map (@texts_of _ _) ds.
Proof. induction ds as [|d ds IH]; cbn; [reflexivity|]. f_equal. exact IH. Qed.

Lemma kept_grammar :
  (forall eof b w s ds w' b', forms eof b w s ds w' b' -> forall o,
     exists e, rd (R o InForms false) s = (flat_map (@texts_of _ _) ds, R o InForms e) /\ (eof = false -> e = false)) /\
  (forall w s r w', nest w s r w' -> forall d, r = inl (Some d) -> forall o p,
     rd (R o p false) s = (texts_of d, R o (after_nest p) false)) /\
  (forall w s w', lead w s w' -> forall o, rd (R o BeforeOperator false) s = ([], R o BeforeOperator false)) /\
  (forall w s d tx w', head w s d tx w' -> forall o,
     rd (R o BeforeOperator false) s = (texts_of d, R o (if tx then InOperator else AfterOperator) false)).
Proof.
  apply grammar_mind.
  - intros. exists false. auto.
  - intros eof w s t s' ds w' b' Hs Hr _ IH o. rewrite read_app, (read_raw o Hr).
    destruct (IH o) as (e & -> & He). exists e. auto.
  - intros w s t x Hr Hx o. exists true. split; [|discriminate]. rewrite read_app, (read_raw o Hr).
    cbn [read_all]. unfold read. cbn [rd_esc rd_outer rd_at]. rewrite Hx. cbn. rewrite app_nil_r. reflexivity.
  - intros eof b w s d w1 s' ds w' b' _ IHn _ IH o. rewrite read_app, (IHn d eq_refl).
    destruct (IH o) as (e & He & Hee). cbn [after_nest]. rewrite He. exists e. auto.
  - intros eof b w s w1 s' ds w' b' Hn. 
    destruct (proj1 (proj2 canon_grammar) _ _ _ _ Hn) as (d & E & _). discriminate.
  - intros w x l y w' Hx _ IHl Hy d E o p. injection E as <-.
    rewrite read_start by exact Hx. rewrite read_app, IHl, read_end by exact Hy. reflexivity.
  - intros w x l w1 h d tx w2 sp body ds w' b' y Hx _ IHl _ IHh _ Hsp _ IHb Hy d' E o p. injection E as <-.
    rewrite read_start by exact Hx. rewrite read_app, IHl, read_app, IHh.
    destruct (IHb (after_nest p :: o)) as (e & Hb & He). specialize (He eq_refl). subst e.
    assert (Hgo : forall q, (q = InForms) ->
      rd (R (after_nest p :: o) q false) (body ++ [y]) = (flat_map (@texts_of _ _) ds, R o (after_nest p) false)).
    { intros q ->. rewrite read_app, Hb, read_end by exact Hy. cbn. rewrite app_nil_r. reflexivity. }
    destruct Hsp as [(z & -> & Hz)|[-> Hm]].
    + cbn [app]. rewrite read_white; [|exact Hz|destruct tx; discriminate].
      replace (match (if tx then InOperator else AfterOperator) with BeforeOperator => BeforeOperator | _ => InForms end)
        with InForms by (destruct tx; reflexivity).
      rewrite Hgo by reflexivity. cbn [texts_of]. rewrite texts_dlist. reflexivity.
    + cbn [app].
      assert (Hb2 : rd (R (after_nest p :: o) (if tx then InOperator else AfterOperator) false) (body ++ [y])
                    = (flat_map (@texts_of _ _) ds, R o (after_nest p) false)).
      { destruct body as [|z body].
        - cbn [app]. rewrite read_end by exact Hy. cbn in Hb. injection Hb as Hb. rewrite <- Hb. reflexivity.
        - rewrite <- (Hgo InForms eq_refl). cbn [app]. destruct tx.
          + rewrite !read_start by exact Hm. reflexivity.
          + cbn [read_all]. unfold read. cbn [rd_esc rd_outer rd_at after_char after_nest].
            unfold white in Hm. apply not_true_is_false in Hm. rewrite Hm.
            destruct (is_nest_escape cc (it_ch z)) eqn:Ez; [|reflexivity].
            destruct body as [|z2 body].
            * cbn [app read_all]. unfold read. cbn. reflexivity.
            * cbn [app read_all]. unfold read. cbn. reflexivity. }
      rewrite Hb2. cbn [texts_of]. rewrite texts_dlist. reflexivity.
  - intros w x l w1 h d tx w2 f sp body ds w3 b' y r w' _ _ _ _ _ Hb. rewrite NB in Hb. discriminate.
  - intros w x l w1 h d tx w2 f sp body t y r w' _ _ _ _ _ Hb. rewrite NB in Hb. discriminate.
  - reflexivity.
  - intros w x s w' Hx _ IH o. rewrite read_white; [|exact Hx|discriminate]. apply IH.
  - intros w s w1 s' w' Hn. destruct (proj1 (proj2 canon_grammar) _ _ _ _ Hn) as (d & E & _). discriminate.
  - intros w s t Hs Hr o. rewrite (read_operator o Hr) by auto. destruct s; [congruence|reflexivity].
  - intros w s d w' _ IH o. rewrite (IH d eq_refl). reflexivity.
Qed.

Theorem kept_input w s ds w' : input cc bnd w s ds w' -> flat_map (@texts_of _ _) ds = kept cc s.
Proof.
  intros [b' H]. destruct (proj1 kept_grammar _ _ _ _ _ _ _ H []) as (e & E & _).
  unfold kept. rewrite E. reflexivity.
Qed.
End Facts.
