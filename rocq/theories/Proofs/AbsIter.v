(** Whole iterations over the abstract instance: what the sequence of items
    means. *)
From Coq Require Import List Arith NArith Bool Lia.
From Verif.Model Require Import Prelude Parser Iter.
From Verif.Spec Require Import Grammar Balance AbsStream Contract.
From Verif.Proofs Require Import Wp GrammarFacts AbsParse FuelMono Safety Refine Complete.
Import ListNotations.
Set Implicit Arguments.
Local Ltac splits := repeat match goal with |- _ /\ _ => split end.

(** The abstract instance obeys the contracts. *)
Section AbsContract.
Context {W ET Pos : Type}.
Definition abs_Rs (s : @abs_state Pos) (r p : list (item Pos)) : Prop := s = (r, p).

Lemma abs_stream_contract : stream_contract False (fun w : W => w) (@abs_stream W Pos) abs_Rs eq.
Proof.
  split; unfold abs_Rs; cbn.
  - intros s r p ->. eauto.
  - intros s r p ->. cbn. eauto.
  - intros s a r p ->. cbn. left. eauto.
  - intros s a r p ->. cbn. left. do 3 eexists. repeat split; reflexivity.
Qed.

Lemma abs_concat_contract : concat_contract False (fun w : W => w) (@abs_concat W Pos) eq.
Proof. split; cbn; [reflexivity|]. intros t1 t2 l1 l2 a -> ->. left. eauto. Qed.

Lemma abs_alloc_contract : alloc_contract False (fun w : W => w) (@abs_alloc W ET Pos).
Proof. intros d a. left. cbn. eauto. Qed.
End AbsContract.

Section AbsIter.
Context {W ET Pos CE : Type}.
Local Notation source := (list (item Pos)).
Local Notation text := (list (item Pos)).
Context (umax : N) (cc : classifier) (bnd : bindings W text ET Pos CE).
Context (DC : disjoint_classes cc).
Local Notation forms := (forms cc bnd).
Local Notation nest := (nest cc bnd).
Local Notation lead := (lead cc bnd).
Local Notation head := (head cc bnd).
Local Notation input := (input cc bnd).
Local Notation raw := (@raw Pos cc).
Local Notation quoted := (@quoted Pos cc).
Local Notation so := (@abs_stream W Pos).
Local Notation co := (@abs_concat W Pos).
Local Notation ao := (@abs_alloc W ET Pos).
Local Notation st := (pstate (@abs_state Pos) W).
Local Notation i_next := (iter_next umax cc so co ao bnd).
Local Notation i_collect := (iter_collect umax cc so co ao bnd).
Local Notation scn := (@scan Pos cc).
Local Notation esc := (@esc_after Pos cc).
Local Notation N_len r := (N.of_nat (length r)).

(** Escaping and the grammar. *)
Lemma esc_app e a b : esc e (a ++ b) = esc (esc e a) b.
Proof. revert e. induction a as [|x a IH]; intros e; cbn; auto. Qed.

Lemma esc_raw stop s t : raw stop s t -> esc false s = false.
Proof.
  induction 1 as [|x s t _ Hx _ IH|x y s t Hx _ IH]; cbn; auto; unfold escapes in Hx.
  - apply not_true_is_false in Hx. rewrite Hx. exact IH.
  - rewrite Hx. exact IH.
Qed.

Lemma esc_quoted s t : quoted s t -> esc false s = false.
Proof.
  induction 1 as [|x s t _ Hx _ IH|x y s t Hx _ IH|a s1 t1 b s2 t2 Ha _ IH1 Hb _ IH2]; cbn; auto.
  - unfold escapes in Hx. apply not_true_is_false in Hx. rewrite Hx. exact IH.
  - unfold escapes in Hx. rewrite Hx. exact IH.
  - destruct (starts_facts DC Ha) as (_ & _ & -> & _). rewrite esc_app, IH1. cbn.
    destruct (ends_facts DC Hb) as (_ & _ & -> & _). exact IH2.
Qed.

Lemma esc_white (x : item Pos) : white cc x -> is_nest_escape cc (it_ch x) = false.
Proof.
  intros H. destruct (is_nest_escape cc (it_ch x)) eqn:E; auto. apply (dc_escape DC) in E.
  unfold white in H. congruence.
Qed.

Lemma esc_sep tx sp body : sep (Pos:=Pos) cc tx sp body -> esc false sp = false.
Proof. intros [(x & -> & H)|(-> & _)]; cbn; auto. apply esc_white, H. Qed.

Lemma esc_grammar :
  (forall eof b w s ds w' b', forms eof b w s ds w' b' -> eof = false -> esc false s = false) /\
  (forall w s o w', nest w s o w' -> esc false s = false) /\
  (forall w s w', lead w s w' -> esc false s = false) /\
  (forall w s dd tx w', head w s dd tx w' -> esc false s = false).
Proof.
  apply grammar_mind; try (intros; cbn; auto; fail).
  - intros eof w s t s' ds w' b' _ Hr _ IH E. rewrite esc_app, (esc_raw Hr). auto.
  - discriminate.
  - intros eof b w s d w1 s' ds w' b' _ IH1 _ IH2 E. rewrite esc_app, IH1. auto.
  - intros eof b w s w1 s' ds w' b' _ IH1 _ IH2 E. rewrite esc_app, IH1. auto.
  - intros w x l y w' Hx _ IH Hy. cbn. destruct (starts_facts DC Hx) as (_ & _ & -> & _).
    rewrite esc_app, IH. cbn. apply (ends_facts DC Hy).
  - intros w x l w1 h dd tx w2 sp body ds w' b' y Hx _ IH1 _ IH2 _ Hsep _ IH3 Hy. cbn.
    destruct (starts_facts DC Hx) as (_ & _ & -> & _).
    rewrite !esc_app, IH1, IH2, (esc_sep Hsep), IH3 by reflexivity. cbn. apply (ends_facts DC Hy).
  - intros w x l w1 h dd tx w2 f sp body ds w3 b' y o w' Hx _ IH1 _ IH2 _ Hsep _ IH3 Hy _. cbn.
    destruct (starts_facts DC Hx) as (_ & _ & -> & _).
    rewrite !esc_app, IH1, IH2, (esc_sep Hsep), IH3 by reflexivity. cbn. apply (ends_facts DC Hy).
  - intros w x l w1 h dd tx w2 f sp body t y o w' Hx _ IH1 _ IH2 _ Hsep Hq Hy _. cbn.
    destruct (starts_facts DC Hx) as (_ & _ & -> & _).
    rewrite !esc_app, IH1, IH2, (esc_sep Hsep), (esc_quoted Hq). cbn. apply (ends_facts DC Hy).
  - intros w x s w' Hx _ IH. cbn. rewrite esc_white by exact Hx. exact IH.
  - intros w s w1 s' w' _ IH1 _ IH2. rewrite esc_app, IH1. exact IH2.
  - intros w s t _ Hr. exact (esc_raw Hr).
Qed.

(** Without a dangling escape at the end, the end of input is not special. *)
Lemma forms_not_dangling b w s ds w' b' :
  forms true b w s ds w' b' -> esc false s = false -> forms false b w s ds w' b'.
Proof.
  intros H. remember true as e eqn:E. revert E.
  induction H as [|eof w s t s' ds w' b' Hn Hr _ IH|w s t x Hr Hx|
                  eof b w s d w1 s' ds w' b' Hns _ IH|eof b w s w1 s' ds w' b' Hns _ IH];
    intros E He; subst.
  - constructor.
  - rewrite esc_app, (esc_raw Hr) in He. constructor; auto.
  - rewrite esc_app, (esc_raw Hr) in He. cbn in He. unfold escapes in Hx. congruence.
  - rewrite esc_app, (proj1 (proj2 esc_grammar) _ _ _ _ Hns) in He. eapply f_nest; eauto.
  - rewrite esc_app, (proj1 (proj2 esc_grammar) _ _ _ _ Hns) in He. eapply f_removed; eauto.
Qed.

Lemma forms_dangling_last w s ds w' b' : forms false false w s ds w' b' -> esc false s = false.
Proof. intros H. eapply (proj1 esc_grammar); eauto. Qed.

(** One call of [next] at the end of input. *)
Lemma i_next_eof f p w : i_next f (ast [] p 0 w) = (OutOfFuel, ast [] p 0 w) \/
  i_next f (ast [] p 0 w) = (Ok None, ast [] p 0 w).
Proof. destruct f; [left|right]; reflexivity. Qed.

Lemma i_collect_eof n f p w items s' : i_collect n f (ast [] p 0 w) = (Ok items, s') ->
  items = [] /\ s' = ast [] p 0 w.
Proof.
  destruct n as [|n]; cbn [iter_collect]; [discriminate|].
  destruct (i_next_eof f p w) as [-> | ->]; [discriminate|]. intros E. injection E as <- <-. auto.
Qed.

(** The items up to the first error. *)
Lemma items_mean : forall n f s w items s', i_collect n f (ast s [] 0 w) = (Ok items, s') ->
  (exists ds w' b, items = map inl ds /\ s' = ast [] [] 0 w' /\ forms true false w s ds w' b) \/
  (exists ds e u r w1 b rest r1 p1 w2 n',
     items = map inl ds ++ inr e :: rest /\ s = u ++ r /\ forms false false w u ds w1 b /\
     (b = true -> text_stop cc Base 0 r) /\ err_means cc bnd Base 0 r w1 e (ast r1 p1 0 w2) /\
     i_collect n' f (ast r1 p1 0 w2) = (Ok rest, s')).
Proof.
  induction n as [|n IH]; intros f s w items s' E; cbn [iter_collect] in E; [discriminate|].
  pose proof (proj1 (parser_means umax bnd DC f) Base s 0%N w ltac:(discriminate) ltac:(discriminate)) as G.
  unfold wp in G. unfold iter_next, do_next in E.
  destruct (parse_next umax cc so co ao bnd f Base (ast s [] 0 w)) as [[[x|]|e| |] s1]; try discriminate;
    cbn in G.
  - destruct G as (u & r & w1 & -> & -> & _ & b & Hf & Hb).
    destruct (i_collect n f (ast r [] 0 w1)) as [[m|[]| |] u1] eqn:M; cbn in E; try discriminate.
    injection E as <- <-.
    destruct r as [|y r].
    + cbn in Hf. destruct (i_collect_eof _ _ _ _ M) as [-> ->]. left.
      exists [x], w1, b. rewrite app_nil_r. auto.
    + cbn in Hf. specialize (IH _ _ _ _ _ M).
      assert (J : forall eof u' ds' w' b', (u' <> [] \/ b = false) -> (exists r', y :: r = u' ++ r') ->
        forms eof false w1 u' ds' w' b' -> forms eof b w1 u' ds' w' b').
      { intros eof u' ds' w' b' Hu [r' Er] Hf'. destruct b; [|exact Hf'].
        destruct Hu as [Hu|]; [|discriminate].
        apply (forms_after_text DC); auto. destruct u' as [|z u']; [congruence|].
        injection Er as -> _. apply (Hb eq_refl). }
      destruct IH as [(ds & w' & b1 & -> & -> & Hf')|
        (ds & e & u' & r' & w1' & b1 & rest & r1 & p1 & w2 & n' & -> & Er & Hf' & Hb' & He & Hr)].
      * left. exists (x :: ds), w', b1. splits; auto.
        change (x :: ds) with ([x] ++ ds). eapply forms_app; [exact Hf|].
        apply J; [left; discriminate|exists []; rewrite app_nil_r; reflexivity|exact Hf'].
      * right. destruct u' as [|z u'].
        { destruct (forms_nil_inv Hf') as (-> & -> & ->).
          exists [x], e, u, (y :: r), w1, b, rest, r1, p1, w2, n'. cbn in Er. subst r'.
          splits; auto. }
        exists (x :: ds), e, (u ++ z :: u'), r', w1', b1, rest, r1, p1, w2, n'.
        rewrite Er, <- app_assoc. splits; auto.
        change (x :: ds) with ([x] ++ ds). eapply forms_app; [exact Hf|].
        apply J; [left; discriminate|exists r'; exact Er|exact Hf'].
  - destruct G as (u & r & w1 & -> & -> & [[_ ->]|[? _]] & Hf); [|lia].
    injection E as <- <-. left. exists [], w1, false. rewrite app_nil_r. splits; auto.
    apply forms_eof. exact Hf.
  - destruct G as (r1 & p1 & w2 & -> & He).
    destruct (i_collect n f (ast r1 p1 0 w2)) as [[m|[]| |] u1] eqn:M; cbn in E; try discriminate.
    injection E as <- <-. right.
    exists [], e, [], s, w, false, m, r1, p1, w2, n. splits; auto; [constructor|discriminate|].
    exists r1, p1, w2. auto.
Qed.

(** Enough fuel for a whole iteration. *)
Lemma i_collect_total s w : (N_len s <= umax)%N -> forall n f, length s < n -> 3 * length s + 3 <= f ->
  exists items s', i_collect n f (ast s [] 0 w) = (Ok items, s').
Proof.
  intros Hu n f Hn Hf.
  destruct (@iter_collect_safe (@abs_state Pos) W text ET Pos CE W umax cc so co ao bnd abs_Rs eq False (fun w => w)
    abs_stream_contract abs_concat_contract abs_alloc_contract n f (ast s [] 0 w) s Hn Hf Hu)
    as (l & s' & E & _); eauto.
  split; [reflexivity|]. exists []. split; [reflexivity|auto].
Qed.

Lemma i_collect_ev s w : (N_len s <= umax)%N ->
  forall o, ev (fun f => i_collect f f (ast s [] 0 w)) o ->
  forall n f, length s < n -> 3 * length s + 3 <= f -> i_collect n f (ast s [] 0 w) = o.
Proof.
  intros Hu o [f0 H] n f Hn Hf. destruct (i_collect_total s w Hu Hn Hf) as (items & s' & E).
  rewrite <- (H (f0 + n + f)) by lia. symmetry. apply iter_collect_fuel; [lia|lia|].
  rewrite E. discriminate.
Qed.

(** Completeness with explicit fuel. *)
Lemma input_parses w s ds w' : (N_len s <= umax)%N -> input w s ds w' ->
  forall n f, length s < n -> 3 * length s + 3 <= f ->
  i_collect n f (ast s [] 0 w) = (Ok (map inl ds), ast [] [] 0 w').
Proof.
  intros Hu [b H] n f Hn Hf. apply i_collect_ev; auto.
  destruct (proj1 (grammar_parses umax bnd DC) _ _ _ _ _ _ _ H 0%N []) as (_ & _ & G);
    [lia|reflexivity|auto|]. rewrite app_nil_r in G. apply G. reflexivity.
Qed.

(** Soundness. *)
Lemma parses_input n f w s ds s' : i_collect n f (ast s [] 0 w) = (Ok (map inl ds), s') ->
  exists w', s' = ast [] [] 0 w' /\ input w s ds w'.
Proof.
  intros E. destruct (items_mean _ _ _ _ E) as [(ds' & w' & b & Ed & -> & H)|
    (ds' & e & u & r & w1 & b & rest & r1 & p1 & w2 & n' & Ed & _)].
  - exists w'. split; auto. exists b.
    assert (ds = ds') as ->; [|exact H].
    revert ds' Ed H. clear. intros ds' Ed _. revert ds' Ed. induction ds as [|d ds IH]; intros [|d' ds'] E;
      cbn in E; try discriminate; auto. injection E as -> E. f_equal. auto.
  - exfalso. revert ds' Ed. clear. induction ds as [|d ds IH]; intros [|d' ds'] E; cbn in E; try discriminate.
    injection E as _ E. eauto.
Qed.

(** Errors and balance. *)
Definition first_error (items : list (@parse_item text ET Pos CE)) : option (error Pos CE) :=
  match find (@is_err text ET Pos CE) items with Some (inr e) => Some e | _ => None end.

Lemma first_error_ok ds : first_error (map inl ds) = None.
Proof. unfold first_error. induction ds; cbn; auto. Qed.

Lemma first_error_err ds e rest : first_error (map inl ds ++ inr e :: rest) = Some e.
Proof. unfold first_error. induction ds; cbn; auto. Qed.

(** No combiner ever fails. *)
Definition never_fails : Prop := forall d c, bnd d = Some c ->
  match c with
  | Operative f => forall d t w e w', f d t w <> (inr e, w')
  | Applicative f => forall d l w e w', f d l w <> (inr e, w')
  end.

Lemma nest_never_fails w s e w' : never_fails -> ~ nest w s (inr e) w'.
Proof.
  intros NF H. inversion H; subst.
  - match goal with H : bnd _ = Some _ |- _ => apply NF in H; cbn in H; eapply H; eauto end.
  - match goal with H : bnd _ = Some _ |- _ => apply NF in H; cbn in H; eapply H; eauto end.
Qed.

Theorem first_error_balance n f s w items s' : never_fails ->
  i_collect n f (ast s [] 0 w) = (Ok items, s') ->
  first_error items = match balance cc s with
                      | Balanced => None
                      | Unmatched p => Some (UnbalancedEndChar p)
                      | Unclosed => Some MissingEndChar
                      end.
Proof.
  intros NF E. destruct (items_mean _ _ _ _ E) as [(ds & w' & b & -> & -> & H)|
    (ds & e & u & r & w1 & b & rest & r1 & p1 & w2 & n' & -> & -> & Hf & Hb & He & _)].
  - rewrite first_error_ok. unfold balance. rewrite <- (app_nil_r s).
    rewrite (scan_forms DC 0 H) by auto. reflexivity.
  - rewrite first_error_err. unfold balance. rewrite (scan_forms DC 0 Hf) by discriminate.
    destruct He as (r' & p' & w'' & E' & [(-> & _ & -> & _)|[(_ & _ & u' & x & ds' & b' & -> & Hf' & _ & Hx & ->)|
      (_ & u' & s0 & w0 & -> & Hn & _)]]).
    + reflexivity.
    + rewrite (scan_forms DC 0 Hf') by discriminate. rewrite (scan_unmatched DC); auto.
    + exfalso. destruct (fails_nest Hn) as (? & ? & ? & _ & Hn' & _). eapply nest_never_fails; eauto.
Qed.

End AbsIter.
