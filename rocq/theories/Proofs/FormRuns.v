(** Forms and errors, for every lawful configuration. *)
From Coq Require Import List NArith Arith Bool Lia.
From Verif.Model Require Import Prelude Parser Iter.
From Verif.Spec Require Import Contract Grammar Balance AbsStream Trace Fails Run Lawful Outcome.
From Verif.Proofs Require Import Wp Sim Refine GrammarFacts AbsParse AbsIter Complete TraceFacts Transfer RunFacts NextFacts FormFacts PrefixFacts.
Import ListNotations.
Set Implicit Arguments.
Local Notation N_len r := (N.of_nat (length r)).
Local Notation oks ds := (map (fun d => Some (inl d)) ds).

Section FormRuns.
Context {S A TT ET Pos CE W AE AC : Type}.
Context (umax : N) (cc : classifier) (so : stream_ops S A TT Pos) (co : concat_ops A TT)
        (ao : alloc_ops A TT ET) (bnd : bindings A TT ET Pos CE).
Local Notation text := (list (item Pos)).
Context (view : A -> W) (abnd : bindings W text AE Pos AC).
Context (Rs : S -> text -> text -> Prop) (Rt : TT -> text -> Prop)
        (Rx : ET -> AE -> Prop) (Rc : CE -> AC -> Prop).
Local Notation Ri := (pitem_rel Rt Rx (@eq Pos) Rc).
Local Notation Rd := (datum_rel Rt Rx).
Local Notation Re := (error_rel (@eq Pos) Rc).
Local Notation nexts := (nexts umax cc so co ao bnd).
Local Notation iterates := (iterates umax cc so co ao bnd).
Local Notation anexts := (Run.nexts umax cc (@abs_stream W Pos) abs_concat abs_alloc abnd).
Local Notation aiterates := (Run.iterates umax cc (@abs_stream W Pos) abs_concat abs_alloc abnd).
Local Notation strel := (st_rel (Rs_abs Rs) (Ra_view view)).
Local Notation outcome := (outcome umax cc so co ao bnd view Rs Rt Rx Rc).
Local Notation starts_on := (starts_on Rs view).
Context (LW : lawful False view so co ao bnd abnd Rs Rt Rx Rc) (DC : disjoint_classes cc).

Lemma options_error ds e aos : Forall2 (option_rel Ri) (oks ds ++ [Some (inr e)]) aos ->
  exists ads ae, aos = oks ads ++ [Some (inr ae)] /\ Forall2 Rd ds ads /\ Re e ae.
Proof.
  revert aos. induction ds as [|d ds IH]; cbn; intros aos H.
  - inversion H as [|? o ? os Ho Hos]; subst. inversion Hos; subst. destruct o as [[ad|ae]|]; cbn in Ho; try contradiction.
    exists [], ae. auto.
  - inversion H as [|? o ? os Ho Hos]; subst. destruct o as [[ad|ae]|]; cbn in Ho; try contradiction.
    destruct (IH _ Hos) as (ads & ae & -> & Hd & He). exists (ad :: ads), ae. auto.
Qed.
Lemma options_error' ads ae os : Forall2 (option_rel Ri) os (oks ads ++ [Some (inr ae)]) ->
  exists ds e, os = oks ds ++ [Some (inr e)] /\ Forall2 Rd ds ads /\ Re e ae.
Proof.
  revert os. induction ads as [|d ds IH]; cbn; intros aos H.
  - inversion H as [|o ? os ? Ho Hos]; subst. inversion Hos; subst. destruct o as [[ad|e]|]; cbn in Ho; try contradiction.
    exists [], e. auto.
  - inversion H as [|o ? os ? Ho Hos]; subst. destruct o as [[ad|e]|]; cbn in Ho; try contradiction.
    destruct (IH _ Hos) as (ads & ae0 & -> & Hd & He). exists (ad :: ads), ae0. auto.
Qed.

(** Whole iterations. *)
Lemma iterates_abs st s w items st' : starts_on st s w -> iterates st items st' ->
  exists aitems a', aiterates (ast s [] 0 w) aitems a' /\ Forall2 Ri items aitems /\ strel st' a'.
Proof.
  intros H E. destruct (iterates_abstract LW H E) as (l & a & F & G & K). exists l, a. auto.
Qed.
Lemma iterates_conc st s w aitems a' : starts_on st s w -> aiterates (ast s [] 0 w) aitems a' ->
  exists items st', iterates st items st' /\ Forall2 Ri items aitems /\ strel st' a'.
Proof.
  intros H E. apply iterates_nexts in E. apply strel_starts in H.
  destruct (nexts_concrete LW E H) as (os & st' & Hn & Hf & Hs).
  destruct (Forall2_app_inv_r _ _ Hf) as (o1 & o2 & H1 & H2 & ->).
  destruct (options_items _ H1) as (items & -> & Hi).
  inversion H2 as [|o ? ? ? Ho Ho']; subst. inversion Ho'; subst. destruct o; [contradiction|].
  exists items, st'. split; [apply iterates_nexts; exact Hn|auto].
Qed.

(** A nest form at the start. *)
Lemma nest_outcome st s rest w r w' : starts_on st (s ++ rest) w -> (N_len s <= umax)%N ->
  nest cc abnd w s r w' -> outcome st r rest w'.
Proof.
  intros H Hl Hn. pose proof (proj2 (strel_starts view Rs st (s ++ rest) w) H) as Ha.
  pose proof (nest_nexts DC rest Hl Hn) as G. destruct r as [[ad|]|ae].
  - destruct (nexts_concrete LW G Ha) as (os & st' & E & Hf & Hs).
    inversion Hf as [|o ? ? ? Ho Ho']; subst. inversion Ho'; subst. destruct o as [[d|e]|]; cbn in Ho; try contradiction.
    exists d, st'. rewrite <- strel_starts. auto.
  - intros st0 items0 st0' H0 E0. destruct (iterates_abs H0 E0) as (aitems & a' & Ea & Hi & Hs).
    rewrite iterates_nexts in Ea.
    assert (Ea' : aiterates (ast (s ++ rest) [] 0 w) aitems a').
    { apply iterates_nexts. destruct aitems as [|x l]; cbn in *; apply G; exact Ea. }
    destruct (iterates_conc H Ea') as (items & st' & E & Hi' & Hs'). exists items, st'. repeat split; auto.
    + exists aitems. auto.
    + destruct Hs as (_ & _ & K1), Hs' as (_ & _ & K2). unfold Ra_view in *. congruence.
  - destruct (nexts_concrete LW G Ha) as (os & st' & E & Hf & Hs).
    inversion Hf as [|o ? ? ? Ho Ho']; subst. inversion Ho'; subst. destruct o as [[d|e]|]; cbn in Ho; try contradiction.
    exists e, st'. rewrite <- strel_starts. auto.
Qed.

(** A datum returned at a balanced nest form is the value of this form. *)
Lemma datum_of_nest st x i y rest w d st' : level cc i -> starts cc x -> ends cc y ->
  starts_on st ((x :: i ++ [y]) ++ rest) w ->
  nexts st [Some (inl d)] st' -> (N_len (x :: i ++ [y]) <= umax)%N ->
  (exists ad w', nest cc abnd w (x :: i ++ [y]) (inl (Some ad)) w' /\ Rd d ad /\ starts_on st' rest w') \/
  (exists w', nest cc abnd w (x :: i ++ [y]) (inl None) w').
Proof.
  intros Hi Hx Hy H E Hl. pose proof (proj2 (strel_starts view Rs st _ w) H) as Ha.
  destruct (nexts_abstract LW E Ha) as (aos & a' & Ea & Hf & Hs).
  inversion Hf as [|? o ? ? Ho Ho']; subst. inversion Ho'; subst.
  destruct o as [[ad|]|]; cbn in Ho; try contradiction.
  inversion Ea as [|f ? ? a1 ? ? Ef Ea']; subst. inversion Ea'; subst.
  pose proof (proj1 (parser_means umax abnd DC f) Base ((x :: i ++ [y]) ++ rest) 0%N w ltac:(discriminate) ltac:(discriminate)) as G.
  unfold wp in G. unfold iter_next, do_next in Ef.
  destruct (parse_next umax cc abs_stream abs_concat abs_alloc abnd f Base (ast ((x :: i ++ [y]) ++ rest) [] 0 w)) as [[[x0|]|e0| |] s3]; try discriminate; cbn in G;
    injection Ef as -> ->.
  destruct G as (u & r' & w1 & -> & Eu & _ & b & Hfo & _).
  assert (K : forall o s w', nest cc abnd w s o w' -> (exists q, u = s ++ q) -> s = x :: i ++ [y]).
  { intros o s w' Hn [q ->].
    assert (Eq : s ++ (q ++ r') = (x :: i ++ [y]) ++ rest) by (rewrite app_assoc; symmetry; exact Eu).
    apply (nest_prefix DC _ Hn Hi Hy Eq). }
  inversion Hfo; subst.
  - exfalso. destruct s as [|z s]; [congruence|]. cbn in Eu. injection Eu as <- _.
    match goal with H : Grammar.raw _ _ (x :: _) _ |- _ => inversion H; subst end;
      unfold starts, escapes, delimiter in *; destruct (dc_start DC _ Hx) as (_ & ? & _); [|congruence].
    match goal with H : (_ || _)%bool = false |- _ => apply orb_false_iff in H; destruct H end. congruence.
  - exfalso. destruct s as [|z s]; cbn in Eu; injection Eu as -> _.
    + unfold starts, escapes in *. destruct (dc_start DC _ Hx) as (_ & ? & _). congruence.
    + match goal with H : Grammar.raw _ _ (z :: _) _ |- _ => inversion H; subst end;
      unfold starts, escapes, delimiter in *; destruct (dc_start DC _ Hx) as (_ & ? & _); [|congruence].
      match goal with H : (_ || _)%bool = false |- _ => apply orb_false_iff in H; destruct H end. congruence.
  - left. assert (s = x :: i ++ [y]) as -> by (eapply K; eauto).
    match goal with Hn : Grammar.nest _ _ w _ _ ?v |- _ =>
      exists ad, v; split; [exact Hn|]; assert (Ou : outcome st (inl (Some ad)) rest v) by (eapply nest_outcome; eauto) end.
    destruct Ou as (d' & st1 & E' & Hd' & Hs').
    destruct (nexts_det E E' eq_refl) as [Ed ->]. injection Ed as <-. auto.
  - right. match goal with H : Grammar.nest _ _ w s _ ?w2 |- _ => exists w2; pose proof H as Hn end.
    assert (s = x :: i ++ [y]) as -> by (eapply K; eauto). exact Hn.
Qed.

(** The first error. *)
Lemma first_error_run st s w ds e st' : starts_on st s w -> nexts st (oks ds ++ [Some (inr e)]) st' ->
  exists ads ae, Forall2 Rd ds ads /\ Re e ae /\
  ((e = MissingEndChar /\ balance cc s = Unclosed /\ exists p, Rs (ps_strm st') [] p) \/
   (exists u x r ads0 w' b, s = u ++ x :: r /\ ends cc x /\ e = UnbalancedEndChar (it_pos x) /\
      forms cc abnd false false w u ads0 w' b /\ starts_on st' r w' /\
      if b then exists t, ads0 = ads ++ [DText t] else ads0 = ads) \/
   (exists u f r w1 w' b, s = u ++ f ++ r /\ forms cc abnd false false w u ads w1 b /\
      fails cc abnd w1 f ae w' /\ starts_on st' r w')).
Proof.
  intros H E. apply strel_starts in H.
  destruct (nexts_abstract LW E H) as (aos & a' & Ea & Hf & Hs).
  destruct (options_error _ _ Hf) as (ads & ae & -> & Hd & He). exists ads, ae. split; auto. split; auto.
  destruct (first_error_cases DC _ _ Ea) as [(-> & Hb & p & w' & -> & _)|
    [(u & x & r & ads0 & w' & b & -> & Hx & -> & Hf' & -> & Hb)|(u & f & r & w1 & w' & b & -> & Hf' & Hn & ->)]].
  - left. destruct e; cbn in He; try contradiction. repeat split; auto. exists p. apply Hs.
  - right. left. destruct e as [q| | | |]; cbn in He; try contradiction. subst q.
    exists u, x, r, ads0, w', b. rewrite <- strel_starts. auto 10.
  - right. right. exists u, f, r, w1, w', b. rewrite <- strel_starts. auto 10.
Qed.

(** A failing form. *)
Lemma fails_run st u f r w ads w1 b ae w' : starts_on st (u ++ f ++ r) w -> (N_len (u ++ f) <= umax)%N ->
  forms cc abnd false false w u ads w1 b -> fails cc abnd w1 f ae w' ->
  exists ds e st', nexts st (oks ds ++ [Some (inr e)]) st' /\ Forall2 Rd ds ads /\ Re e ae /\ starts_on st' r w'.
Proof.
  intros H Hl Hf Hn. apply strel_starts in H.
  destruct (nexts_concrete LW (fails_nexts DC r Hl Hf Hn) H) as (os & st' & E & Ho & Hs).
  destruct (options_error' _ _ Ho) as (ds & e & -> & Hd & He). exists ds, e, st'. rewrite <- strel_starts. auto.
Qed.

Lemma fails_never w s e w' : no_combiner_returns abnd e -> ~ fails cc abnd w s e w'.
Proof.
  intros NC H. destruct (fails_nest H) as (u & s0 & w1 & _ & Hn & _).
  inversion Hn; subst;
    match goal with H : abnd _ = Some _ |- _ => apply NC in H; cbn in H; eapply H; eauto end.
Qed.

(** Going on after an unmatched end. *)
Lemma unmatched_run st s w ds p st' : no_combiner_returns abnd (UnbalancedEndChar p) -> starts_on st s w ->
  nexts st (oks ds ++ [Some (inr (UnbalancedEndChar p))]) st' ->
  exists u x r ads ads0 w' b, s = u ++ x :: r /\ ends cc x /\ p = it_pos x /\ Forall2 Rd ds ads /\
    forms cc abnd false false w u ads0 w' b /\ (if b then exists t, ads0 = ads ++ [DText t] else ads0 = ads) /\
    starts_on st' r w'.
Proof.
  intros NC H E. destruct (first_error_run _ _ H E) as (ads & ae & Hd & He & [(? & _)|[
    (u & x & r & ads0 & w' & b & -> & Hx & Ep & Hf' & Hs & Hb)|(u & f & r & w1 & w' & b & -> & Hf' & Hn & Hs)]]).
  - discriminate.
  - injection Ep as ->. exists u, x, r, ads, ads0, w', b. auto 10.
  - exfalso. destruct ae as [q| | | |]; cbn in He; try contradiction. subst q. eapply fails_never; eauto.
Qed.

(** A removed form. *)
Lemma removed_run st_u st_f st_v st u fs v w ds st_u' st_f' items st_v' :
  (N_len (u ++ fs) <= umax)%N -> fs <> [] -> esc_after cc false u = false ->
  starts_on st_u u w -> iterates st_u (map inl ds) st_u' ->
  starts_on st_f fs (view (ps_alloc st_u')) -> iterates st_f [] st_f' ->
  starts_on st_v v (view (ps_alloc st_f')) -> iterates st_v items st_v' ->
  starts_on st (u ++ fs ++ v) w ->
  exists items' st', iterates st items' st' /\ agree Rt Rx Rc items' (map inl ds ++ items) /\
    view (ps_alloc st') = view (ps_alloc st_v').
Proof.
  intros Hl Hfs He Hu Eu Hf Ef Hv Ev H.
  destruct (iterates_sound LW ds DC Hu Eu) as (ads & [b1 I1] & Hd).
  destruct (iterates_sound LW [] DC Hf Ef) as (ads0 & [b2 I2] & Hd0). inversion Hd0; subst ads0.
  destruct (iterates_abs Hv Ev) as (aitems & a' & Ea & Hi & Hs).
  pose proof (removed_iterates DC Hl (forms_not_dangling DC I1 He) I2 Hfs Ea) as G.
  destruct (iterates_conc H G) as (items' & st' & E & Hi' & Hs'). exists items', st'. split; auto. split.
  - exists (map inl ads ++ aitems). split; [exact Hi'|]. apply Forall2_app; [|exact Hi].
    clear -Hd. induction Hd; constructor; auto.
  - destruct Hs as (_ & _ & K1), Hs' as (_ & _ & K2). unfold Ra_view in *. congruence.
Qed.
End FormRuns.

(** The log of combiner calls. *)
Section LogRuns.
Context {S A TT ET Pos CE W AE AC : Type}.
Context (umax : N) (cc : classifier) (so : stream_ops S A TT Pos) (co : concat_ops A TT)
        (ao : alloc_ops A TT ET) (bnd : bindings A TT ET Pos CE).
Local Notation text := (list (item Pos)).
Context (abnd : bindings W text AE Pos AC) (view : A -> W * list (@event text AE Pos AC)).
Context (Rs : S -> text -> text -> Prop) (Rt : TT -> text -> Prop)
        (Rx : ET -> AE -> Prop) (Rc : CE -> AC -> Prop).
Local Notation Re := (error_rel (@eq Pos) Rc).
Context (LW : lawful False view so co ao bnd (logged abnd) Rs Rt Rx Rc) (DC : disjoint_classes cc).

Lemma log_run st s w o st' : starts_on Rs view st s w -> nexts umax cc so co ao bnd st [o] st' ->
  exists new, snd (view (ps_alloc st')) = snd w ++ new /\
  match o with
  | Some (inr e) =>
      (all_ok new /\ (e = MissingEndChar \/ exists p, e = UnbalancedEndChar p)) \/
      (exists pre ev ae, new = pre ++ [ev] /\ all_ok pre /\ ev_result ev = inr ae /\ Re e ae)
  | _ => all_ok new
  end.
Proof.
  intros H E. apply strel_starts in H.
  destruct (nexts_abstract LW E H) as (aos & a' & Ea & Hf & Hs).
  inversion Hf as [|? ao' ? ? Ho Ho']; subst. inversion Ho'; subst.
  inversion Ea as [|f ? ? a1 ? ? Ef Ea']; subst. inversion Ea'; subst.
  destruct (next_calls umax abnd DC _ _ _ Ef) as (new & r' & p' & w' & -> & El & G).
  exists new. destruct Hs as (_ & _ & K). unfold Ra_view in K. cbn in K. split.
  { rewrite K. exact El. }
  destruct o as [[d|e]|], ao' as [[ad|ae]|]; cbn in Ho; try contradiction; auto.
  destruct G as [(G1 & G2)|(pre & ev & -> & G1 & G2 & _)].
  - left. split; auto. destruct G2 as [->|[p ->]]; destruct e; cbn in Ho; try contradiction; auto. right. eauto.
  - right. exists pre, ev, ae. auto.
Qed.
End LogRuns.
