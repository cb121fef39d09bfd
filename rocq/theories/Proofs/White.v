(** Whitespace directly after nest starts has no effect. *)
From Coq Require Import List Arith NArith Bool Lia.
From Verif.Model Require Import Prelude Parser Iter Utf8.
From Verif.Spec Require Import Contract Grammar Balance AbsStream Run Lawful Spacing.
From Verif.Proofs Require Import Sim Refine AbsParse AbsIter Transfer RunFacts.
Import ListNotations.
Set Implicit Arguments.
Local Notation N_len r := (N.of_nat (length r)).

Section White.
Context {P1 P2 W E1 E2 C1 C2 : Type}.
Context (umax : N) (cc : classifier) (DC : disjoint_classes cc).
Context (Rp : P1 -> P2 -> Prop) (Rx : E1 -> E2 -> Prop) (Rc : C1 -> C2 -> Prop).
Local Notation text1 := (list (item P1)).
Local Notation text2 := (list (item P2)).
Local Notation Rt := (Forall2 (item_rel Rp)).
Local Notation Rd := (datum_rel Rt Rx).
Local Notation Re := (error_rel Rp Rc).
Context (bnd1 : bindings W text1 E1 P1 C1) (bnd2 : bindings W text2 E2 P2 C2)
        (BS : bindings_sim bnd1 bnd2 False eq Rt Rx Rp Rc) (NO : no_operatives bnd1).
Local Notation so1 := (@abs_stream W P1).
Local Notation so2 := (@abs_stream W P2).
Local Notation co1 := (@abs_concat W P1).
Local Notation co2 := (@abs_concat W P2).
Local Notation ao1 := (@abs_alloc W E1 P1).
Local Notation ao2 := (@abs_alloc W E2 P2).
Local Notation st1 := (pstate (@abs_state P1) W).
Local Notation st2 := (pstate (@abs_state P2) W).
Local Notation spaced := (respaced cc Rp).

(** Directly after a nest start. *)
Definition after_start (s1 : text1) (s2 : text2) : Prop :=
  exists ws1 ws2 r1 r2, s1 = ws1 ++ r1 /\ s2 = ws2 ++ r2 /\
    Forall (white cc) ws1 /\ Forall (white cc) ws2 /\ spaced r1 r2.
(** At a nest start. *)
Definition at_start (s1 : text1) (s2 : text2) : Prop :=
  exists x1 x2 r1 r2, s1 = x1 :: r1 /\ s2 = x2 :: r2 /\ starts cc x1 /\ item_rel Rp x1 x2 /\ after_start r1 r2.

Local Notation Q_ := (@abs_state P1 -> @abs_state P2 -> Prop).
Definition on (q : text1 -> text2 -> Prop) : Q_ := fun a b => q (fst a) (fst b) /\ Rt (snd a) (snd b).
(** Nothing accumulated. *)
Definition clean (q : text1 -> text2 -> Prop) : Q_ := fun a b => q (fst a) (fst b) /\ snd a = [] /\ snd b = [].
Definition states (Q : Q_) (a : st1) (b : st2) : Prop :=
  Q (ps_strm a) (ps_strm b) /\ ps_depth a = ps_depth b /\ ps_alloc a = ps_alloc b.

(** Related outcomes, if both have enough fuel. *)
Definition outw {X1 X2} (R : X1 -> X2 -> Prop) (Q : Q_)
  (o1 : res (error P1 C1) X1 * st1) (o2 : res (error P2 C2) X2 * st2) : Prop :=
  fst o1 <> OutOfFuel -> fst o2 <> OutOfFuel ->
  match fst o1, fst o2 with
  | Ok x1, Ok x2 => R x1 x2 /\ states Q (snd o1) (snd o2)
  | Err e1, Err e2 => Re e1 e2 /\ states (clean spaced) (snd o1) (snd o2)
  | Panic, Panic => True
  | _, _ => False
  end.
Definition simw {X1 X2} (Q : Q_) (R : X1 -> X2 -> Prop) (Q' : Q_)
  (m1 : M (S:=@abs_state P1) (A:=W) (Pos:=P1) (CE:=C1) X1)
  (m2 : M (S:=@abs_state P2) (A:=W) (Pos:=P2) (CE:=C2) X2) : Prop :=
  forall a b, states Q a b -> outw R Q' (m1 a) (m2 b).

Lemma w_ret X1 X2 Q (R : X1 -> X2 -> Prop) x1 x2 : R x1 x2 -> simw Q R Q (ret x1) (ret x2).
Proof. intros H a b Hs _ _. split; auto. Qed.
Lemma w_raise X1 X2 (R : X1 -> X2 -> Prop) Q e1 e2 : Re e1 e2 -> simw (clean spaced) R Q (raise e1) (raise e2).
Proof. intros H a b Hs _ _. split; auto. Qed.
Lemma w_panic X1 X2 Q (R : X1 -> X2 -> Prop) Q' : simw Q R Q' panic panic.
Proof. intros a b Hs _ _. exact I. Qed.
Lemma w_nofuel X1 X2 Q (R : X1 -> X2 -> Prop) Q' : simw Q R Q' nofuel nofuel.
Proof. intros a b Hs F. destruct F; reflexivity. Qed.
Lemma w_assert Q b1 b2 : b1 = b2 -> simw Q eq Q (assert b1) (assert b2).
Proof. intros ->. destruct b2; [apply w_ret; auto|apply w_panic]. Qed.
Lemma w_bind X1 X2 Y1 Y2 Q Q' Q'' (R : X1 -> X2 -> Prop) (R' : Y1 -> Y2 -> Prop) m1 m2 k1 k2 :
  simw Q R Q' m1 m2 -> (forall x1 x2, R x1 x2 -> simw Q' R' Q'' (k1 x1) (k2 x2)) ->
  simw Q R' Q'' (bind m1 k1) (bind m2 k2).
Proof.
  intros Hm Hk a b Hs. specialize (Hm a b Hs). unfold bind, outw in *.
  destruct (m1 a) as [[x1|e1| |] s1], (m2 b) as [[x2|e2| |] s2]; cbn in *; intros F1 F2;
    try (exfalso; congruence); try exact I;
    try (specialize (Hm ltac:(discriminate) ltac:(discriminate)); tauto).
  destruct (Hm ltac:(discriminate) ltac:(discriminate)) as [HR Hs']. exact (Hk _ _ HR _ _ Hs' F1 F2).
Qed.
Lemma w_if X1 X2 Q (R : X1 -> X2 -> Prop) Q' (b1 b2 : bool) m1 m2 n1 n2 :
  b1 = b2 -> simw Q R Q' m1 m2 -> simw Q R Q' n1 n2 -> simw Q R Q' (if b1 then m1 else n1) (if b2 then m2 else n2).
Proof. intros -> H1 H2. destruct b2; auto. Qed.
Lemma w_depth Q : simw Q eq Q get_depth get_depth.
Proof. intros a b Hs _ _. split; [apply Hs|exact Hs]. Qed.

Lemma clean_on q a b : clean q a b -> on q a b.
Proof. intros (h1 & h2 & h3). split; [exact h1|]. rewrite h2, h3. constructor. Qed.
Lemma w_weak X1 X2 (Q Q1 : Q_) (R : X1 -> X2 -> Prop) Q' m1 m2 :
  (forall s1 s2, Q1 s1 s2 -> Q s1 s2) -> simw Q R Q' m1 m2 -> simw Q1 R Q' m1 m2.
Proof. intros H Hm a b (h1 & h2). apply Hm. split; auto. Qed.

(** One can look at the sources. *)
Definition these (s1 : text1) (s2 : text2) : text1 -> text2 -> Prop := fun a b => a = s1 /\ b = s2.
Lemma w_pick X1 X2 (q : text1 -> text2 -> Prop) (R : X1 -> X2 -> Prop) Q' m1 m2 :
  (forall s1 s2, q s1 s2 -> simw (on (these s1 s2)) R Q' m1 m2) -> simw (on q) R Q' m1 m2.
Proof. intros H a b ((h1 & h3) & h2). apply (H _ _ h1). repeat split; auto; apply h2. Qed.
Lemma w_pick_clean X1 X2 (q : text1 -> text2 -> Prop) (R : X1 -> X2 -> Prop) Q' m1 m2 :
  (forall s1 s2, q s1 s2 -> simw (clean (these s1 s2)) R Q' m1 m2) -> simw (clean q) R Q' m1 m2.
Proof. intros H a b ((h1 & h3) & h2). apply (H _ _ h1). repeat split; auto; apply h2 || apply h3. Qed.
Lemma w_peek X1 X2 s1 s2 (R : X1 -> X2 -> Prop) Q' k1 k2 :
  simw (on (these s1 s2)) R Q' (k1 (hd_error s1)) (k2 (hd_error s2)) ->
  simw (on (these s1 s2)) R Q' (bind (peek so1) k1) (bind (peek so2) k2).
Proof.
  intros H [[r1 p1] d1 a1] [[r2 p2] d2 a2] Hs. unfold bind, peek; cbn.
  destruct Hs as (((h1 & h1') & h2) & h3 & h4). cbn in *. subst r1 r2. apply H. repeat split; auto.
Qed.
Lemma w_peek_clean X1 X2 s1 s2 (R : X1 -> X2 -> Prop) Q' k1 k2 :
  simw (clean (these s1 s2)) R Q' (k1 (hd_error s1)) (k2 (hd_error s2)) ->
  simw (clean (these s1 s2)) R Q' (bind (peek so1) k1) (bind (peek so2) k2).
Proof.
  intros H [[r1 p1] d1 a1] [[r2 p2] d2 a2] Hs. unfold bind, peek; cbn.
  destruct Hs as (((h1 & h1') & h2) & h3 & h4). cbn in *. subst r1 r2. apply H. repeat split; auto; apply h2.
Qed.

(** Moves along the sources. *)
Lemma w_next (s1 : text1) (s2 : text2) : option_rel (item_rel Rp) (hd_error s1) (hd_error s2) ->
  simw (on (these s1 s2)) (fun o1 o2 => o1 = hd_error s1 /\ o2 = hd_error s2) (clean (these (tl s1) (tl s2))) (next so1) (next so2).
Proof.
  intros H2 [[r1 p1] d1 a1] [[r2 p2] d2 a2] (((h1 & h1') & h2) & h3 & h4) _ _. cbn in *. subst r1 r2.
  repeat split; cbn; auto.
Qed.
Lemma w_next_accum (s1 : text1) (s2 : text2) : option_rel (item_rel Rp) (hd_error s1) (hd_error s2) ->
  simw (on (these s1 s2)) (fun _ _ => True) (on (these (tl s1) (tl s2))) (next_accum so1) (next_accum so2).
Proof.
  intros H2 [[r1 p1] d1 a1] [[r2 p2] d2 a2] (((h1 & h1') & h2) & h3 & h4) _ _. cbn in *. subst r1 r2.
  repeat split; cbn; auto. apply Forall2_app; [exact h2|].
  destruct s1, s2; cbn in *; auto; contradiction.
Qed.
Lemma w_concat_accum q t1 t2 : Rt t1 t2 -> simw (on q) Rt (clean q) (concat_accum so1 co1 t1) (concat_accum so2 co2 t2).
Proof.
  intros Ht [[s1 p1] d1 a1] [[s2 p2] d2 a2] ((h1 & h2) & h3 & h4) _ _. cbn in *.
  repeat split; cbn; auto. apply Forall2_app; auto.
Qed.
Lemma w_new_datum Q d1 d2 : Rd d1 d2 -> simw Q Rd Q (new_datum ao1 d1) (new_datum ao2 d2).
Proof. intros Hd [[s1 p1] e1 a1] [[s2 p2] e2 a2] Hs _ _. cbn in *. split; auto. Qed.
Lemma w_call f1 f2 : (forall a1 a2, a1 = a2 -> cres_rel False eq Rt Rx Rp Rc (f1 a1) (f2 a2)) ->
  simw (clean spaced) (option_rel Rd) (clean spaced) (call f1) (call f2).
Proof.
  intros Hf a b (h1 & h3 & h4). pose proof (Hf _ _ h4) as H. unfold call, cres_rel in *.
  destruct (f1 (ps_alloc a)) as [[x1|e1] a1], (f2 (ps_alloc b)) as [[x2|e2] a2]; cbn in *;
    intros _ _; cbn; unfold states; cbn; tauto.
Qed.

(** Heads of respaced sources. *)
Lemma heads_spaced s1 s2 : spaced s1 s2 -> option_rel (item_rel Rp) (hd_error s1) (hd_error s2).
Proof. intros H; destruct H; cbn; auto. Qed.
Lemma spaced_plain x1 x2 s1 s2 : spaced (x1 :: s1) (x2 :: s2) -> ~ starts cc x1 -> ~ escapes cc x1 -> spaced s1 s2.
Proof. intros H; inversion H; subst; auto; contradiction. Qed.
Lemma spaced_start x1 x2 s1 s2 : spaced (x1 :: s1) (x2 :: s2) -> starts cc x1 -> after_start s1 s2.
Proof.
  intros H Hs. unfold starts in Hs. pose proof (dc_start DC _ Hs) as (A & B & C).
  inversion H; subst; try contradiction; try (unfold escapes in *; congruence).
  eexists ws1, ws2, _, _. eauto 6.
Qed.
Lemma spaced_escape x1 x2 s1 s2 : spaced (x1 :: s1) (x2 :: s2) -> escapes cc x1 ->
  spaced (tl s1) (tl s2) /\ option_rel (item_rel Rp) (hd_error s1) (hd_error s2).
Proof.
  intros H He. pose proof (dc_start DC) as A. inversion H; subst; try contradiction; cbn.
  - split; [constructor|exact I].
  - auto.
  - unfold starts, escapes in *. match goal with K : is_nest_start _ _ = true |- _ => apply A in K; destruct K as (? & ? & ?) end. congruence.
Qed.

(** Skipping whitespace. *)
Fixpoint strip {P} (s : list (item P)) : list (item P) :=
  match s with
  | [] => []
  | x :: s' => if is_whitespace cc (it_ch x) then strip s' else s
  end.
Lemma strip_white {P} (ws s : list (item P)) : Forall (white cc) ws -> strip (ws ++ s) = strip s.
Proof. induction 1 as [|x ws Hx _ IH]; cbn; [reflexivity|]. rewrite Hx. exact IH. Qed.
Lemma strip_spaced s1 s2 : spaced s1 s2 -> spaced (strip s1) (strip s2).
Proof.
  intros H. induction H as [|x1 x2 s1 s2 H1 H2 H3 H IH|x1 x2 H1 H3|x1 x2 y1 y2 s1 s2 H1 H3 H4 H IH|x1 x2 ws1 ws2 s1 s2 H1 H3 H4 H5 H IH]; cbn.
  - constructor.
  - rewrite <- (proj1 H3). destruct (is_whitespace cc (it_ch x1)); [exact IH|constructor; assumption].
  - rewrite <- (proj1 H3), (dc_escape DC _ H1). constructor; assumption.
  - rewrite <- (proj1 H3), (dc_escape DC _ H1). constructor; assumption.
  - rewrite <- (proj1 H3). destruct (dc_start DC _ H1) as (_ & _ & ->). constructor; assumption.
Qed.
Lemma skip_strip {P CE} f : forall (s p : list (item P)) d (w : W),
  fst (skip_whitespace (CE:=CE) cc (@abs_stream W P) f (ast s p d w)) = OutOfFuel \/
  exists p', skip_whitespace (CE:=CE) cc (@abs_stream W P) f (ast s p d w) = (Ok tt, ast (strip s) p' d w) /\ (p' = p \/ p' = []).
Proof.
  induction f as [|f IH]; intros s p d w; [left; reflexivity|].
  destruct s as [|x s]; cbn [skip_whitespace strip]; unfold bind, peek; cbn.
  - right. exists p. auto.
  - destruct (is_whitespace cc (it_ch x)) eqn:E.
    + destruct (IH s [] d w) as [F|(p' & F & G)]; [left; exact F|right; exists p'; split; [exact F|]].
      right. destruct G; auto.
    + right. exists p. auto.
Qed.
Lemma w_skip f : simw (clean after_start) eq (clean spaced) (skip_whitespace cc so1 f) (skip_whitespace cc so2 f).
Proof.
  intros [[s1 p1] d1 a1] [[s2 p2] d2 a2] ((h1 & h2 & h2') & h3 & h4). cbn in h1, h2, h2', h3, h4. subst p1 p2 d2 a2.
  change (outw eq (clean spaced) (skip_whitespace cc so1 f (ast s1 [] d1 a1)) (skip_whitespace cc so2 f (ast s2 [] d1 a1))). intros F1 F2.
  destruct (@skip_strip P1 C1 f s1 [] d1 a1) as [F|(q1 & F & G)]; [contradiction|].
  destruct (@skip_strip P2 C2 f s2 [] d1 a1) as [F'|(q2 & F' & G')]; [contradiction|].
  rewrite F, F'. cbn. split; [reflexivity|].
  destruct h1 as (ws1 & ws2 & r1 & r2 & -> & -> & H1 & H2 & H). repeat split; cbn.
  - rewrite !strip_white by assumption. apply strip_spaced, H.
  - destruct G; assumption.
  - destruct G'; assumption.
Qed.

(** The rest of the parser. *)
Lemma w_check_end x1 x2 s1 s2 d : ends cc x1 -> spaced (x1 :: s1) (x2 :: s2) ->
  simw (on (these (x1 :: s1) (x2 :: s2))) eq (on (these (x1 :: s1) (x2 :: s2))) (check_end_char cc so1 d) (check_end_char cc so2 d).
Proof.
  intros He Hs. pose proof (heads_spaced Hs) as Hh. pose proof (dc_end DC _ He) as [De Dw].
  unfold check_end_char. apply w_peek. cbn [hd_error].
  eapply w_bind; [apply w_assert; cbn in Hh; rewrite (proj1 Hh); reflexivity|]. intros _ _ _.
  apply w_if; [reflexivity|apply w_ret; auto|].
  eapply w_bind; [apply w_next; exact Hh|]. intros o1 o2 (-> & ->). cbn [hd_error].
  eapply w_weak; [|apply w_raise; apply Hh]. intros a b ((h1 & h1') & h2). split; [|exact h2]. cbn in h1, h1'. rewrite h1, h1'.
  apply (spaced_plain Hs).
  - intros K. apply (dc_start DC) in K. unfold ends in He. destruct K; congruence.
  - unfold escapes. congruence.
Qed.
Lemma w_check_end_clean x1 x2 s1 s2 d : ends cc x1 -> spaced (x1 :: s1) (x2 :: s2) ->
  simw (clean (these (x1 :: s1) (x2 :: s2))) eq (clean (these (x1 :: s1) (x2 :: s2))) (check_end_char cc so1 d) (check_end_char cc so2 d).
Proof.
  intros He Hs. pose proof (heads_spaced Hs) as Hh. pose proof (dc_end DC _ He) as [De Dw].
  unfold check_end_char. apply w_peek_clean. cbn [hd_error].
  eapply w_bind; [apply w_assert; cbn in Hh; rewrite (proj1 Hh); reflexivity|]. intros _ _ _.
  apply w_if; [reflexivity|apply w_ret; auto|].
  eapply w_bind; [eapply w_weak; [apply clean_on|apply w_next; exact Hh]|]. intros o1 o2 (-> & ->). cbn [hd_error].
  eapply w_weak; [|apply w_raise; apply Hh]. intros a b ((h1 & h1') & h2). split; [|exact h2]. cbn in h1, h1'. rewrite h1, h1'.
  apply (spaced_plain Hs).
  - intros K. apply (dc_start DC) in K. unfold ends in He. destruct K; congruence.
  - unfold escapes. congruence.
Qed.
Lemma w_text f m : m <> Operands -> forall t1 t2, Rt t1 t2 ->
  simw (on spaced) Rt (clean spaced) (parse_text_loop umax cc so1 co1 f m t1 0) (parse_text_loop umax cc so2 co2 f m t2 0).
Proof.
  intros Hm. induction f as [|f IH]; intros t1 t2 Ht; cbn [parse_text_loop]; [apply w_nofuel|].
  apply w_pick. intros s1 s2 Hs. apply w_peek. pose proof (heads_spaced Hs) as Hh.
  assert (Hdone : simw (on (these s1 s2)) Rt (clean spaced) (parse_text_done so1 co1 t1 0) (parse_text_done so2 co2 t2 0)).
  { unfold parse_text_done. cbn. intros a b Hab. pose proof (w_concat_accum Ht Hab) as G.
    intros F1 F2. specialize (G F1 F2). destruct (fst _), (fst _); auto. destruct G as (G1 & ((g1 & g1') & g2) & g3).
    split; [exact G1|]. split; [|exact g3]. split; [rewrite g1, g1'; exact Hs|exact g2]. }
  destruct s1 as [|x1 s1], s2 as [|x2 s2]; cbn in Hh; try contradiction; cbn [hd_error]; [exact Hdone|].
  rewrite <- (proj1 Hh). cbv zeta.
  assert (En : is_end_char cc (it_ch x1) m = false -> ~ starts cc x1).
  { unfold starts. destruct m; cbn; try congruence. intros K L. rewrite L, orb_true_r in K. discriminate. }
  cbn [N.eqb andb]. destruct (is_end_char cc (it_ch x1) m); [exact Hdone|]. specialize (En eq_refl).
  destruct (is_nest_escape cc (it_ch x1)) eqn:Ee.
  { eapply w_bind; [apply w_concat_accum; exact Ht|]. intros u1 u2 Hu.
    destruct (spaced_escape Hs Ee) as [H1 H2].
    eapply w_bind; [eapply w_weak; [apply clean_on|apply w_next; exact Hh]|]. intros _ _ _. cbn [tl].
    eapply w_bind; [eapply w_weak; [apply clean_on|apply w_next_accum; exact H2]|]. intros _ _ _.
    eapply w_weak; [|apply IH; exact Hu]. intros a b ((h1 & h1') & h2). split; [rewrite h1, h1'; exact H1|exact h2]. }
  destruct (is_nest_start cc (it_ch x1)) eqn:Es; [destruct (En Es)|].
  assert (Hp : spaced s1 s2) by (apply (spaced_plain Hs); [exact En|unfold escapes; congruence]).
  destruct (is_nest_end cc (it_ch x1)) eqn:Ed.
  { cbn [N.ltb N.compare]. eapply w_bind; [apply w_depth|]. intros d _ <-.
    eapply w_bind; [apply w_check_end; assumption|]. intros _ _ _. exact Hdone. }
  eapply w_bind; [apply w_next_accum; exact Hh|]. intros _ _ _.
  eapply w_weak; [|apply IH; exact Ht]. intros a b ((h1 & h1') & h2). split; [rewrite h1, h1'; exact Hp|exact h2].
Qed.
Lemma w_nest_end : simw (clean spaced) eq (clean spaced) (nest_end cc so1) (nest_end cc so2).
Proof.
  apply w_pick_clean. intros s1 s2 Hs. pose proof (heads_spaced Hs) as Hh. unfold nest_end.
  eapply w_bind; [eapply w_weak; [apply clean_on|apply w_next; exact Hh]|]. intros o1 o2 (-> & ->).
  destruct s1 as [|x1 s1], s2 as [|x2 s2]; cbn in Hh; try contradiction; cbn [hd_error tl].
  - eapply w_weak; [|apply w_raise; exact I]. intros a b ((h1 & h1') & h2). split; [rewrite h1, h1'; exact Hs|exact h2].
  - rewrite <- (proj1 Hh). destruct (is_nest_end cc (it_ch x1)) eqn:E; [|apply w_panic].
    eapply w_weak; [|apply w_ret; reflexivity]. intros a b ((h1 & h1') & h2). split; [|exact h2]. rewrite h1, h1'.
    pose proof (dc_end DC _ E) as [De Dw]. apply (spaced_plain Hs).
    + intros K. apply (dc_start DC) in K. destruct K; congruence.
    + unfold escapes. congruence.
Qed.
Lemma w_enter X1 X2 (R : X1 -> X2 -> Prop) Q m1 m2 : simw Q R (clean spaced) m1 m2 ->
  simw Q R (clean spaced) (bind (incr_depth umax) (fun _ => finally m1 decr_depth))
        (bind (incr_depth umax) (fun _ => finally m2 decr_depth)).
Proof.
  intros Hm a b (h1 & h3 & h4). unfold bind, incr_depth. rewrite h3.
  destruct (ps_depth b <? umax)%N; cbn; [|intros _ _; exact I].
  specialize (Hm (PState (ps_strm a) (ps_depth b + 1) (ps_alloc a)) (PState (ps_strm b) (ps_depth b + 1) (ps_alloc b))).
  unfold finally, outw in *. specialize (Hm (conj h1 (conj eq_refl h4))).
  destruct (m1 _) as [[x1|e1| |] s1], (m2 _) as [[x2|e2| |] s2]; cbn in *; intros F1 F2; try (exfalso; congruence); try exact I;
    specialize (Hm ltac:(discriminate) ltac:(discriminate)); try contradiction;
    unfold bind, decr_depth in *; destruct Hm as (HR & g1 & g2 & g3); rewrite g2 in *;
    try (destruct (0 <? ps_depth s2)%N; cbn in *; try exact I; repeat split; cbn; auto; apply g1);
    try (destruct (0 <? ps_depth s1)%N; cbn in *; auto).
Qed.
Lemma w_spaced_weak X1 X2 (R : X1 -> X2 -> Prop) Q s1 s2 m1 m2 : spaced s1 s2 -> simw (clean spaced) R Q m1 m2 ->
  simw (clean (these s1 s2)) R Q m1 m2.
Proof. intros H Hm. eapply w_weak; [|exact Hm]. intros a b ((h1 & h1') & h2). split; [rewrite h1, h1'; exact H|exact h2]. Qed.

(** [parse_next] in operator mode starts directly after the nest start. *)
Definition start_of (m : mode) : text1 -> text2 -> Prop :=
  if is_operator_mode m then after_start else spaced.
Lemma spaced_start_of m s1 s2 : spaced s1 s2 -> start_of m s1 s2.
Proof.
  intros H. unfold start_of. destruct (is_operator_mode m); [|exact H].
  exists [], [], s1, s2. repeat split; auto.
Qed.
Lemma w_parser fuel :
  (forall m, m <> Operands -> simw (clean (start_of m)) (option_rel Rd) (clean spaced)
     (parse_next umax cc so1 co1 ao1 bnd1 fuel m) (parse_next umax cc so2 co2 ao2 bnd2 fuel m)) /\
  simw (clean at_start) (option_rel Rd) (clean spaced)
     (parse_nested umax cc so1 co1 ao1 bnd1 fuel) (parse_nested umax cc so2 co2 ao2 bnd2 fuel) /\
  (forall m, m <> Operands -> simw (clean spaced) Rd (clean spaced)
     (parse_all umax cc so1 co1 ao1 bnd1 fuel m) (parse_all umax cc so2 co2 ao2 bnd2 fuel m)).
Proof.
  induction fuel as [|fuel (IH1 & IH2 & IH3)].
  { repeat split; intros; apply w_nofuel. }
  split; [|split].
  - intros m Hm. cbn [parse_next]. cbv zeta.
    eapply w_bind with (R := eq) (Q' := clean spaced).
    { unfold start_of. destruct (is_operator_mode m); [apply w_skip|apply w_ret; auto]. }
    intros _ _ _. apply w_pick_clean. intros s1 s2 Hs. apply w_peek_clean. pose proof (heads_spaced Hs) as Hh.
    destruct s1 as [|x1 s1], s2 as [|x2 s2]; cbn in Hh; try contradiction; cbn [hd_error].
    { apply w_spaced_weak; [exact Hs|]. eapply w_bind; [apply w_depth|]. intros d _ <-.
      apply w_if; [reflexivity|apply w_ret; exact I|apply w_raise; exact I]. }
    rewrite <- (proj1 Hh). destruct (is_nest_start cc (it_ch x1)) eqn:Es.
    { assert (simw (clean (these (x1 :: s1) (x2 :: s2))) (option_rel Rd) (clean spaced)
          (bind (bind (incr_depth umax) (fun _ => finally (parse_nested umax cc so1 co1 ao1 bnd1 fuel) decr_depth))
             (fun r => match r with
                       | Some d => ret (Some d) | None => parse_next umax cc so1 co1 ao1 bnd1 fuel m end))
          (bind (bind (incr_depth umax) (fun _ => finally (parse_nested umax cc so2 co2 ao2 bnd2 fuel) decr_depth))
             (fun r => match r with
                       | Some d => ret (Some d) | None => parse_next umax cc so2 co2 ao2 bnd2 fuel m end))) as Z.
      { eapply w_bind; [apply w_enter; eapply w_weak; [|exact IH2]|].
        - intros a b ((h1 & h1') & h2). split; [|exact h2]. rewrite h1, h1'. exists x1, x2, s1, s2. repeat split; auto.
          + apply Hh.
          + apply Hh.
          + apply (spaced_start Hs Es).
        - intros [d1|] [d2|] Hd; try contradiction; [apply w_ret; exact Hd|].
          eapply w_weak; [|apply IH1; exact Hm]. intros a b (h1 & h2). split; [apply spaced_start_of, h1|exact h2]. }
      intros a b Hab. specialize (Z a b Hab). unfold bind in *.
      destruct (incr_depth umax a) as [[| | |] ?], (incr_depth umax b) as [[| | |] ?]; exact Z. }
    destruct (is_nest_end cc (it_ch x1)) eqn:Ed.
    { eapply w_bind; [apply w_depth|]. intros d _ <-.
      eapply w_bind; [apply w_check_end_clean; assumption|]. intros _ _ _.
      apply w_spaced_weak; [exact Hs|]. apply w_ret. exact I. }
    eapply w_bind; [eapply w_weak; [|apply w_text; [exact Hm|constructor]]|].
    + intros a b Hab. apply clean_on. destruct Hab as ((h1 & h1') & h2). split; [rewrite h1, h1'; exact Hs|exact h2].
    + intros t1 t2 Ht. apply w_ret. exact Ht.
  - cbn [parse_nested]. apply w_pick_clean. intros s1 s2 (x1 & x2 & r1 & r2 & -> & -> & Hx & Hi & Ha).
    eapply w_bind; [eapply w_weak; [apply clean_on|apply w_next; exact Hi]|]. intros o1 o2 (-> & ->). cbn [hd_error tl].
    eapply w_bind; [apply w_assert; rewrite (proj1 Hi); reflexivity|]. intros _ _ _.
    eapply w_bind; [eapply w_weak; [|apply IH1; discriminate]|].
    { intros a b ((h1 & h1') & h2). split; [rewrite h1, h1'; exact Ha|exact h2]. }
    intros op1 op2 Hop. apply w_pick_clean. intros s1 s2 Hs. apply w_peek_clean. pose proof (heads_spaced Hs) as Hh.
    eapply w_bind with (R := eq) (Q' := clean spaced).
    { destruct s1 as [|y1 s1], s2 as [|y2 s2]; cbn in Hh; try contradiction; cbn [hd_error].
      - apply w_spaced_weak; [exact Hs|apply w_ret; auto].
      - rewrite <- (proj1 Hh). destruct (is_whitespace cc (it_ch y1)) eqn:Ew; [|apply w_spaced_weak; [exact Hs|apply w_ret; auto]].
        eapply w_bind; [eapply w_weak; [apply clean_on|apply w_next; exact Hh]|]. intros _ _ _. cbn [tl].
        eapply w_spaced_weak; [|apply w_ret; reflexivity]. apply (spaced_plain Hs).
        + intros K. apply (dc_start DC) in K. destruct K as (? & ? & ?); congruence.
        + intros K. apply (dc_escape DC) in K. congruence. }
    intros _ _ _. destruct op1 as [op1|], op2 as [op2|]; try contradiction.
    2:{ eapply w_bind; [apply w_nest_end|]. intros _ _ _. apply w_ret. exact I. }
    cbn in Hop. pose proof (BS _ _ Hop) as HB. pose proof (NO (d:=op1)) as Hno.
    destruct (bnd1 op1) as [[f1|f1]|], (bnd2 op2) as [[f2|f2]|]; try contradiction; cbn in HB.
    + destruct (Hno f1 eq_refl).
    + eapply w_bind; [apply IH3; discriminate|]. intros t1 t2 Ht.
      eapply w_bind; [apply w_nest_end|]. intros _ _ _.
      apply w_call. auto.
    + eapply w_bind; [apply IH3; discriminate|]. intros t1 t2 Ht.
      eapply w_bind; [apply w_nest_end|]. intros _ _ _.
      eapply w_bind; [apply w_new_datum; eassumption|]. intros e1 e2 He.
      eapply w_bind; [apply w_new_datum; eassumption|]. intros q1 q2 Hq.
      apply w_ret. split; assumption.
  - intros m Hm. cbn [parse_all]. eapply w_bind; [eapply w_weak; [|apply IH1; exact Hm]|].
    { intros a b (h1 & h2). split; [apply spaced_start_of, h1|exact h2]. }
    intros [d1|] [d2|] Hd; try contradiction; [|apply w_ret; exact I].
    eapply w_bind; [apply w_new_datum; exact Hd|]. intros e1 e2 He.
    eapply w_bind; [apply w_new_datum with (d1 := DEmptyList) (d2 := DEmptyList); exact I|]. intros n1 n2 Hn.
    eapply w_bind with (R := fun b1 b2 => b1 = true /\ b2 = true).
    { intros a b Hs _ _. split; [split; reflexivity|exact Hs]. }
    intros b1 b2 (-> & ->).
    eapply w_bind; [apply IH3; exact Hm|]. intros t1 t2 Ht. apply w_ret. split; assumption.
Qed.

(** Iteration. *)
Local Notation Ri := (pitem_rel Rt Rx Rp Rc).
Local Notation collect1 := (iter_collect umax cc so1 co1 ao1 bnd1).
Local Notation collect2 := (iter_collect umax cc so2 co2 ao2 bnd2).
Lemma w_collect n f : forall a b, states (clean spaced) a b ->
  forall items1 a' items2 b', collect1 n f a = (Ok items1, a') -> collect2 n f b = (Ok items2, b') ->
  Forall2 Ri items1 items2 /\ states (clean spaced) a' b'.
Proof.
  induction n as [|n IH]; intros a b Hs items1 a' items2 b'; cbn [iter_collect]; [discriminate|].
  pose proof (proj1 (w_parser f) Base ltac:(discriminate) a b Hs) as G. unfold outw in G.
  unfold iter_next, do_next. destruct (parse_next umax cc so1 co1 ao1 bnd1 f Base a) as [[[d1|]|e1| |] a1],
    (parse_next umax cc so2 co2 ao2 bnd2 f Base b) as [[[d2|]|e2| |] b1]; cbn in *; intros K1 K2; try discriminate;
    specialize (G ltac:(discriminate) ltac:(discriminate)); try (destruct G as [G1 G2]); try contradiction.
  - pose proof (IH _ _ G2) as G3. destruct (collect1 n f a1) as [[l1| | |] a2], (collect2 n f b1) as [[l2| | |] b2]; try discriminate.
    injection K1 as <- <-. injection K2 as <- <-. destruct (G3 _ _ _ _ eq_refl eq_refl). split; [constructor; auto|assumption].
  - injection K1 as <- <-. injection K2 as <- <-. auto.
  - pose proof (IH _ _ G2) as G3. destruct (collect1 n f a1) as [[l1| | |] a2], (collect2 n f b1) as [[l2| | |] b2]; try discriminate.
    injection K1 as <- <-. injection K2 as <- <-. destruct (G3 _ _ _ _ eq_refl eq_refl). split; [constructor; auto|assumption].
Qed.
End White.

Section Runs.
Context {S1 A1 T1 E1 P1 C1 AE1 AC1 S2 A2 T2 E2 P2 C2 AE2 AC2 W : Type}.
Local Notation text1 := (list (item P1)).
Local Notation text2 := (list (item P2)).
Context (umax : N) (cc : classifier) (DC : disjoint_classes cc).
Context (so1 : stream_ops S1 A1 T1 P1) (co1 : concat_ops A1 T1) (ao1 : alloc_ops A1 T1 E1) (bnd1 : bindings A1 T1 E1 P1 C1)
        (view1 : A1 -> W) (abnd1 : bindings W text1 AE1 P1 AC1)
        (Rs1 : S1 -> text1 -> text1 -> Prop) (Rt1 : T1 -> text1 -> Prop) (Rx1 : E1 -> AE1 -> Prop) (Rc1 : C1 -> AC1 -> Prop)
        (LW1 : lawful False view1 so1 co1 ao1 bnd1 abnd1 Rs1 Rt1 Rx1 Rc1).
Context (so2 : stream_ops S2 A2 T2 P2) (co2 : concat_ops A2 T2) (ao2 : alloc_ops A2 T2 E2) (bnd2 : bindings A2 T2 E2 P2 C2)
        (view2 : A2 -> W) (abnd2 : bindings W text2 AE2 P2 AC2)
        (Rs2 : S2 -> text2 -> text2 -> Prop) (Rt2 : T2 -> text2 -> Prop) (Rx2 : E2 -> AE2 -> Prop) (Rc2 : C2 -> AC2 -> Prop)
        (LW2 : lawful False view2 so2 co2 ao2 bnd2 abnd2 Rs2 Rt2 Rx2 Rc2).
Context (Rp : P1 -> P2 -> Prop) (Rx : AE1 -> AE2 -> Prop) (Rc : AC1 -> AC2 -> Prop)
        (BS : bindings_sim abnd1 abnd2 False eq (Forall2 (item_rel Rp)) Rx Rp Rc) (NO : no_operatives abnd1).

Lemma respaced_iterates st1 s1 st2 s2 w items1 st1' : starts_on Rs1 view1 st1 s1 w -> starts_on Rs2 view2 st2 s2 w ->
  (N_len s1 <= umax)%N -> (N_len s2 <= umax)%N -> respaced cc Rp s1 s2 ->
  iterates umax cc so1 co1 ao1 bnd1 st1 items1 st1' ->
  exists items2 st2' aitems1 aitems2, iterates umax cc so2 co2 ao2 bnd2 st2 items2 st2' /\
    Forall2 (pitem_rel Rt1 Rx1 eq Rc1) items1 aitems1 /\ Forall2 (pitem_rel Rt2 Rx2 eq Rc2) items2 aitems2 /\
    Forall2 (pitem_rel (Forall2 (item_rel Rp)) Rx Rp Rc) aitems1 aitems2 /\
    view1 (ps_alloc st1') = view2 (ps_alloc st2').
Proof.
  intros H1 H2 L1 L2 Hr E.
  set (n := Datatypes.S (length s1 + length s2)). set (f := 3 * (length s1 + length s2) + 3).
  destruct (@lw_run _ _ _ _ _ _ _ _ _ umax cc so1 co1 ao1 bnd1 view1 abnd1 Rs1 Rt1 Rx1 Rc1 LW1 n f st1 s1 w H1 L1 ltac:(unfold n; lia) ltac:(unfold f; lia)) as (i1 & t1 & ai1 & at1 & F1 & G1 & K1 & R1).
  destruct (@lw_run _ _ _ _ _ _ _ _ _ umax cc so2 co2 ao2 bnd2 view2 abnd2 Rs2 Rt2 Rx2 Rc2 LW2 n f st2 s2 w H2 L2 ltac:(unfold n; lia) ltac:(unfold f; lia)) as (i2 & t2 & ai2 & at2 & F2 & G2 & K2 & R2).
  destruct (iterates_det E (ex_intro _ n (ex_intro _ f F1))) as (-> & ->).
  destruct (fun X => @w_collect P1 P2 W AE1 AE2 AC1 AC2 umax cc DC Rp Rx Rc abnd1 abnd2 BS NO n f (ast s1 [] 0 w) (ast s2 [] 0 w) X _ _ _ _ G1 G2) as (Hi & Hst).
  { repeat split; auto. }
  exists i2, t2, ai1, ai2. split; [exists n, f; exact F2|]. repeat split; auto.
  destruct R1 as (_ & _ & R1), R2 as (_ & _ & R2). unfold Ra_view in *. rewrite R1, R2. apply Hst.
Qed.
End Runs.

(** One whitespace character after the operator. *)
Section Separator.
Context {S A TT ET Pos CE W AE AC : Type}.
Context (umax : N) (cc : classifier) (so : stream_ops S A TT Pos) (co : concat_ops A TT)
        (ao : alloc_ops A TT ET) (bnd : bindings A TT ET Pos CE).
Local Notation text := (list (item Pos)).
Context (view : A -> W) (abnd : bindings W text AE Pos AC).
Context (Rs : S -> text -> text -> Prop) (Rt : TT -> text -> Prop)
        (Rx : ET -> AE -> Prop) (Rc : CE -> AC -> Prop).
Local Notation iterates := (iterates umax cc so co ao bnd).
Context (LW : lawful False view so co ao bnd abnd Rs Rt Rx Rc) (DC : disjoint_classes cc).

Lemma lead_white w (ws : text) : Forall (white cc) ws -> lead cc abnd w ws w.
Proof. induction 1; constructor; assumption. Qed.
Lemma one_space st st0 st0' w w1 o ws h d tx sp body e ds :
  starts_on Rs view st (o :: ws ++ h ++ sp :: body ++ [e]) w -> (N_len (o :: ws ++ h ++ sp :: body ++ [e]) <= umax)%N ->
  starts cc o -> Forall (white cc) ws -> head cc abnd w h d tx w1 -> abnd d = None -> white cc sp -> ends cc e ->
  esc_after cc false body = false ->
  starts_on Rs view st0 body w1 -> iterates st0 (map inl ds) st0' ->
  exists r st' ads, iterates st [inl r] st' /\ Forall2 (datum_rel Rt Rx) ds ads /\
    datum_rel Rt Rx r (DComb d (dlist ads)) /\ view (ps_alloc st') = view (ps_alloc st0').
Proof.
  intros H Hl Ho Hw Hh Hd Hsp He Hb H0 E.
  destruct (iterates_sound LW _ DC H0 E) as (ads & (b' & Hf) & Hds).
  pose proof (forms_not_dangling DC Hf Hb) as Hf'.
  assert (Hn : nest cc abnd w (o :: ws ++ h ++ [sp] ++ body ++ [e]) (inl (Some (DComb d (dlist ads)))) (view (ps_alloc st0'))).
  { eapply n_unbound; eauto; [apply lead_white, Hw|]. left. eauto. }
  destruct (iterates_complete (ads := [DComb d (dlist ads)]) (w' := view (ps_alloc st0')) LW DC H Hl) as (rs & st' & E' & F & G).
  { exists false. rewrite <- (app_nil_r (o :: _)). eapply f_nest; [exact Hn|constructor]. }
  inversion F as [|r ? ? ? Fr Fn]; subst. inversion Fn; subst. exists r, st', ads. auto.
Qed.
End Separator.

(** Whitespace added after one nest start. *)
Section Insert.
Context {P1 P2 : Type} (cc : classifier) (DC : disjoint_classes cc).
Local Notation spaced := (respaced cc (fun (_ : P1) (_ : P2) => True)).
Local Notation same s1 s2 := (map it_ch s1 = map it_ch s2).
Lemma spaced_insert : forall n (u v ws1 ws2 : str) c s1 s2, length u <= n -> esc_chars cc false u = false -> is_nest_start cc c = true ->
  Forall (fun c => is_whitespace cc c = true) ws1 -> Forall (fun c => is_whitespace cc c = true) ws2 ->
  (forall r1 r2, map it_ch r1 = v -> map it_ch r2 = v -> spaced r1 r2) ->
  map it_ch s1 = u ++ c :: ws1 ++ v -> map it_ch s2 = u ++ c :: ws2 ++ v -> spaced s1 s2.
Proof.
  assert (Wh : forall P (ws r : str) (s : list (item P)), map it_ch s = ws ++ r -> Forall (fun c => is_whitespace cc c = true) ws ->
    exists a b, s = a ++ b /\ Forall (white cc) a /\ map it_ch b = r).
  { intros P ws. induction ws as [|x ws IH]; intros r s E F; [exists [], s; auto|].
    destruct s as [|y s]; [discriminate|]. injection E as E1 E2. inversion F; subst.
    destruct (IH _ _ E2 ltac:(assumption)) as (a & b & -> & Ha & Hb). exists (y :: a), b. repeat split; auto. }
  assert (Go : forall (v ws1 ws2 : str) c s1 s2, is_nest_start cc c = true ->
    Forall (fun c => is_whitespace cc c = true) ws1 -> Forall (fun c => is_whitespace cc c = true) ws2 ->
    (forall r1 r2, map it_ch r1 = v -> map it_ch r2 = v -> spaced r1 r2) ->
    map it_ch s1 = c :: ws1 ++ v -> map it_ch s2 = c :: ws2 ++ v -> spaced s1 s2).
  { intros v ws1 ws2 c s1 s2 Hc H1 H2 Hv E1 E2. destruct s1 as [|x1 s1], s2 as [|x2 s2]; try discriminate.
    injection E1 as Ex1 E1. injection E2 as Ex2 E2.
    destruct (Wh _ _ _ _ E1 H1) as (a1 & b1 & -> & Ha1 & Hb1). destruct (Wh _ _ _ _ E2 H2) as (a2 & b2 & -> & Ha2 & Hb2).
    apply sp_start; auto; [unfold starts; congruence|split; [congruence|exact I]]. }
  induction n as [|n IH]; intros u v ws1 ws2 c s1 s2 Hn He Hc H1 H2 Hv E1 E2.
  { destruct u; [|cbn in Hn; lia]. exact (Go _ _ _ _ _ _ Hc H1 H2 Hv E1 E2). }
  destruct u as [|x u]; [exact (Go _ _ _ _ _ _ Hc H1 H2 Hv E1 E2)|].
  destruct s1 as [|x1 s1], s2 as [|x2 s2]; try discriminate. injection E1 as Ex1 E1. injection E2 as Ex2 E2.
  assert (I12 : item_rel (fun _ _ => True) x1 x2) by (split; [congruence|exact I]).
  cbn in He, Hn. destruct (is_nest_escape cc x) eqn:Ee.
  - destruct u as [|y u]; [discriminate|]. destruct s1 as [|y1 s1], s2 as [|y2 s2]; try discriminate.
    injection E1 as Ey1 E1. injection E2 as Ey2 E2. cbn in He, Hn.
    apply sp_escaped; auto; [unfold escapes; congruence|split; [congruence|exact I]|].
    apply (IH u v ws1 ws2 c); auto; lia.
  - destruct (is_nest_start cc x) eqn:Es.
    + apply (@sp_start _ _ cc _ x1 x2 [] [] s1 s2); auto; [unfold starts; congruence|]. apply (IH u v ws1 ws2 c); auto; lia.
    + apply sp_char; auto; [unfold starts; congruence|unfold escapes; congruence|]. apply (IH u v ws1 ws2 c); auto; lia.
Qed.
Lemma spaced_same : forall n (v : str) s1 s2, length v <= n -> map it_ch s1 = v -> map it_ch s2 = v -> spaced s1 s2.
Proof.
  induction n as [|n IH]; intros v s1 s2 Hn E1 E2.
  { destruct v; [|cbn in Hn; lia]. destruct s1, s2; try discriminate. constructor. }
  destruct v as [|x v]; [destruct s1, s2; try discriminate; constructor|].
  destruct s1 as [|x1 s1], s2 as [|x2 s2]; try discriminate. injection E1 as Ex1 E1. injection E2 as Ex2 E2.
  assert (I12 : item_rel (fun _ _ => True) x1 x2) by (split; [congruence|exact I]). cbn in Hn.
  destruct (is_nest_escape cc x) eqn:Ee.
  - destruct v as [|y v]; [destruct s1, s2; try discriminate; apply sp_dangling; auto; unfold escapes; congruence|].
    destruct s1 as [|y1 s1], s2 as [|y2 s2]; try discriminate.
    injection E1 as Ey1 E1. injection E2 as Ey2 E2. cbn in Hn.
    apply sp_escaped; auto; [unfold escapes; congruence|split; [congruence|exact I]|].
    apply (IH v); auto; lia.
  - destruct (is_nest_start cc x) eqn:Es.
    + apply (@sp_start _ _ cc _ x1 x2 [] [] s1 s2); auto; [unfold starts; congruence|]. apply (IH v); auto; lia.
    + apply sp_char; auto; [unfold starts; congruence|unfold escapes; congruence|]. apply (IH v); auto; lia.
Qed.
End Insert.

(** Results that stand for related abstract results. *)
Section Across.
Context {T1 E1 P1 C1 T2 E2 P2 C2 U1 X1 D1 U2 X2 D2 : Type}.
Context (Rt1 : T1 -> U1 -> Prop) (Rx1 : E1 -> X1 -> Prop) (Rc1 : C1 -> D1 -> Prop)
        (Rt2 : T2 -> U2 -> Prop) (Rx2 : E2 -> X2 -> Prop) (Rc2 : C2 -> D2 -> Prop)
        (Rt : U1 -> U2 -> Prop) (Rx : X1 -> X2 -> Prop) (Rp : P1 -> P2 -> Prop) (Rc : D1 -> D2 -> Prop).
Definition across {X Y X' Y'} (R1 : X -> X' -> Prop) (R2 : Y -> Y' -> Prop) (R : X' -> Y' -> Prop) (x : X) (y : Y) : Prop :=
  exists x' y', R1 x x' /\ R2 y y' /\ R x' y'.
Lemma across_datums : forall d1 a1 a2 d2, datum_rel Rt1 Rx1 d1 a1 -> datum_rel Rt2 Rx2 d2 a2 -> datum_rel Rt Rx a1 a2 ->
  datum_rel (across Rt1 Rt2 Rt) (across Rx1 Rx2 Rx) d1 d2.
Proof.
  induction d1; intros [] [] []; cbn; try tauto; unfold across; eauto 8.
  - intros (? & ?) (? & ?) (? & ?). split; eauto.
  - intros (? & ?) (? & ?) (? & ?). split; eauto.
Qed.
Lemma across_items l1 a1 a2 l2 : Forall2 (pitem_rel Rt1 Rx1 eq Rc1) l1 a1 -> Forall2 (pitem_rel Rt2 Rx2 eq Rc2) l2 a2 ->
  Forall2 (pitem_rel Rt Rx Rp Rc) a1 a2 ->
  Forall2 (pitem_rel (across Rt1 Rt2 Rt) (across Rx1 Rx2 Rx) Rp (across Rc1 Rc2 Rc)) l1 l2.
Proof.
  intros H1. revert a2 l2. induction H1 as [|x1 y1 l1 a1 Hx H1 IH]; intros a2 l2 H2 H; inversion H; subst; inversion H2; subst; constructor.
  - destruct x1 as [d1|e1], y1 as [ad1|ae1], y as [ad2|ae2], x as [d2|e2]; cbn in *; try contradiction.
    + eauto using across_datums.
    + destruct e1, ae1, ae2, e2; cbn in *; try contradiction; auto; [congruence|unfold across; eauto].
  - eauto.
Qed.
End Across.
