(** The same parse with two allocators: equal results, unless the first one fails
    to allocate; then the second one's state satisfies [L] from there on. *)
From Coq Require Import List Arith NArith Bool Lia.
From Verif.Model Require Import Prelude Parser Iter Chunk TextIter TextVec TextDatumList.
Import ListNotations.
Set Implicit Arguments.

Section Two.
Context {A1 A2 : Type} (Ra : A1 -> A2 -> Prop) (L : A2 -> Prop).

(** Outcomes of operations that allocate. *)
Definition op_rel {X} (o1 : res alloc_error X * A1) (o2 : res alloc_error X * A2) : Prop :=
  (fst o1 = fst o2 /\ Ra (snd o1) (snd o2)) \/ (exists e, fst o1 = Err e /\ L (snd o2)).
Definition ops_rel {X Y} (o1 : res alloc_error X * (Y * A1)) (o2 : res alloc_error X * (Y * A2)) : Prop :=
  (fst o1 = fst o2 /\ fst (snd o1) = fst (snd o2) /\ Ra (snd (snd o1)) (snd (snd o2))) \/
  (exists e, fst o1 = Err e /\ L (snd (snd o2))).
Definition call_rel {X P C} (o1 : (X + error P C) * A1) (o2 : (X + error P C) * A2) : Prop :=
  (fst o1 = fst o2 /\ Ra (snd o1) (snd o2)) \/ (exists e, fst o1 = inr (FailedAlloc e) /\ L (snd o2)).

Definition alloc_two {TT ET} (ao1 : alloc_ops A1 TT ET) (ao2 : alloc_ops A2 TT ET) : Prop :=
  (forall d a1 a2, Ra a1 a2 -> op_rel (a_new_datum ao1 d a1) (a_new_datum ao2 d a2)) /\
  (forall d a1 a2, a_get_mut ao1 d a1 = a_get_mut ao2 d a2) /\
  (forall d a, L a -> L (snd (a_new_datum ao2 d a))).

Definition combiner_two {TT ET Pos CE} (d : datum TT ET) (c1 : combiner A1 TT ET Pos CE) (c2 : combiner A2 TT ET Pos CE) : Prop :=
  match c1, c2 with
  | Operative f1, Operative f2 =>
      (forall t a1 a2, Ra a1 a2 -> call_rel (f1 d t a1) (f2 d t a2)) /\ (forall t a, L a -> L (snd (f2 d t a)))
  | Applicative f1, Applicative f2 =>
      (forall t a1 a2, Ra a1 a2 -> call_rel (f1 d t a1) (f2 d t a2)) /\ (forall t a, L a -> L (snd (f2 d t a)))
  | _, _ => False
  end.
Definition bindings_two {TT ET Pos CE} (b1 : bindings A1 TT ET Pos CE) (b2 : bindings A2 TT ET Pos CE) : Prop :=
  forall d, match b1 d, b2 d with Some c1, Some c2 => combiner_two d c1 c2 | None, None => True | _, _ => False end.

Record concat_two {TT} (co1 : concat_ops A1 TT) (co2 : concat_ops A2 TT) : Prop := {
  m2_empty : t_empty co1 = t_empty co2;
  m2_concat : forall t u a1 a2, Ra a1 a2 -> op_rel (t_concat co1 t u a1) (t_concat co2 t u a2);
  m2_concat_L : forall t u a, L a -> L (snd (t_concat co2 t u a)) }.

Record stream_two {S TT Pos} (so1 : stream_ops S A1 TT Pos) (so2 : stream_ops S A2 TT Pos) : Prop := {
  m2_peek : forall s, s_peek so1 s = s_peek so2 s;
  m2_next : forall s, s_next so1 s = s_next so2 s;
  m2_next_accum : forall s a1 a2, Ra a1 a2 -> ops_rel (s_next_accum so1 s a1) (s_next_accum so2 s a2);
  m2_next_accum_L : forall s a, L a -> L (snd (snd (s_next_accum so2 s a)));
  m2_accum_done : forall s a1 a2, Ra a1 a2 -> ops_rel (s_accum_done so1 s a1) (s_accum_done so2 s a2);
  m2_accum_done_L : forall s a, L a -> L (snd (snd (s_accum_done so2 s a))) }.

(** ** The parser *)
Section Parser.
Context {S TT ET Pos CE : Type} (umax : N) (cc : classifier).
Context (so1 : stream_ops S A1 TT Pos) (so2 : stream_ops S A2 TT Pos) (co1 : concat_ops A1 TT) (co2 : concat_ops A2 TT)
        (ao1 : alloc_ops A1 TT ET) (ao2 : alloc_ops A2 TT ET)
        (b1 : bindings A1 TT ET Pos CE) (b2 : bindings A2 TT ET Pos CE).
Context (HS : stream_two so1 so2) (HC : concat_two co1 co2) (HA : alloc_two ao1 ao2) (HB : bindings_two b1 b2).

Definition same (st1 : pstate S A1) (st2 : pstate S A2) : Prop :=
  ps_strm st1 = ps_strm st2 /\ ps_depth st1 = ps_depth st2 /\ Ra (ps_alloc st1) (ps_alloc st2).
Definition LS (st : pstate S A2) : Prop := L (ps_alloc st).
(** The first run is cut off.  (Panics are excluded by C01.) *)
Definition cut {X} (r : res (error Pos CE) X) : Prop := r = Panic \/ exists e, r = Err (FailedAlloc e).
Definition two {X} (m1 : M (S:=S) (A:=A1) (Pos:=Pos) (CE:=CE) X) (m2 : M (S:=S) (A:=A2) (Pos:=Pos) (CE:=CE) X) : Prop :=
  (forall st1 st2, same st1 st2 ->
    (fst (m1 st1) = fst (m2 st2) /\ same (snd (m1 st1)) (snd (m2 st2))) \/
    (cut (fst (m1 st1)) /\ LS (snd (m2 st2)))) /\
  (forall st, LS st -> LS (snd (m2 st))).

Lemma w_ret X (x : X) : two (ret x) (ret x).
Proof. split; auto. Qed.
Lemma w_raise X e : two (raise (X:=X) e) (raise e).
Proof. split; auto. Qed.
Lemma w_panic X : two (panic (X:=X)) panic.
Proof. split; auto. Qed.
Lemma w_nofuel X : two (nofuel (X:=X)) nofuel.
Proof. split; auto. Qed.
Lemma w_assert b : two (assert b) (assert b).
Proof. destruct b; [apply w_ret|apply w_panic]. Qed.
Lemma w_bind X Y (m1 : M X) m2 (k1 : X -> M Y) k2 : two m1 m2 -> (forall x, two (k1 x) (k2 x)) -> two (bind m1 k1) (bind m2 k2).
Proof.
  intros [Hm ML] Hk. split.
  - intros st1 st2 Hs. destruct (Hm _ _ Hs) as [[E Hs']|[E HL]]; unfold bind.
    + destruct (m1 st1) as [r1 s1], (m2 st2) as [r2 s2]. cbn in E, Hs'. subst r2.
      destruct r1 as [x|e| |]; cbn; auto. apply Hk; auto.
    + right. destruct (m1 st1) as [r1 s1], (m2 st2) as [r2 s2]. cbn in E, HL. split.
      { destruct E as [->|[e ->]]; cbn; [left|right]; eauto. }
      destruct r2 as [x|e'| |]; cbn; auto. apply Hk; auto.
  - intros st HL. unfold bind. specialize (ML st HL). destruct (m2 st) as [[x|e| |] s]; cbn in *; auto. apply Hk; auto.
Qed.
Lemma w_get_depth : two get_depth get_depth.
Proof. split; auto. intros st1 st2 Hs. left. split; auto. cbn. f_equal. apply Hs. Qed.
Lemma w_incr_depth : two (incr_depth umax) (incr_depth umax).
Proof.
  split.
  - intros st1 st2 (H1 & H2 & H3). left. unfold incr_depth. rewrite H2.
    destruct (ps_depth st2 <? umax)%N; cbn; repeat split; auto; cbn; congruence.
  - intros st HL. unfold incr_depth. destruct (ps_depth st <? umax)%N; cbn; auto.
Qed.
Lemma w_finally X (m1 : M X) m2 : two m1 m2 -> two (finally m1 decr_depth) (finally m2 decr_depth).
Proof.
  intros [Hm ML]. split.
  - intros st1 st2 Hs. destruct (Hm _ _ Hs) as [[E Hs']|[E HL]]; unfold finally, bind, decr_depth.
    + left. destruct (m1 st1) as [r1 s1], (m2 st2) as [r2 s2]. cbn in E, Hs'. subst r2. destruct Hs' as (H1 & H2 & H3).
      destruct r1 as [x|e| |]; cbn; rewrite ?H2; try (destruct (0 <? ps_depth s2)%N); cbn; repeat split; auto; cbn; congruence.
    + right. destruct (m1 st1) as [r1 s1], (m2 st2) as [r2 s2]. cbn in E, HL. split.
      * destruct E as [->|[e ->]]; cbn; [left; reflexivity|]. destruct (0 <? ps_depth s1)%N; cbn; [right; eauto|left; reflexivity].
      * destruct r2 as [x|e| |]; cbn; try (destruct (0 <? ps_depth s2)%N); cbn; auto.
  - intros st HL. specialize (ML st HL). unfold finally, bind, decr_depth.
    destruct (m2 st) as [[x|e| |] s]; cbn in *; try (destruct (0 <? ps_depth s)%N); cbn; auto.
Qed.
Lemma w_peek : two (peek so1) (peek so2).
Proof.
  split.
  - intros st1 st2 (H1 & H2 & H3). left. unfold peek. rewrite <- (m2_peek HS), H1.
    destruct (s_peek so1 (ps_strm st2)) as [r s]; cbn; repeat split; auto.
  - intros st HL. unfold peek. destruct (s_peek so2 (ps_strm st)); exact HL.
Qed.
Lemma w_next : two (next so1) (next so2).
Proof.
  split.
  - intros st1 st2 (H1 & H2 & H3). left. unfold next. rewrite <- (m2_next HS), H1.
    destruct (s_next so1 (ps_strm st2)) as [r s]; cbn; repeat split; auto.
  - intros st HL. unfold next. destruct (s_next so2 (ps_strm st)); exact HL.
Qed.
Lemma w_next_accum : two (next_accum so1) (next_accum so2).
Proof.
  split.
  - intros st1 st2 (H1 & H2 & H3). pose proof (m2_next_accum HS (ps_strm st2) H3) as H.
    unfold next_accum. rewrite H1. unfold ops_rel in H.
    destruct (s_next_accum so1 (ps_strm st2) (ps_alloc st1)) as [r1 [s1 a1]],
      (s_next_accum so2 (ps_strm st2) (ps_alloc st2)) as [r2 [s2 a2]]; cbn in *.
    destruct H as [(-> & -> & H)|(e & -> & HL)]; [left|right]; cbn; split; auto; [split; auto|]. right; eauto.
  - intros st HL. pose proof (m2_next_accum_L HS (ps_strm st) HL) as H. unfold next_accum.
    destruct (s_next_accum so2 (ps_strm st) (ps_alloc st)) as [r [s a]]; exact H.
Qed.
Lemma w_accum_done : two (accum_done so1) (accum_done so2).
Proof.
  split.
  - intros st1 st2 (H1 & H2 & H3). pose proof (m2_accum_done HS (ps_strm st2) H3) as H.
    unfold accum_done. rewrite H1. unfold ops_rel in H.
    destruct (s_accum_done so1 (ps_strm st2) (ps_alloc st1)) as [r1 [s1 a1]],
      (s_accum_done so2 (ps_strm st2) (ps_alloc st2)) as [r2 [s2 a2]]; cbn in *.
    destruct H as [(-> & -> & H)|(e & -> & HL)]; [left|right]; cbn; split; auto; [split; auto|]. right; eauto.
  - intros st HL. pose proof (m2_accum_done_L HS (ps_strm st) HL) as H. unfold accum_done.
    destruct (s_accum_done so2 (ps_strm st) (ps_alloc st)) as [r [s a]]; exact H.
Qed.
Lemma w_concat t u : two (concat co1 t u) (concat co2 t u).
Proof.
  split.
  - intros st1 st2 (H1 & H2 & H3). pose proof (m2_concat HC t u H3) as H. unfold concat, op_rel in *.
    destruct (t_concat co1 t u (ps_alloc st1)) as [r1 a1], (t_concat co2 t u (ps_alloc st2)) as [r2 a2]; cbn in *.
    destruct H as [(-> & H)|(e & -> & HL)]; [left|right]; cbn; split; auto; [split; auto|]. right; eauto.
  - intros st HL. pose proof (m2_concat_L HC t u HL) as H. unfold concat.
    destruct (t_concat co2 t u (ps_alloc st)) as [r a]; exact H.
Qed.
Lemma w_new_datum d : two (new_datum ao1 d) (new_datum ao2 d).
Proof.
  destruct HA as (HN & _ & HL2). split.
  - intros st1 st2 (H1 & H2 & H3). pose proof (HN d _ _ H3) as H. unfold new_datum, op_rel in *.
    destruct (a_new_datum ao1 d (ps_alloc st1)) as [r1 a1], (a_new_datum ao2 d (ps_alloc st2)) as [r2 a2]; cbn in *.
    destruct H as [(-> & H)|(e & -> & HL)]; [left|right]; cbn; split; auto; [split; auto|]. right; eauto.
  - intros st HL. pose proof (HL2 d _ HL) as H. unfold new_datum.
    destruct (a_new_datum ao2 d (ps_alloc st)) as [r a]; exact H.
Qed.
Lemma w_get_mut d : two (fun st => (Ok (a_get_mut ao1 d (ps_alloc st)), st)) (fun st => (Ok (a_get_mut ao2 d (ps_alloc st)), st)).
Proof.
  destruct HA as (_ & HG & _). split; [|auto]. intros st1 st2 Hs. left. cbn. rewrite (HG d _ (ps_alloc st2)). auto.
Qed.
Lemma w_call X (f1 : A1 -> (X + error Pos CE) * A1) f2 :
  (forall a1 a2, Ra a1 a2 -> call_rel (f1 a1) (f2 a2)) -> (forall a, L a -> L (snd (f2 a))) -> two (call f1) (call f2).
Proof.
  intros Hf HL2. split.
  - intros st1 st2 (H1 & H2 & H3). pose proof (Hf _ _ H3) as H. unfold call, call_rel in *.
    destruct (f1 (ps_alloc st1)) as [r1 a1], (f2 (ps_alloc st2)) as [r2 a2]; cbn in *.
    destruct H as [(-> & H)|(e & -> & HL)]; [left|right]; cbn; split; auto; [split; auto|]. right; eauto.
  - intros st HL. pose proof (HL2 _ HL) as H. unfold call. destruct (f2 (ps_alloc st)) as [r a]; exact H.
Qed.

Ltac w_step :=
  repeat first
  [ apply w_ret | apply w_raise | apply w_panic | apply w_nofuel | apply w_assert | apply w_get_depth | apply w_incr_depth
  | apply w_peek | apply w_next | apply w_next_accum | apply w_accum_done | apply w_concat | apply w_new_datum | apply w_get_mut
  | apply w_bind; [|intros]
  | match goal with |- two (if ?b then _ else _) _ => destruct b end
  | match goal with |- two (match ?o with Some _ => _ | None => _ end) _ => destruct o end ].

Lemma w_skip_whitespace fuel : two (skip_whitespace (CE:=CE) cc so1 fuel) (skip_whitespace cc so2 fuel).
Proof. induction fuel as [|f IH]; cbn [skip_whitespace]; w_step. exact IH. Qed.
Lemma w_check_end_char d : two (check_end_char (CE:=CE) cc so1 d) (check_end_char cc so2 d).
Proof. unfold check_end_char. w_step. Qed.
Lemma w_concat_accum t : two (concat_accum (CE:=CE) so1 co1 t) (concat_accum so2 co2 t).
Proof. unfold concat_accum. w_step. Qed.
Lemma w_parse_text_done t nl : two (parse_text_done (CE:=CE) so1 co1 t nl) (parse_text_done so2 co2 t nl).
Proof. unfold parse_text_done. destruct (nl =? 0)%N; [apply w_concat_accum|apply w_raise]. Qed.
Lemma w_parse_text_loop fuel m : forall t nl,
  two (parse_text_loop (CE:=CE) umax cc so1 co1 fuel m t nl) (parse_text_loop umax cc so2 co2 fuel m t nl).
Proof.
  induction fuel as [|f IH]; intros t nl; cbn [parse_text_loop]; cbv zeta; [apply w_nofuel|].
  w_step; auto using w_parse_text_done, w_concat_accum, w_check_end_char.
Qed.
Lemma w_parse_text fuel m : two (parse_text (CE:=CE) umax cc so1 co1 fuel m) (parse_text umax cc so2 co2 fuel m).
Proof. unfold parse_text. rewrite (m2_empty HC). apply w_parse_text_loop. Qed.
Lemma w_nest_end : two (nest_end (CE:=CE) cc so1) (nest_end cc so2).
Proof. unfold nest_end. w_step. Qed.

Lemma w_parser fuel :
  (forall m, two (parse_next umax cc so1 co1 ao1 b1 fuel m) (parse_next umax cc so2 co2 ao2 b2 fuel m)) /\
  two (parse_nested umax cc so1 co1 ao1 b1 fuel) (parse_nested umax cc so2 co2 ao2 b2 fuel) /\
  (forall m, two (parse_all umax cc so1 co1 ao1 b1 fuel m) (parse_all umax cc so2 co2 ao2 b2 fuel m)).
Proof.
  induction fuel as [|fuel (IH1 & IH2 & IH3)].
  { split; [|split]; intros; apply w_nofuel. }
  split; [|split].
  - intros m. cbn [parse_next]. cbv zeta. w_step;
      auto using w_skip_whitespace, w_check_end_char, w_parse_text, w_finally.
  - cbn [parse_nested]. apply w_bind; [apply w_next|]. intros o. apply w_bind; [apply w_assert|]. intros _.
    apply w_bind; [apply IH1|]. intros op. apply w_bind; [apply w_peek|]. intros p.
    apply w_bind; [w_step|]. intros _. destruct op as [op|].
    2:{ apply w_bind; [apply w_nest_end|]. intros _. apply w_ret. }
    pose proof (HB op) as Hb. destruct (b1 op) as [c1|], (b2 op) as [c2|]; try contradiction.
    + destruct c1 as [f1|f1], c2 as [f2|f2]; try contradiction; destruct Hb as [Hf HL2].
      * apply w_bind; [apply w_parse_text|]. intros t. apply w_bind; [apply w_nest_end|]. intros _.
        apply w_call; auto.
      * apply w_bind; [apply IH3|]. intros t. apply w_bind; [apply w_nest_end|]. intros _.
        apply w_call; auto.
    + apply w_bind; [apply IH3|]. intros t. apply w_bind; [apply w_nest_end|]. intros _. w_step.
  - intros m. cbn [parse_all]. apply w_bind; [apply IH1|]. intros [d|]; [|apply w_ret].
    apply w_bind; [apply w_new_datum|]. intros e. apply w_bind; [apply w_new_datum|]. intros n.
    apply w_bind; [apply w_get_mut|]. intros b. destruct b; [|apply w_raise].
    apply w_bind; [apply IH3|]. intros t. apply w_ret.
Qed.

(** ** Iterating *)
Local Notation next1 := (iter_next umax cc so1 co1 ao1 b1).
Local Notation next2 := (iter_next umax cc so2 co2 ao2 b2).
Local Notation coll1 := (iter_collect umax cc so1 co1 ao1 b1).
Local Notation coll2 := (iter_collect umax cc so2 co2 ao2 b2).

Lemma two_next fuel st1 st2 : same st1 st2 ->
  (fst (next1 fuel st1) = fst (next2 fuel st2) /\ same (snd (next1 fuel st1)) (snd (next2 fuel st2))) \/
  ((fst (next1 fuel st1) = Panic \/ exists e, fst (next1 fuel st1) = Ok (Some (inr (FailedAlloc e)))) /\
   LS (snd (next2 fuel st2))).
Proof.
  intros Hs. unfold iter_next, do_next.
  destruct (proj1 (proj1 (w_parser fuel) Base) _ _ Hs) as [[E H]|[E HL]];
    destruct (parse_next umax cc so1 co1 ao1 b1 fuel Base st1) as [r1 s1],
      (parse_next umax cc so2 co2 ao2 b2 fuel Base st2) as [r2 s2]; cbn in *.
  - subst r2. left. destruct r1 as [[d|]|e| |]; cbn; auto.
  - right. split; [destruct E as [->|[e ->]]; cbn; eauto|]. destruct r2 as [[d|]|e| |]; cbn; auto.
Qed.
Lemma two_next_L fuel st : LS st -> LS (snd (next2 fuel st)).
Proof.
  intros H. apply (proj2 (proj1 (w_parser fuel) Base)) in H. unfold iter_next, do_next.
  destruct (parse_next umax cc so2 co2 ao2 b2 fuel Base st) as [[[d|]|e| |] s]; cbn in *; auto.
Qed.
Lemma two_collect_L fuel : forall n st, LS st -> LS (snd (coll2 n fuel st)).
Proof.
  induction n as [|n IH]; intros st H; cbn [iter_collect]; [exact H|].
  apply (two_next_L fuel) in H. destruct (next2 fuel st) as [[[x|]|[]| |] s]; cbn in H; auto.
  specialize (IH s H). destruct (coll2 n fuel s) as [r s']; exact IH.
Qed.

(** Either both runs are the same, or the first one fails to allocate, after the
    items of the second one. *)
Lemma two_collect fuel : forall n st1 st2 l1 s1 l2 s2, same st1 st2 ->
  coll1 n fuel st1 = (Ok l1, s1) -> coll2 n fuel st2 = (Ok l2, s2) ->
  (l1 = l2 /\ same s1 s2) \/
  (LS s2 /\ exists p e q1 q2, l1 = p ++ inr (FailedAlloc e) :: q1 /\ l2 = p ++ q2).
Proof.
  induction n as [|n IH]; intros st1 st2 l1 s1 l2 s2 Hs E1 E2; cbn [iter_collect] in E1, E2; [discriminate|].
  destruct (two_next fuel Hs) as [[E H]|[E HL]].
  - destruct (next1 fuel st1) as [[[x|]|[]| |] t1], (next2 fuel st2) as [r2 t2]; cbn in E, H; subst r2; try discriminate.
    2:{ injection E1 as <- <-. injection E2 as <- <-. auto. }
    destruct (coll1 n fuel t1) as [r1 s1'] eqn:C1; cbn in E1. destruct (coll2 n fuel t2) as [r2 s2'] eqn:C2; cbn in E2.
    destruct r1 as [l1'|[]| |]; try discriminate. destruct r2 as [l2'|[]| |]; try discriminate.
    injection E1 as <- <-. injection E2 as <- <-.
    destruct (IH _ _ _ _ _ _ H C1 C2) as [[-> H']|(HL & p & e & q1 & q2 & -> & ->)]; [auto|].
    right. split; [exact HL|]. exists (x :: p). do 3 eexists. split; reflexivity.
  - right. destruct (next1 fuel st1) as [r1 t1]; cbn in E. destruct E as [->|[e ->]]; [discriminate|]. split.
    + pose proof (two_collect_L fuel (Datatypes.S n) (st:=st2)) as G. cbn [iter_collect] in G. rewrite E2 in G. clear G.
      destruct (next2 fuel st2) as [[[x|]|[]| |] t2] eqn:N2; cbn in HL; try discriminate.
      * pose proof (two_collect_L fuel n HL) as G. destruct (coll2 n fuel t2) as [r2 s2'].
        injection E2 as _ <-. exact G.
      * injection E2 as _ <-. exact HL.
    + destruct (coll1 n fuel t1) as [r1 s1'] eqn:C1. destruct r1 as [l1'|[]| |]; try discriminate. injection E1 as <- <-.
      exists [], e, l1', l2. auto.
Qed.
(** A run of the first one without failing allocations is one of the second. *)
Lemma two_collect_ok fuel : forall n st1 st2 l s1, same st1 st2 ->
  coll1 n fuel st1 = (Ok l, s1) -> (forall e, ~ In (inr (FailedAlloc e)) l) ->
  exists s2, coll2 n fuel st2 = (Ok l, s2) /\ same s1 s2.
Proof.
  induction n as [|n IH]; intros st1 st2 l s1 Hs E1 Hl; cbn [iter_collect] in *; [discriminate|].
  destruct (two_next fuel Hs) as [[E H]|[E HL]].
  - destruct (next1 fuel st1) as [[[x|]|[]| |] t1], (next2 fuel st2) as [r2 t2]; cbn in E, H; subst r2; try discriminate.
    2:{ injection E1 as <- <-. eauto. }
    destruct (coll1 n fuel t1) as [r1 s1'] eqn:C1; cbn in E1.
    destruct r1 as [l1'|[]| |]; try discriminate. injection E1 as <- <-.
    destruct (IH _ _ _ _ H C1) as (s2 & -> & G); [intros e He; apply (Hl e); right; exact He|]. cbn. eauto.
  - destruct (next1 fuel st1) as [r1 t1]; cbn in E. destruct E as [->|[e ->]]; [discriminate|].
    destruct (coll1 n fuel t1) as [r1 s1'] eqn:C1. destruct r1 as [l1'|[]| |]; try discriminate. injection E1 as <- <-.
    exfalso. apply (Hl e). left. reflexivity.
Qed.
End Parser.

(** ** Texts and their streams *)
Section Texts.
Context {TT C CS Pos : Type} (k : chunk_ops C CS Pos) (x1 : text_ops TT C A1) (x2 : text_ops TT C A2).

Definition text_two : Prop :=
  (forall c, tx_from x1 c = tx_from x2 c) /\ concat_two (text_concat_ops x1) (text_concat_ops x2).
Context (HX : text_two).

Lemma two_accum_chunk accum cs a1 a2 : Ra a1 a2 ->
  ops_rel (accum_chunk k x1 accum cs a1) (accum_chunk k x2 accum cs a2).
Proof.
  destruct HX as [HF [HE HC _]]. intros H. unfold accum_chunk. cbn in HE.
  destruct (cs_accum_done k cs) as [[c|[]| |] cs']; try (left; cbn; auto; fail).
  rewrite HE, HF. specialize (HC (match accum with Some t => t | None => tx_empty x2 end) (tx_from x2 c) _ _ H). cbn in HC.
  destruct (tx_concat x1 _ _ a1) as [r1 b1], (tx_concat x2 _ _ a2) as [r2 b2].
  destruct HC as [[E H']|(e & E & HL)]; cbn in *; [left|right]; cbn; eauto.
Qed.
Lemma two_accum_chunk_L accum cs a : L a -> L (snd (snd (accum_chunk k x2 accum cs a))).
Proof.
  destruct HX as [_ [_ _ HC]]. intros H. unfold accum_chunk. destruct (cs_accum_done k cs) as [[c|[]| |] cs']; auto.
  specialize (HC (match accum with Some t => t | None => tx_empty x2 end) (tx_from x2 c) _ H). cbn in HC.
  destruct (tx_concat x2 _ _ a) as [r b]. exact HC.
Qed.

Lemma two_next_accum_loop_L : forall nexts cs accum a, L a -> L (snd (snd (titer_next_accum_loop k x2 nexts cs accum a))).
Proof.
  induction nexts as [| |c rest IH]; intros cs accum a H; cbn [titer_next_accum_loop];
    (destruct (cs_next_accum k cs) as [[[it|]|[]| |] cs']; auto);
    (pose proof (two_accum_chunk_L accum cs' H) as G; destruct (accum_chunk k x2 accum cs' a) as [[t|e| |] [cs2 b]]; cbn in G; auto).
Qed.
Lemma two_next_accum_loop : forall nexts cs accum a1 a2, Ra a1 a2 ->
  ops_rel (titer_next_accum_loop k x1 nexts cs accum a1) (titer_next_accum_loop k x2 nexts cs accum a2).
Proof.
  induction nexts as [| |c rest IH]; intros cs accum a1 a2 H; cbn [titer_next_accum_loop];
    (destruct (cs_next_accum k cs) as [[[it|]|[]| |] cs']; try (left; cbn; auto; fail));
    (pose proof (two_accum_chunk accum cs' H) as G;
     destruct (accum_chunk k x1 accum cs' a1) as [r1 [cs1 b1]], (accum_chunk k x2 accum cs' a2) as [r2 [cs2 b2]];
     destruct G as [(E & E' & G)|(e & E & HL)]; cbn in *;
     [subst r2 cs2; destruct r1 as [t|e| |]; first [apply IH; exact G | left; cbn; auto; fail]
     |subst r1; right; exists e; split; [reflexivity|]; destruct r2 as [t|e'| |]; cbn; auto using two_next_accum_loop_L]).
Qed.
Lemma titer_two : stream_two (titer_stream k x1) (titer_stream k x2).
Proof.
  split; cbn.
  - reflexivity.
  - reflexivity.
  - intros s a1 a2 H. unfold titer_next_accum. destruct (ti_cur s); [apply two_next_accum_loop; exact H|left; cbn; auto].
  - intros s a H. unfold titer_next_accum. destruct (ti_cur s); [apply two_next_accum_loop_L; exact H|exact H].
  - intros s a1 a2 H. unfold titer_accum_done. destruct (ti_cur s) as [cs|].
    + pose proof (two_accum_chunk (ti_accum s) cs H) as G.
      destruct (accum_chunk k x1 (ti_accum s) cs a1) as [r1 [cs1 b1]], (accum_chunk k x2 (ti_accum s) cs a2) as [r2 [cs2 b2]].
      destruct G as [(E & E' & G)|(e & E & HL)]; cbn in *; [subst; left; cbn; auto|right; cbn; eauto].
    + left. cbn. destruct HX as [_ [HE _ _]]. cbn in HE. rewrite HE. auto.
  - intros s a H. unfold titer_accum_done. destruct (ti_cur s) as [cs|]; [|exact H].
    pose proof (two_accum_chunk_L (ti_accum s) cs H) as G.
    destruct (accum_chunk k x2 (ti_accum s) cs a) as [r2 [cs2 b2]]. exact G.
Qed.
End Texts.

Lemma tvec_two {C CS Pos} (k : chunk_ops C CS Pos) : text_two (tvec_ops k) (tvec_ops k).
Proof. split; [reflexivity|]. split; cbn; auto. intros. left. cbn. auto. Qed.

Section DatumList.
Context {C CS Pos ET : Type} (k : chunk_ops C CS Pos) (ao1 : alloc_ops A1 (tdl C ET) ET) (ao2 : alloc_ops A2 (tdl C ET) ET).
Context (HA : alloc_two ao1 ao2).

Lemma two_link u : forall t a1 a2, Ra a1 a2 -> op_rel (tdl_link ao1 t u a1) (tdl_link ao2 t u a2).
Proof.
  destruct HA as (HN & _). fix IH 1. intros [c [d|]] a1 a2 H; [destruct d as [t'| | | | |]|]; cbn [tdl_link]; try (left; cbn; auto; fail).
  - specialize (IH t' _ _ H). destruct (tdl_link ao1 t' u a1) as [r1 b1], (tdl_link ao2 t' u a2) as [r2 b2].
    destruct IH as [[E G]|(e & E & HL)]; cbn in *; subst; [left|right]; cbn; eauto.
  - specialize (HN (DText u) _ _ H). destruct (a_new_datum ao1 (DText u) a1) as [r1 b1], (a_new_datum ao2 (DText u) a2) as [r2 b2].
    destruct HN as [[E G]|(e & E & HL)]; cbn in *; subst; [left|right]; cbn; eauto.
Qed.
Lemma two_link_L u : forall t a, L a -> L (snd (tdl_link ao2 t u a)).
Proof.
  destruct HA as (_ & _ & HL). fix IH 1. intros [c [d|]] a H; [destruct d as [t'| | | | |]|]; cbn [tdl_link]; try exact H.
  - specialize (IH t' _ H). destruct (tdl_link ao2 t' u a) as [r b]. exact IH.
  - specialize (HL (DText u) _ H). destruct (a_new_datum ao2 (DText u) a) as [r b]. exact HL.
Qed.
Lemma tdl_two : text_two (tdl_ops k ao1) (tdl_ops k ao2).
Proof.
  split; [reflexivity|]. split; cbn; [reflexivity| |].
  - intros t u a1 a2 H. unfold tdl_concat. destruct (tdl_is_empty k t) as [[|]| | |]; try (left; cbn; auto; fail).
    destruct (tdl_is_empty k u) as [[|]| | |]; try (left; cbn; auto; fail). apply two_link; exact H.
  - intros t u a H. unfold tdl_concat. destruct (tdl_is_empty k t) as [[|]| | |]; try exact H.
    destruct (tdl_is_empty k u) as [[|]| | |]; try exact H. apply two_link_L; exact H.
Qed.
End DatumList.
End Two.
