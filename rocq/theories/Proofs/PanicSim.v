(** Related collaborators give related runs, where those of instance 1 may panic: with [K] those of
    instance 2 do too and the states left behind are related; without it a run of instance 1 that
    panics says nothing. *)
From Coq Require Import List Arith NArith Bool Lia.
From Verif.Model Require Import Prelude Parser Iter.
From Verif.Proofs Require Import Sim Refine.
Import ListNotations.
Set Implicit Arguments.

Section PanicSim.
Context {S1 A1 T1 E1 P1 C1 S2 A2 T2 E2 P2 C2 : Type}.
Context (umax : N) (cc : classifier).
Context (so1 : stream_ops S1 A1 T1 P1) (co1 : concat_ops A1 T1)
        (ao1 : alloc_ops A1 T1 E1) (bnd1 : bindings A1 T1 E1 P1 C1).
Context (so2 : stream_ops S2 A2 T2 P2) (co2 : concat_ops A2 T2)
        (ao2 : alloc_ops A2 T2 E2) (bnd2 : bindings A2 T2 E2 P2 C2).
Context (K : Prop).
Context (Rs : S1 -> S2 -> Prop) (Ra : A1 -> A2 -> Prop) (Rt : T1 -> T2 -> Prop)
        (Rx : E1 -> E2 -> Prop) (Rp : P1 -> P2 -> Prop) (Rc : C1 -> C2 -> Prop).
Local Notation Rd := (datum_rel Rt Rx).
Local Notation Re := (error_rel Rp Rc).
Local Notation st_rel := (st_rel Rs Ra).
Local Notation Rsa := (Rsa Rs Ra).

Definition kept {X Y R1 R2 E F} (RX : X -> Y -> Prop) (RE : E -> F -> Prop) (Q : R1 -> R2 -> Prop)
  (o1 : res E X * R1) (o2 : res F Y * R2) : Prop :=
  match fst o1 with
  | Ok x1 => exists x2, fst o2 = Ok x2 /\ RX x1 x2 /\ Q (snd o1) (snd o2)
  | Err e1 => exists e2, fst o2 = Err e2 /\ RE e1 e2 /\ Q (snd o1) (snd o2)
  | Panic => K -> fst o2 = Panic /\ Q (snd o1) (snd o2)
  | OutOfFuel => fst o2 = OutOfFuel
  end.
Local Notation any := (fun _ _ => True).

Record stream_kept : Prop := {
  sk_peek : forall s1 s2, Rs s1 s2 -> kept (option_rel (item_rel Rp)) any Rs (s_peek so1 s1) (s_peek so2 s2);
  sk_next : forall s1 s2, Rs s1 s2 -> kept (option_rel (item_rel Rp)) any Rs (s_next so1 s1) (s_next so2 s2);
  sk_next_accum : forall s1 s2 a1 a2, Rs s1 s2 -> Ra a1 a2 ->
    kept (option_rel (item_rel Rp)) eq Rsa (s_next_accum so1 s1 a1) (s_next_accum so2 s2 a2);
  sk_accum_done : forall s1 s2 a1 a2, Rs s1 s2 -> Ra a1 a2 ->
    kept Rt eq Rsa (s_accum_done so1 s1 a1) (s_accum_done so2 s2 a2) }.
Record concat_kept : Prop := {
  ck_empty : Rt (t_empty co1) (t_empty co2);
  ck_concat : forall t1 t1' t2 t2' a1 a2, Rt t1 t2 -> Rt t1' t2' -> Ra a1 a2 ->
    kept Rt eq Ra (t_concat co1 t1 t1' a1) (t_concat co2 t2 t2' a2) }.
Record alloc_kept : Prop := {
  ak_new : forall d1 d2 a1 a2, Rd d1 d2 -> Ra a1 a2 ->
    kept Rd eq Ra (a_new_datum ao1 d1 a1) (a_new_datum ao2 d2 a2);
  ak_get_mut : forall d1 d2 a1 a2, Rd d1 d2 -> Ra a1 a2 -> a_get_mut ao1 d1 a1 = a_get_mut ao2 d2 a2 }.

Definition out {X1 X2} (R : X1 -> X2 -> Prop)
  (o1 : res (error P1 C1) X1 * pstate S1 A1) (o2 : res (error P2 C2) X2 * pstate S2 A2) : Prop :=
  kept R Re st_rel o1 o2.
Definition psim {X1 X2} (R : X1 -> X2 -> Prop)
  (m1 : M (S:=S1) (A:=A1) (Pos:=P1) (CE:=C1) X1)
  (m2 : M (S:=S2) (A:=A2) (Pos:=P2) (CE:=C2) X2) : Prop :=
  forall st1 st2, st_rel st1 st2 -> out R (m1 st1) (m2 st2).

Lemma psim_ret X1 X2 (R : X1 -> X2 -> Prop) x1 x2 : R x1 x2 -> psim R (ret x1) (ret x2).
Proof. intros H st1 st2 Hs. exists x2. auto. Qed.
Lemma psim_raise X1 X2 (R : X1 -> X2 -> Prop) e1 e2 : Re e1 e2 -> psim R (raise e1) (raise e2).
Proof. intros H st1 st2 Hs. exists e2. auto. Qed.
Lemma psim_panic X1 X2 (R : X1 -> X2 -> Prop) : psim R panic panic.
Proof. intros st1 st2 Hs. intros _. auto. Qed.
Lemma psim_nofuel X1 X2 (R : X1 -> X2 -> Prop) : psim R nofuel nofuel.
Proof. intros st1 st2 Hs. reflexivity. Qed.

Lemma psim_bind X1 X2 Y1 Y2 (R : X1 -> X2 -> Prop) (Q : Y1 -> Y2 -> Prop) m1 m2 k1 k2 :
  psim R m1 m2 -> (forall x1 x2, R x1 x2 -> psim Q (k1 x1) (k2 x2)) ->
  psim Q (bind m1 k1) (bind m2 k2).
Proof.
  intros Hm Hk st1 st2 Hs. specialize (Hm st1 st2 Hs). unfold bind, out, kept in *.
  destruct (m1 st1) as [[x1|e1| |] s1]; cbn in *.
  - destruct Hm as (x2 & E & HR & Hs'). destruct (m2 st2) as [r s2]. cbn in *. subst r. exact (Hk _ _ HR _ _ Hs').
  - destruct Hm as (e2 & E & HR & Hs'). destruct (m2 st2) as [r s2]. cbn in *. subst r. cbn. exists e2. auto.
  - intros k. destruct (Hm k) as (E & Hs'). destruct (m2 st2) as [r s2]. cbn in *. subst r. cbn. auto.
  - destruct (m2 st2) as [r s2]. cbn in *. subst r. reflexivity.
Qed.

Lemma psim_if X1 X2 (R : X1 -> X2 -> Prop) (b1 b2 : bool) m1 m2 n1 n2 :
  b1 = b2 -> psim R m1 m2 -> psim R n1 n2 -> psim R (if b1 then m1 else n1) (if b2 then m2 else n2).
Proof. intros -> H1 H2. destruct b2; auto. Qed.

Lemma psim_finally X1 X2 (R : X1 -> X2 -> Prop) m1 m2 f1 f2 :
  psim R m1 m2 -> psim eq f1 f2 -> psim R (finally m1 f1) (finally m2 f2).
Proof.
  intros Hm Hf st1 st2 Hs. specialize (Hm st1 st2 Hs). unfold finally, out, kept in *.
  destruct (m1 st1) as [[x1|e1| |] s1]; cbn in *.
  - destruct Hm as (x2 & E & HR & Hs'). destruct (m2 st2) as [r s2]. cbn in *. subst r.
    assert (J : psim R (bind f1 (fun _ => ret x1)) (bind f2 (fun _ => ret x2))) by (eapply psim_bind; [exact Hf|]; intros _ _ _; apply psim_ret; exact HR).
    exact (J _ _ Hs').
  - destruct Hm as (e2 & E & HR & Hs'). destruct (m2 st2) as [r s2]. cbn in *. subst r.
    assert (J : psim R (bind f1 (fun _ => raise e1)) (bind f2 (fun _ => raise e2))) by (eapply psim_bind; [exact Hf|]; intros _ _ _; apply psim_raise; exact HR).
    exact (J _ _ Hs').
  - intros k. destruct (Hm k) as (E & Hs'). destruct (m2 st2) as [r s2]. cbn in *. subst r. cbn. auto.
  - destruct (m2 st2) as [r s2]. cbn in *. subst r. reflexivity.
Qed.

Lemma psim_get_depth : psim eq get_depth get_depth.
Proof. intros st1 st2 Hs. exists (ps_depth st2). split; [reflexivity|]. split; [apply Hs|exact Hs]. Qed.
Lemma psim_incr_depth : psim eq (incr_depth umax) (incr_depth umax).
Proof.
  intros st1 st2 Hs. pose proof Hs as (H1 & H2 & H3). unfold incr_depth. rewrite H2. destruct (ps_depth st2 <? umax)%N.
  - exists tt. repeat split; auto.
  - intros _. auto.
Qed.
Lemma psim_decr_depth : psim eq decr_depth decr_depth.
Proof.
  intros st1 st2 Hs. pose proof Hs as (H1 & H2 & H3). unfold decr_depth. rewrite H2. destruct (0 <? ps_depth st2)%N.
  - exists tt. repeat split; auto.
  - intros _. auto.
Qed.
Lemma psim_assert b1 b2 : b1 = b2 -> psim eq (assert b1) (assert b2).
Proof. intros ->. destruct b2; [apply psim_ret; auto|apply psim_panic]. Qed.

Context (SK : stream_kept) (CK : concat_kept) (AK : alloc_kept) (BS : bindings_sim bnd1 bnd2 False Ra Rt Rx Rp Rc).

Lemma psim_peek : psim (option_rel (item_rel Rp)) (peek so1) (peek so2).
Proof.
  intros st1 st2 (H1 & H2 & H3). pose proof (sk_peek SK H1) as H. unfold peek, out, kept in *.
  destruct (s_peek so1 (ps_strm st1)) as [[x1|[]| |] s1]; cbn in *; auto.
  - destruct H as (x2 & E & H & Hs). destruct (s_peek so2 (ps_strm st2)) as [r2 s2]. cbn in *. subst r2. exists x2. repeat split; auto.
  - intros k. destruct (H k) as (E & Hs). destruct (s_peek so2 (ps_strm st2)) as [r2 s2]. cbn in *. subst r2. repeat split; auto.
  - destruct (s_peek so2 (ps_strm st2)) as [r2 s2]. cbn in *. subst r2. reflexivity.
Qed.
Lemma psim_next : psim (option_rel (item_rel Rp)) (next so1) (next so2).
Proof.
  intros st1 st2 (H1 & H2 & H3). pose proof (sk_next SK H1) as H. unfold next, out, kept in *.
  destruct (s_next so1 (ps_strm st1)) as [[x1|[]| |] s1]; cbn in *; auto.
  - destruct H as (x2 & E & H & Hs). destruct (s_next so2 (ps_strm st2)) as [r2 s2]. cbn in *. subst r2. exists x2. repeat split; auto.
  - intros k. destruct (H k) as (E & Hs). destruct (s_next so2 (ps_strm st2)) as [r2 s2]. cbn in *. subst r2. repeat split; auto.
  - destruct (s_next so2 (ps_strm st2)) as [r2 s2]. cbn in *. subst r2. reflexivity.
Qed.
Lemma psim_next_accum : psim (option_rel (item_rel Rp)) (next_accum so1) (next_accum so2).
Proof.
  intros st1 st2 (H1 & H2 & H3). pose proof (sk_next_accum SK H1 H3) as H. unfold next_accum, out, kept in *.
  destruct (s_next_accum so1 (ps_strm st1) (ps_alloc st1)) as [[x1|e1| |] [s1 a1]]; cbn in *; auto.
  - destruct H as (x2 & E & H & Hs). destruct (s_next_accum so2 (ps_strm st2) (ps_alloc st2)) as [r2 [s2 a2]]. cbn in *. subst r2. exists x2. repeat split; auto; apply Hs.
  - destruct H as (x2 & E & H & Hs). destruct (s_next_accum so2 (ps_strm st2) (ps_alloc st2)) as [r2 [s2 a2]]. cbn in *. subst r2. exists (FailedAlloc x2). repeat split; auto; apply Hs.
  - intros k. destruct (H k) as (E & Hs). destruct (s_next_accum so2 (ps_strm st2) (ps_alloc st2)) as [r2 [s2 a2]]. cbn in *. subst r2. repeat split; auto; apply Hs.
  - destruct (s_next_accum so2 (ps_strm st2) (ps_alloc st2)) as [r2 [s2 a2]]. cbn in *. subst r2. reflexivity.
Qed.
Lemma psim_accum_done : psim Rt (accum_done so1) (accum_done so2).
Proof.
  intros st1 st2 (H1 & H2 & H3). pose proof (sk_accum_done SK H1 H3) as H. unfold accum_done, out, kept in *.
  destruct (s_accum_done so1 (ps_strm st1) (ps_alloc st1)) as [[x1|e1| |] [s1 a1]]; cbn in *; auto.
  - destruct H as (x2 & E & H & Hs). destruct (s_accum_done so2 (ps_strm st2) (ps_alloc st2)) as [r2 [s2 a2]]. cbn in *. subst r2. exists x2. repeat split; auto; apply Hs.
  - destruct H as (x2 & E & H & Hs). destruct (s_accum_done so2 (ps_strm st2) (ps_alloc st2)) as [r2 [s2 a2]]. cbn in *. subst r2. exists (FailedAlloc x2). repeat split; auto; apply Hs.
  - intros k. destruct (H k) as (E & Hs). destruct (s_accum_done so2 (ps_strm st2) (ps_alloc st2)) as [r2 [s2 a2]]. cbn in *. subst r2. repeat split; auto; apply Hs.
  - destruct (s_accum_done so2 (ps_strm st2) (ps_alloc st2)) as [r2 [s2 a2]]. cbn in *. subst r2. reflexivity.
Qed.
Lemma psim_concat t1 t2 t1' t2' : Rt t1 t2 -> Rt t1' t2' -> psim Rt (concat co1 t1 t1') (concat co2 t2 t2').
Proof.
  intros Ht Ht' st1 st2 (H1 & H2 & H3). pose proof (ck_concat CK Ht Ht' H3) as H. unfold concat, out, kept in *.
  destruct (t_concat co1 t1 t1' (ps_alloc st1)) as [[x1|e1| |] a1]; cbn in *; auto.
  - destruct H as (x2 & E & H & Hs). destruct (t_concat co2 t2 t2' (ps_alloc st2)) as [r2 a2]. cbn in *. subst r2. exists x2. repeat split; auto.
  - destruct H as (x2 & E & H & Hs). destruct (t_concat co2 t2 t2' (ps_alloc st2)) as [r2 a2]. cbn in *. subst r2. exists (FailedAlloc x2). repeat split; auto.
  - intros k. destruct (H k) as (E & Hs). destruct (t_concat co2 t2 t2' (ps_alloc st2)) as [r2 a2]. cbn in *. subst r2. repeat split; auto.
  - destruct (t_concat co2 t2 t2' (ps_alloc st2)) as [r2 a2]. cbn in *. subst r2. reflexivity.
Qed.
Lemma psim_new_datum d1 d2 : Rd d1 d2 -> psim Rd (new_datum ao1 d1) (new_datum ao2 d2).
Proof.
  intros Hd st1 st2 (H1 & H2 & H3). pose proof (ak_new AK _ _ Hd H3) as H. unfold new_datum, out, kept in *.
  destruct (a_new_datum ao1 d1 (ps_alloc st1)) as [[x1|e1| |] a1]; cbn in *; auto.
  - destruct H as (x2 & E & H & Hs). destruct (a_new_datum ao2 d2 (ps_alloc st2)) as [r2 a2]. cbn in *. subst r2. exists x2. repeat split; auto.
  - destruct H as (x2 & E & H & Hs). destruct (a_new_datum ao2 d2 (ps_alloc st2)) as [r2 a2]. cbn in *. subst r2. exists (FailedAlloc x2). repeat split; auto.
  - intros k. destruct (H k) as (E & Hs). destruct (a_new_datum ao2 d2 (ps_alloc st2)) as [r2 a2]. cbn in *. subst r2. repeat split; auto.
  - destruct (a_new_datum ao2 d2 (ps_alloc st2)) as [r2 a2]. cbn in *. subst r2. reflexivity.
Qed.
Lemma psim_call f1 f2 : (forall a1 a2, Ra a1 a2 -> cres_rel False Ra Rt Rx Rp Rc (f1 a1) (f2 a2)) ->
  psim (option_rel Rd) (call f1) (call f2).
Proof.
  intros Hf st1 st2 (H1 & H2 & H3). pose proof (Hf _ _ H3) as H. unfold call, out, kept, cres_rel in *.
  destruct (f1 (ps_alloc st1)) as [[x1|e1] a1], (f2 (ps_alloc st2)) as [[x2|e2] a2]; cbn in *; try tauto.
  - exists x2. repeat split; tauto.
  - exists e2. repeat split; tauto.
Qed.

Lemma psim_skip_whitespace fuel :
  psim eq (skip_whitespace (CE:=C1) cc so1 fuel) (skip_whitespace (CE:=C2) cc so2 fuel).
Proof.
  induction fuel as [|f IH]; cbn [skip_whitespace]; [apply psim_nofuel|].
  eapply psim_bind; [apply psim_peek|]. intros [i1|] [i2|] H; try contradiction.
  - destruct H as [H _]. rewrite H. apply psim_if; [reflexivity| |apply psim_ret; auto].
    eapply psim_bind; [apply psim_next|]. auto.
  - apply psim_ret; auto.
Qed.
Lemma psim_check_end_char d :
  psim eq (check_end_char (CE:=C1) cc so1 d) (check_end_char (CE:=C2) cc so2 d).
Proof.
  unfold check_end_char. eapply psim_bind; [apply psim_peek|]. intros o1 o2 H.
  eapply psim_bind; [apply psim_assert|].
  { destruct o1, o2; try contradiction; auto. destruct H as [-> _]. reflexivity. }
  intros _ _ _. apply psim_if; [reflexivity|apply psim_ret; auto|].
  eapply psim_bind; [apply psim_next|]. intros [i1|] [i2|] Hi; try contradiction.
  - apply psim_raise. apply Hi.
  - apply psim_panic.
Qed.
Lemma psim_concat_accum t1 t2 : Rt t1 t2 ->
  psim Rt (concat_accum (CE:=C1) so1 co1 t1) (concat_accum (CE:=C2) so2 co2 t2).
Proof.
  intros Ht. eapply psim_bind; [apply psim_accum_done|]. intros. apply psim_concat; auto.
Qed.
Lemma psim_parse_text_done t1 t2 nl : Rt t1 t2 ->
  psim Rt (parse_text_done (CE:=C1) so1 co1 t1 nl) (parse_text_done (CE:=C2) so2 co2 t2 nl).
Proof.
  intros Ht. apply psim_if; [reflexivity| |apply psim_raise; exact I].
  apply psim_concat_accum; auto.
Qed.
Lemma psim_parse_text_loop fuel m : forall t1 t2 nl, Rt t1 t2 ->
  psim Rt (parse_text_loop (CE:=C1) umax cc so1 co1 fuel m t1 nl)
         (parse_text_loop (CE:=C2) umax cc so2 co2 fuel m t2 nl).
Proof.
  induction fuel as [|f IH]; intros t1 t2 nl Ht; cbn [parse_text_loop]; [apply psim_nofuel|].
  eapply psim_bind; [apply psim_peek|]. intros [i1|] [i2|] H; try contradiction.
  2:{ apply psim_parse_text_done; auto. }
  destruct H as [H _]. rewrite H. cbv zeta.
  apply psim_if; [reflexivity|apply psim_parse_text_done; auto|].
  apply psim_if; [reflexivity| |].
  { eapply psim_bind; [apply psim_concat_accum; eauto|]. intros t1' t2' Ht'.
    eapply psim_bind; [apply psim_next|]. intros _ _ _.
    eapply psim_bind; [apply psim_next_accum|]. intros _ _ _. auto. }
  apply psim_if; [reflexivity| |].
  { eapply psim_bind; [apply psim_next_accum|]. intros _ _ _.
    apply psim_if; [reflexivity| |apply psim_panic]. auto. }
  apply psim_if; [reflexivity| |].
  { apply psim_if; [reflexivity| |].
    - eapply psim_bind; [apply psim_next_accum|]. intros _ _ _. auto.
    - eapply psim_bind; [apply psim_get_depth|]. intros d _ <-.
      eapply psim_bind; [apply psim_check_end_char|]. intros _ _ _.
      apply psim_parse_text_done; auto. }
  eapply psim_bind; [apply psim_next_accum|]. intros _ _ _. auto.
Qed.
Lemma psim_parse_text fuel m :
  psim Rt (parse_text (CE:=C1) umax cc so1 co1 fuel m) (parse_text (CE:=C2) umax cc so2 co2 fuel m).
Proof. apply psim_parse_text_loop. apply CK. Qed.
Lemma psim_nest_end : psim eq (nest_end (CE:=C1) cc so1) (nest_end (CE:=C2) cc so2).
Proof.
  eapply psim_bind; [apply psim_next|]. intros [i1|] [i2|] H; try contradiction.
  - apply psim_assert. destruct H as [-> _]. reflexivity.
  - apply psim_raise; exact I.
Qed.

Lemma psim_parser fuel :
  (forall m, psim (option_rel Rd) (parse_next umax cc so1 co1 ao1 bnd1 fuel m)
                                 (parse_next umax cc so2 co2 ao2 bnd2 fuel m)) /\
  psim (option_rel Rd) (parse_nested umax cc so1 co1 ao1 bnd1 fuel)
                      (parse_nested umax cc so2 co2 ao2 bnd2 fuel) /\
  (forall m, psim Rd (parse_all umax cc so1 co1 ao1 bnd1 fuel m)
                    (parse_all umax cc so2 co2 ao2 bnd2 fuel m)).
Proof.
  induction fuel as [|fuel (IH1 & IH2 & IH3)].
  { repeat split; intros; apply psim_nofuel. }
  split; [|split].
  - intros m. cbn [parse_next]. cbv zeta.
    eapply psim_bind with (R := eq).
    { apply psim_if; [reflexivity|apply psim_skip_whitespace|apply psim_ret; auto]. }
    intros _ _ _. eapply psim_bind; [apply psim_peek|].
    intros [i1|] [i2|] H; try contradiction.
    + destruct H as [H _]. rewrite H.
      apply psim_if; [reflexivity| |].
      { eapply psim_bind; [apply psim_incr_depth|]. intros _ _ _.
        eapply psim_bind; [apply psim_finally; [exact IH2|apply psim_decr_depth]|].
        intros [d1|] [d2|] Hd; try contradiction; [apply psim_ret; exact Hd|apply IH1]. }
      apply psim_if; [reflexivity| |].
      { eapply psim_bind; [apply psim_get_depth|]. intros d _ <-.
        eapply psim_bind; [apply psim_check_end_char|]. intros _ _ _. apply psim_ret; exact I. }
      eapply psim_bind; [apply psim_parse_text|]. intros t1 t2 Ht. apply psim_ret. exact Ht.
    + eapply psim_bind; [apply psim_get_depth|]. intros d _ <-.
      apply psim_if; [reflexivity|apply psim_ret; exact I|apply psim_raise; exact I].
  - cbn [parse_nested].
    eapply psim_bind; [apply psim_next|]. intros o1 o2 H.
    eapply psim_bind; [apply psim_assert|].
    { destruct o1, o2; try contradiction; auto. destruct H as [-> _]. reflexivity. }
    intros _ _ _. eapply psim_bind; [apply IH1|]. intros op1 op2 Hop.
    eapply psim_bind; [apply psim_peek|]. intros p1 p2 Hp.
    eapply psim_bind with (R := eq).
    { destruct p1 as [i1|], p2 as [i2|]; try contradiction; [|apply psim_ret; auto].
      destruct Hp as [Hp _]. rewrite Hp. apply psim_if; [reflexivity| |apply psim_ret; auto].
      eapply psim_bind; [apply psim_next|]. intros. apply psim_ret; auto. }
    intros _ _ _. destruct op1 as [op1|], op2 as [op2|]; try contradiction.
    2:{ eapply psim_bind; [apply psim_nest_end|]. intros _ _ _. apply psim_ret. exact I. }
    cbn in Hop. pose proof (BS _ _ Hop) as HB.
    destruct (bnd1 op1) as [[f1|f1]|], (bnd2 op2) as [[f2|f2]|]; try contradiction; cbn in HB.
    + eapply psim_bind; [apply psim_parse_text|]. intros t1 t2 Ht.
      eapply psim_bind; [apply psim_nest_end|]. intros _ _ _.
      apply psim_call. auto.
    + eapply psim_bind; [apply IH3|]. intros t1 t2 Ht.
      eapply psim_bind; [apply psim_nest_end|]. intros _ _ _.
      apply psim_call. auto.
    + eapply psim_bind; [apply IH3|]. intros t1 t2 Ht.
      eapply psim_bind; [apply psim_nest_end|]. intros _ _ _.
      eapply psim_bind; [apply psim_new_datum; eassumption|]. intros r1 r2 Hr.
      eapply psim_bind; [apply psim_new_datum; eassumption|]. intros q1 q2 Hq.
      apply psim_ret. split; assumption.
  - intros m. cbn [parse_all]. eapply psim_bind; [apply IH1|].
    intros [d1|] [d2|] Hd; try contradiction; [|apply psim_ret; exact I].
    eapply psim_bind; [apply psim_new_datum; exact Hd|]. intros e1 e2 He.
    eapply psim_bind; [apply psim_new_datum; exact I|]. intros n1 n2 Hn.
    eapply psim_bind with (R := eq).
    { intros st1 st2 Hs. eexists. split; [reflexivity|]. split; [|exact Hs]. cbn. apply AK; [exact Hn|apply Hs]. }
    intros b _ <-. apply psim_if; [reflexivity| |apply psim_raise; exact I].
    eapply psim_bind; [apply IH3|]. intros t1 t2 Ht. apply psim_ret. split; assumption.
Qed.

Local Notation pitem_rel := (pitem_rel Rt Rx Rp Rc).
Lemma psim_iter_next fuel st1 st2 : st_rel st1 st2 ->
  kept (option_rel pitem_rel) any st_rel (iter_next umax cc so1 co1 ao1 bnd1 fuel st1) (iter_next umax cc so2 co2 ao2 bnd2 fuel st2).
Proof.
  intros H. pose proof (proj1 (psim_parser fuel) Base st1 st2 H) as G. unfold iter_next, do_next, out, kept in *.
  destruct (parse_next umax cc so1 co1 ao1 bnd1 fuel Base st1) as [[[d1|]|e1| |] s1]; cbn in *; auto.
  - destruct G as ([d2|] & E & HR & Hs); [|destruct HR]. destruct (parse_next umax cc so2 co2 ao2 bnd2 fuel Base st2) as [r s2]. cbn in *. subst r. eexists. split; [reflexivity|]. auto.
  - destruct G as ([d2|] & E & HR & Hs); [destruct HR|]. destruct (parse_next umax cc so2 co2 ao2 bnd2 fuel Base st2) as [r s2]. cbn in *. subst r. eexists. split; [reflexivity|]. auto.
  - destruct G as (e2 & E & HR & Hs). destruct (parse_next umax cc so2 co2 ao2 bnd2 fuel Base st2) as [r s2]. cbn in *. subst r. eexists. split; [reflexivity|]. auto.
  - intros k. destruct (G k) as (E & Hs). destruct (parse_next umax cc so2 co2 ao2 bnd2 fuel Base st2) as [r s2]. cbn in *. subst r. cbn. auto.
  - destruct (parse_next umax cc so2 co2 ao2 bnd2 fuel Base st2) as [r s2]. cbn in *. subst r. reflexivity.
Qed.
End PanicSim.
