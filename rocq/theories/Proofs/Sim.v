(** Relational parametricity of the generic parser: related collaborators give
    related runs.  With [L] instance 1 may also fail to allocate where instance
    2 does not. *)
From Coq Require Import List Arith NArith Bool Lia.
From Verif.Model Require Import Prelude Parser Iter.
From Verif.Proofs Require Import Depth.
Import ListNotations.
Set Implicit Arguments.

Definition option_rel {X Y} (R : X -> Y -> Prop) (o1 : option X) (o2 : option Y) : Prop :=
  match o1, o2 with
  | Some x, Some y => R x y
  | None, None => True
  | _, _ => False
  end.

Definition item_rel {P1 P2} (Rp : P1 -> P2 -> Prop) (i1 : item P1) (i2 : item P2) : Prop :=
  it_ch i1 = it_ch i2 /\ Rp (it_pos i1) (it_pos i2).

Fixpoint datum_rel {T1 T2 E1 E2} (Rt : T1 -> T2 -> Prop) (Rx : E1 -> E2 -> Prop)
  (d1 : datum T1 E1) (d2 : datum T2 E2) : Prop :=
  match d1, d2 with
  | DText t1, DText t2 => Rt t1 t2
  | DComb a1 b1, DComb a2 b2 => datum_rel Rt Rx a1 a2 /\ datum_rel Rt Rx b1 b2
  | DEmptyNest, DEmptyNest => True
  | DList a1 b1, DList a2 b2 => datum_rel Rt Rx a1 a2 /\ datum_rel Rt Rx b1 b2
  | DEmptyList, DEmptyList => True
  | DExtra x1, DExtra x2 => Rx x1 x2
  | _, _ => False
  end.

Definition error_rel {P1 P2 C1 C2} (Rp : P1 -> P2 -> Prop) (Rc : C1 -> C2 -> Prop)
  (e1 : error P1 C1) (e2 : error P2 C2) : Prop :=
  match e1, e2 with
  | UnbalancedEndChar p1, UnbalancedEndChar p2 => Rp p1 p2
  | MissingEndChar, MissingEndChar => True
  | FailedAlloc _, FailedAlloc _ => True
  | FailedDerefTryMut, FailedDerefTryMut => True
  | FailedCombiner c1, FailedCombiner c2 => Rc c1 c2
  | _, _ => False
  end.

Section Sim.
Context {S1 A1 T1 E1 P1 C1 S2 A2 T2 E2 P2 C2 : Type}.
Context (umax : N) (cc : classifier).
Context (so1 : stream_ops S1 A1 T1 P1) (co1 : concat_ops A1 T1)
        (ao1 : alloc_ops A1 T1 E1) (bnd1 : bindings A1 T1 E1 P1 C1).
Context (so2 : stream_ops S2 A2 T2 P2) (co2 : concat_ops A2 T2)
        (ao2 : alloc_ops A2 T2 E2) (bnd2 : bindings A2 T2 E2 P2 C2).
Context (L : Prop).
Context (Rs : S1 -> S2 -> Prop) (Ra : A1 -> A2 -> Prop) (Rt : T1 -> T2 -> Prop)
        (Rx : E1 -> E2 -> Prop) (Rp : P1 -> P2 -> Prop) (Rc : C1 -> C2 -> Prop).

Local Notation Rd := (datum_rel Rt Rx).
Local Notation Re := (error_rel Rp Rc).

Definition is_alloc_fail {P C} (e : error P C) : Prop :=
  match e with FailedAlloc _ => True | _ => False end.

(** Relation of the results of stream, concat and allocator operations. *)
Definition ares_rel {X1 X2 Y1 Y2} (R : X1 -> X2 -> Prop) (Q : Y1 -> Y2 -> Prop)
  (o1 : res alloc_error X1 * Y1) (o2 : res alloc_error X2 * Y2) : Prop :=
  match fst o1, fst o2 with
  | Ok x1, Ok x2 => R x1 x2 /\ Q (snd o1) (snd o2)
  | Err _, Err _ => L \/ Q (snd o1) (snd o2)
  | Err _, _ => L
  | Panic, Panic => True
  | OutOfFuel, OutOfFuel => True
  | _, _ => False
  end.

Definition pres_rel {X1 X2 Y1 Y2} (R : X1 -> X2 -> Prop) (Q : Y1 -> Y2 -> Prop)
  (o1 : res Empty_set X1 * Y1) (o2 : res Empty_set X2 * Y2) : Prop :=
  match fst o1, fst o2 with
  | Ok x1, Ok x2 => R x1 x2 /\ Q (snd o1) (snd o2)
  | Panic, Panic => True
  | OutOfFuel, OutOfFuel => True
  | _, _ => False
  end.

Definition Rsa (x : S1 * A1) (y : S2 * A2) : Prop := Rs (fst x) (fst y) /\ Ra (snd x) (snd y).

Record stream_sim : Prop := {
  ss_peek : forall s1 s2, Rs s1 s2 ->
    pres_rel (option_rel (item_rel Rp)) Rs (s_peek so1 s1) (s_peek so2 s2);
  ss_next : forall s1 s2, Rs s1 s2 ->
    pres_rel (option_rel (item_rel Rp)) Rs (s_next so1 s1) (s_next so2 s2);
  ss_next_accum : forall s1 s2 a1 a2, Rs s1 s2 -> Ra a1 a2 ->
    ares_rel (option_rel (item_rel Rp)) Rsa (s_next_accum so1 s1 a1) (s_next_accum so2 s2 a2);
  ss_accum_done : forall s1 s2 a1 a2, Rs s1 s2 -> Ra a1 a2 ->
    ares_rel Rt Rsa (s_accum_done so1 s1 a1) (s_accum_done so2 s2 a2) }.

Record concat_sim : Prop := {
  cs_empty : Rt (t_empty co1) (t_empty co2);
  cs_concat : forall t1 t1' t2 t2' a1 a2, Rt t1 t2 -> Rt t1' t2' -> Ra a1 a2 ->
    ares_rel Rt Ra (t_concat co1 t1 t1' a1) (t_concat co2 t2 t2' a2) }.

Record alloc_sim : Prop := {
  as_new : forall d1 d2 a1 a2, Rd d1 d2 -> Ra a1 a2 ->
    ares_rel Rd Ra (a_new_datum ao1 d1 a1) (a_new_datum ao2 d2 a2);
  as_get_mut : forall d1 d2 a1 a2, Rd d1 d2 -> Ra a1 a2 ->
    a_get_mut ao1 d1 a1 = a_get_mut ao2 d2 a2 }.

(** Results of combiners. *)
Definition cres_rel (o1 : (option (datum T1 E1) + error P1 C1) * A1)
  (o2 : (option (datum T2 E2) + error P2 C2) * A2) : Prop :=
  match fst o1, fst o2 with
  | inl x1, inl x2 => option_rel Rd x1 x2 /\ Ra (snd o1) (snd o2)
  | inr e1, inr e2 => (Re e1 e2 /\ Ra (snd o1) (snd o2)) \/ (L /\ is_alloc_fail e1)
  | inr e1, inl _ => L /\ is_alloc_fail e1
  | inl _, inr _ => False
  end.

Definition combiner_rel (c1 : combiner A1 T1 E1 P1 C1) (c2 : combiner A2 T2 E2 P2 C2) : Prop :=
  match c1, c2 with
  | Operative f1, Operative f2 => forall d1 d2 t1 t2 a1 a2,
      Rd d1 d2 -> Rt t1 t2 -> Ra a1 a2 -> cres_rel (f1 d1 t1 a1) (f2 d2 t2 a2)
  | Applicative f1, Applicative f2 => forall d1 d2 b1 b2 a1 a2,
      Rd d1 d2 -> Rd b1 b2 -> Ra a1 a2 -> cres_rel (f1 d1 b1 a1) (f2 d2 b2 a2)
  | _, _ => False
  end.

Definition bindings_sim : Prop := forall d1 d2, Rd d1 d2 ->
  option_rel combiner_rel (bnd1 d1) (bnd2 d2).

Definition st_rel (st1 : pstate S1 A1) (st2 : pstate S2 A2) : Prop :=
  Rs (ps_strm st1) (ps_strm st2) /\ ps_depth st1 = ps_depth st2 /\
  Ra (ps_alloc st1) (ps_alloc st2).

(** Relation of complete outcomes. *)
Definition out_rel {X1 X2} (R : X1 -> X2 -> Prop)
  (o1 : res (error P1 C1) X1 * pstate S1 A1) (o2 : res (error P2 C2) X2 * pstate S2 A2) : Prop :=
  match fst o1, fst o2 with
  | Ok x1, Ok x2 => R x1 x2 /\ st_rel (snd o1) (snd o2)
  | Err e1, Err e2 => (Re e1 e2 /\ st_rel (snd o1) (snd o2)) \/ (L /\ is_alloc_fail e1)
  | Err e1, _ => L /\ is_alloc_fail e1
  | Panic, Panic => True
  | OutOfFuel, OutOfFuel => True
  | _, _ => False
  end.

Definition sim {X1 X2} (R : X1 -> X2 -> Prop)
  (m1 : M (S:=S1) (A:=A1) (Pos:=P1) (CE:=C1) X1)
  (m2 : M (S:=S2) (A:=A2) (Pos:=P2) (CE:=C2) X2) : Prop :=
  forall st1 st2, st_rel st1 st2 -> out_rel R (m1 st1) (m2 st2).

Lemma sim_ret X1 X2 (R : X1 -> X2 -> Prop) x1 x2 : R x1 x2 -> sim R (ret x1) (ret x2).
Proof. intros H st1 st2 Hs. split; auto. Qed.

Lemma sim_raise X1 X2 (R : X1 -> X2 -> Prop) e1 e2 : Re e1 e2 -> sim R (raise e1) (raise e2).
Proof. intros H st1 st2 Hs. left. auto. Qed.

Lemma sim_panic X1 X2 (R : X1 -> X2 -> Prop) : sim R panic panic.
Proof. intros st1 st2 Hs. exact I. Qed.

Lemma sim_nofuel X1 X2 (R : X1 -> X2 -> Prop) : sim R nofuel nofuel.
Proof. intros st1 st2 Hs. exact I. Qed.

Lemma sim_bind X1 X2 Y1 Y2 (R : X1 -> X2 -> Prop) (Q : Y1 -> Y2 -> Prop) m1 m2 k1 k2 :
  sim R m1 m2 -> (forall x1 x2, R x1 x2 -> sim Q (k1 x1) (k2 x2)) ->
  sim Q (bind m1 k1) (bind m2 k2).
Proof.
  intros Hm Hk st1 st2 Hs. specialize (Hm st1 st2 Hs).
  unfold bind, out_rel in *.
  destruct (m1 st1) as [[x1|e1| |] s1], (m2 st2) as [[x2|e2| |] s2]; cbn in *; try tauto.
  - destruct Hm as [HR Hs']. exact (Hk _ _ HR _ _ Hs').
  - destruct (k2 x2 s2) as [[| | |] ?]; cbn; tauto.
Qed.

Lemma sim_if X1 X2 (R : X1 -> X2 -> Prop) (b1 b2 : bool) m1 m2 n1 n2 :
  b1 = b2 -> sim R m1 m2 -> sim R n1 n2 -> sim R (if b1 then m1 else n1) (if b2 then m2 else n2).
Proof. intros -> H1 H2. destruct b2; auto. Qed.

Lemma sim_get_depth : sim eq get_depth get_depth.
Proof. intros st1 st2 Hs. split; auto. apply Hs. Qed.

Lemma sim_incr_depth : sim eq (incr_depth umax) (incr_depth umax).
Proof.
  intros st1 st2 (H1 & H2 & H3). unfold incr_depth. rewrite H2.
  destruct (ps_depth st2 <? umax)%N; cbn; auto. split; auto. repeat split; auto.
Qed.

Lemma sim_decr_depth : sim eq decr_depth decr_depth.
Proof.
  intros st1 st2 (H1 & H2 & H3). unfold decr_depth. rewrite H2.
  destruct (0 <? ps_depth st2)%N; cbn; auto. split; auto. repeat split; auto.
Qed.

Lemma sim_assert b1 b2 : b1 = b2 -> sim eq (assert b1) (assert b2).
Proof. intros ->. destruct b2; [apply sim_ret; auto|apply sim_panic]. Qed.

Context (SS : stream_sim) (CS : concat_sim) (AS : alloc_sim) (BS : bindings_sim).

Lemma sim_peek : sim (option_rel (item_rel Rp)) (peek so1) (peek so2).
Proof.
  intros st1 st2 (H1 & H2 & H3). pose proof (ss_peek SS H1) as H.
  unfold peek, out_rel, pres_rel in *.
  destruct (s_peek so1 (ps_strm st1)) as [[x1|[]| |] s1],
           (s_peek so2 (ps_strm st2)) as [[x2|[]| |] s2]; cbn in *; try tauto.
  repeat split; tauto.
Qed.

Lemma sim_next : sim (option_rel (item_rel Rp)) (next so1) (next so2).
Proof.
  intros st1 st2 (H1 & H2 & H3). pose proof (ss_next SS H1) as H.
  unfold next, out_rel, pres_rel in *.
  destruct (s_next so1 (ps_strm st1)) as [[x1|[]| |] s1],
           (s_next so2 (ps_strm st2)) as [[x2|[]| |] s2]; cbn in *; try tauto.
  repeat split; tauto.
Qed.

Lemma sim_next_accum : sim (option_rel (item_rel Rp)) (next_accum so1) (next_accum so2).
Proof.
  intros st1 st2 (H1 & H2 & H3). pose proof (ss_next_accum SS H1 H3) as H.
  unfold next_accum, out_rel, ares_rel, Rsa in *.
  destruct (s_next_accum so1 (ps_strm st1) (ps_alloc st1)) as [[x1|e1| |] [s1 a1]],
           (s_next_accum so2 (ps_strm st2) (ps_alloc st2)) as [[x2|e2| |] [s2 a2]];
    cbn in *; unfold st_rel; cbn; try tauto.
Qed.

Lemma sim_accum_done : sim Rt (accum_done so1) (accum_done so2).
Proof.
  intros st1 st2 (H1 & H2 & H3). pose proof (ss_accum_done SS H1 H3) as H.
  unfold accum_done, out_rel, ares_rel, Rsa in *.
  destruct (s_accum_done so1 (ps_strm st1) (ps_alloc st1)) as [[x1|e1| |] [s1 a1]],
           (s_accum_done so2 (ps_strm st2) (ps_alloc st2)) as [[x2|e2| |] [s2 a2]];
    cbn in *; unfold st_rel; cbn; try tauto.
Qed.

Lemma sim_concat t1 t2 t1' t2' : Rt t1 t2 -> Rt t1' t2' ->
  sim Rt (concat co1 t1 t1') (concat co2 t2 t2').
Proof.
  intros Ht Ht' st1 st2 (H1 & H2 & H3). pose proof (cs_concat CS Ht Ht' H3) as H.
  unfold concat, out_rel, ares_rel in *.
  destruct (t_concat co1 t1 t1' (ps_alloc st1)) as [[x1|e1| |] a1],
           (t_concat co2 t2 t2' (ps_alloc st2)) as [[x2|e2| |] a2];
    cbn in *; unfold st_rel; cbn; try tauto.
Qed.

Lemma sim_new_datum d1 d2 : Rd d1 d2 -> sim Rd (new_datum ao1 d1) (new_datum ao2 d2).
Proof.
  intros Hd st1 st2 (H1 & H2 & H3). pose proof (as_new AS _ _ Hd H3) as H.
  unfold new_datum, out_rel, ares_rel in *.
  destruct (a_new_datum ao1 d1 (ps_alloc st1)) as [[x1|e1| |] a1],
           (a_new_datum ao2 d2 (ps_alloc st2)) as [[x2|e2| |] a2];
    cbn in *; unfold st_rel; cbn; try tauto.
Qed.

Lemma sim_call f1 f2 : (forall a1 a2, Ra a1 a2 -> cres_rel (f1 a1) (f2 a2)) ->
  sim (option_rel Rd) (call f1) (call f2).
Proof.
  intros Hf st1 st2 (H1 & H2 & H3). pose proof (Hf _ _ H3) as H.
  unfold call, out_rel, cres_rel in *.
  destruct (f1 (ps_alloc st1)) as [[x1|e1] a1],
           (f2 (ps_alloc st2)) as [[x2|e2] a2];
    cbn in *; unfold st_rel; cbn; try tauto.
Qed.

Lemma sim_skip_whitespace fuel :
  sim eq (skip_whitespace (CE:=C1) cc so1 fuel) (skip_whitespace (CE:=C2) cc so2 fuel).
Proof.
  induction fuel as [|f IH]; cbn [skip_whitespace]; [apply sim_nofuel|].
  eapply sim_bind; [apply sim_peek|]. intros [i1|] [i2|] H; try contradiction.
  - destruct H as [H _]. rewrite H. apply sim_if; [reflexivity| |apply sim_ret; auto].
    eapply sim_bind; [apply sim_next|]. auto.
  - apply sim_ret; auto.
Qed.

Lemma sim_check_end_char d :
  sim eq (check_end_char (CE:=C1) cc so1 d) (check_end_char (CE:=C2) cc so2 d).
Proof.
  unfold check_end_char. eapply sim_bind; [apply sim_peek|]. intros o1 o2 H.
  eapply sim_bind; [apply sim_assert|].
  { destruct o1, o2; try contradiction; auto. destruct H as [-> _]. reflexivity. }
  intros _ _ _. apply sim_if; [reflexivity|apply sim_ret; auto|].
  eapply sim_bind; [apply sim_next|]. intros [i1|] [i2|] Hi; try contradiction.
  - apply sim_raise. apply Hi.
  - apply sim_panic.
Qed.

Lemma sim_concat_accum t1 t2 : Rt t1 t2 ->
  sim Rt (concat_accum (CE:=C1) so1 co1 t1) (concat_accum (CE:=C2) so2 co2 t2).
Proof.
  intros Ht. eapply sim_bind; [apply sim_accum_done|]. intros. apply sim_concat; auto.
Qed.

Lemma sim_parse_text_done t1 t2 nl : Rt t1 t2 ->
  sim Rt (parse_text_done (CE:=C1) so1 co1 t1 nl) (parse_text_done (CE:=C2) so2 co2 t2 nl).
Proof.
  intros Ht. apply sim_if; [reflexivity| |apply sim_raise; exact I].
  apply sim_concat_accum; auto.
Qed.

Lemma sim_parse_text_loop fuel m : forall t1 t2 nl, Rt t1 t2 ->
  sim Rt (parse_text_loop (CE:=C1) umax cc so1 co1 fuel m t1 nl)
         (parse_text_loop (CE:=C2) umax cc so2 co2 fuel m t2 nl).
Proof.
  induction fuel as [|f IH]; intros t1 t2 nl Ht; cbn [parse_text_loop]; [apply sim_nofuel|].
  eapply sim_bind; [apply sim_peek|]. intros [i1|] [i2|] H; try contradiction.
  2:{ apply sim_parse_text_done; auto. }
  destruct H as [H _]. rewrite H. cbv zeta.
  apply sim_if; [reflexivity|apply sim_parse_text_done; auto|].
  apply sim_if; [reflexivity| |].
  { eapply sim_bind; [apply sim_concat_accum; eauto|]. intros t1' t2' Ht'.
    eapply sim_bind; [apply sim_next|]. intros _ _ _.
    eapply sim_bind; [apply sim_next_accum|]. intros _ _ _. auto. }
  apply sim_if; [reflexivity| |].
  { eapply sim_bind; [apply sim_next_accum|]. intros _ _ _.
    apply sim_if; [reflexivity| |apply sim_panic]. auto. }
  apply sim_if; [reflexivity| |].
  { apply sim_if; [reflexivity| |].
    - eapply sim_bind; [apply sim_next_accum|]. intros _ _ _. auto.
    - eapply sim_bind; [apply sim_get_depth|]. intros d _ <-.
      eapply sim_bind; [apply sim_check_end_char|]. intros _ _ _.
      apply sim_parse_text_done; auto. }
  eapply sim_bind; [apply sim_next_accum|]. intros _ _ _. auto.
Qed.

Lemma sim_parse_text fuel m :
  sim Rt (parse_text (CE:=C1) umax cc so1 co1 fuel m) (parse_text (CE:=C2) umax cc so2 co2 fuel m).
Proof. apply sim_parse_text_loop. apply CS. Qed.

Lemma sim_nest_end : sim eq (nest_end (CE:=C1) cc so1) (nest_end (CE:=C2) cc so2).
Proof.
  eapply sim_bind; [apply sim_next|]. intros [i1|] [i2|] H; try contradiction.
  - apply sim_assert. destruct H as [-> _]. reflexivity.
  - apply sim_raise; exact I.
Qed.

Lemma sim_enter X1 X2 (R : X1 -> X2 -> Prop) m1 m2 :
  keeps_depth m1 -> sim R m1 m2 ->
  sim R (bind (incr_depth umax) (fun _ => finally m1 decr_depth))
        (bind (incr_depth umax) (fun _ => finally m2 decr_depth)).
Proof.
  intros Kd Hm st1 st2 (H1 & H2 & H3). unfold bind, incr_depth. rewrite H2.
  destruct (ps_depth st2 <? umax)%N; cbn; [|exact I].
  specialize (Kd (PState (ps_strm st1) (ps_depth st2 + 1) (ps_alloc st1))).
  specialize (Hm (PState (ps_strm st1) (ps_depth st2 + 1) (ps_alloc st1))
                 (PState (ps_strm st2) (ps_depth st2 + 1) (ps_alloc st2))).
  unfold finally, out_rel in *.
  destruct (m1 _) as [[x1|e1| |] s1], (m2 _) as [[x2|e2| |] s2]; cbn in *;
    specialize (Hm (conj H1 (conj eq_refl H3))); try tauto;
    unfold bind, decr_depth;
    try (replace (0 <? ps_depth s1)%N with true by (symmetry; apply N.ltb_lt; lia));
    cbn; try tauto.
  - destruct Hm as [HR (h1 & h2 & h3)]. rewrite h2 in *.
    replace (0 <? ps_depth s2)%N with true by (symmetry; apply N.ltb_lt; lia).
    cbn. repeat split; cbn; congruence || auto.
  - destruct (0 <? ps_depth s2)%N; cbn; tauto.
  - destruct Hm as [(HR & (h1 & h2 & h3))|Hm].
    + rewrite h2 in *.
      replace (0 <? ps_depth s2)%N with true by (symmetry; apply N.ltb_lt; lia).
      cbn. left. repeat split; cbn; congruence || auto.
    + destruct (0 <? ps_depth s2)%N; cbn; tauto.
Qed.

Lemma sim_parser fuel :
  (forall m, sim (option_rel Rd) (parse_next umax cc so1 co1 ao1 bnd1 fuel m)
                                 (parse_next umax cc so2 co2 ao2 bnd2 fuel m)) /\
  sim (option_rel Rd) (parse_nested umax cc so1 co1 ao1 bnd1 fuel)
                      (parse_nested umax cc so2 co2 ao2 bnd2 fuel) /\
  (forall m, sim Rd (parse_all umax cc so1 co1 ao1 bnd1 fuel m)
                    (parse_all umax cc so2 co2 ao2 bnd2 fuel m)).
Proof.
  induction fuel as [|fuel (IH1 & IH2 & IH3)].
  { repeat split; intros; apply sim_nofuel. }
  split; [|split].
  - intros m. cbn [parse_next]. cbv zeta.
    eapply sim_bind with (R := eq).
    { apply sim_if; [reflexivity|apply sim_skip_whitespace|apply sim_ret; auto]. }
    intros _ _ _. eapply sim_bind; [apply sim_peek|].
    intros [i1|] [i2|] H; try contradiction.
    + destruct H as [H _]. rewrite H.
      apply sim_if; [reflexivity| |].
      { assert (sim (option_rel Rd)
          (bind (bind (incr_depth umax) (fun _ => finally (parse_nested umax cc so1 co1 ao1 bnd1 fuel) decr_depth))
             (fun r => match r with
                       | Some d => ret (Some d) | None => parse_next umax cc so1 co1 ao1 bnd1 fuel m end))
          (bind (bind (incr_depth umax) (fun _ => finally (parse_nested umax cc so2 co2 ao2 bnd2 fuel) decr_depth))
             (fun r => match r with
                       | Some d => ret (Some d) | None => parse_next umax cc so2 co2 ao2 bnd2 fuel m end))) as Z.
        { eapply sim_bind; [apply sim_enter; [apply (kd_parse umax cc so1 co1 ao1 bnd1 fuel)|exact IH2]|].
          intros [d1|] [d2|] Hd; try contradiction; [apply sim_ret; exact Hd|apply IH1]. }
        intros st1 st2 Hs. specialize (Z st1 st2 Hs). unfold bind in *.
        destruct (incr_depth umax st1) as [[| | |] ?], (incr_depth umax st2) as [[| | |] ?]; exact Z. }
      apply sim_if; [reflexivity| |].
      { eapply sim_bind; [apply sim_get_depth|]. intros d _ <-.
        eapply sim_bind; [apply sim_check_end_char|]. intros _ _ _. apply sim_ret; exact I. }
      eapply sim_bind; [apply sim_parse_text|]. intros t1 t2 Ht. apply sim_ret. exact Ht.
    + eapply sim_bind; [apply sim_get_depth|]. intros d _ <-.
      apply sim_if; [reflexivity|apply sim_ret; exact I|apply sim_raise; exact I].
  - cbn [parse_nested].
    eapply sim_bind; [apply sim_next|]. intros o1 o2 H.
    eapply sim_bind; [apply sim_assert|].
    { destruct o1, o2; try contradiction; auto. destruct H as [-> _]. reflexivity. }
    intros _ _ _. eapply sim_bind; [apply IH1|]. intros op1 op2 Hop.
    eapply sim_bind; [apply sim_peek|]. intros p1 p2 Hp.
    eapply sim_bind with (R := eq).
    { destruct p1 as [i1|], p2 as [i2|]; try contradiction; [|apply sim_ret; auto].
      destruct Hp as [Hp _]. rewrite Hp. apply sim_if; [reflexivity| |apply sim_ret; auto].
      eapply sim_bind; [apply sim_next|]. intros. apply sim_ret; auto. }
    intros _ _ _. destruct op1 as [op1|], op2 as [op2|]; try contradiction.
    2:{ eapply sim_bind; [apply sim_nest_end|]. intros _ _ _. apply sim_ret. exact I. }
    cbn in Hop. pose proof (BS _ _ Hop) as HB.
    destruct (bnd1 op1) as [[f1|f1]|], (bnd2 op2) as [[f2|f2]|]; try contradiction; cbn in HB.
    + eapply sim_bind; [apply sim_parse_text|]. intros t1 t2 Ht.
      eapply sim_bind; [apply sim_nest_end|]. intros _ _ _.
      apply sim_call. auto.
    + eapply sim_bind; [apply IH3|]. intros t1 t2 Ht.
      eapply sim_bind; [apply sim_nest_end|]. intros _ _ _.
      apply sim_call. auto.
    + eapply sim_bind; [apply IH3|]. intros t1 t2 Ht.
      eapply sim_bind; [apply sim_nest_end|]. intros _ _ _.
      eapply sim_bind; [apply sim_new_datum; eassumption|]. intros r1 r2 Hr.
      eapply sim_bind; [apply sim_new_datum; eassumption|]. intros q1 q2 Hq.
      apply sim_ret. split; assumption.
  - intros m. cbn [parse_all]. eapply sim_bind; [apply IH1|].
    intros [d1|] [d2|] Hd; try contradiction; [|apply sim_ret; exact I].
    eapply sim_bind; [apply sim_new_datum; exact Hd|]. intros e1 e2 He.
    eapply sim_bind; [apply sim_new_datum; exact I|]. intros n1 n2 Hn.
    eapply sim_bind with (R := eq).
    { intros st1 st2 Hs. split; [|exact Hs]. cbn. apply AS; [exact Hn|apply Hs]. }
    intros b _ <-. apply sim_if; [reflexivity| |apply sim_raise; exact I].
    eapply sim_bind; [apply IH3|]. intros t1 t2 Ht. apply sim_ret. split; assumption.
Qed.

Lemma sim_do_next fuel :
  sim (option_rel Rd) (do_next umax cc so1 co1 ao1 bnd1 fuel) (do_next umax cc so2 co2 ao2 bnd2 fuel).
Proof. apply sim_parser. Qed.

End Sim.
