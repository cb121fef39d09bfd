(** The parser with unwinding compared to the parser, and its simulation. *)
From Coq Require Import List Arith NArith Bool Lia.
From Verif.Model Require Import Prelude Parser Iter Unwind.
From Verif.Proofs Require Import Depth Sim Refine.
Import ListNotations.
Set Implicit Arguments.

Section Same.
Context {S A TT ET Pos CE : Type}.
Context (umax : N) (cc : classifier) (so : stream_ops S A TT Pos) (co : concat_ops A TT)
        (ao : alloc_ops A TT ET) (bnd : bindings A TT ET Pos (option CE)).
Local Notation M := (M (S:=S) (A:=A) (Pos:=Pos) (CE:=option CE)).

(** The same but for the depth after unwinding. *)
Definition same_out {X} (o1 o2 : res (error Pos (option CE)) X * pstate S A) : Prop :=
  fst o1 = fst o2 /\
  (snd o1 = snd o2 \/
   (exists e, fst o1 = Err e /\ unwinding e = true) /\
   ps_strm (snd o1) = ps_strm (snd o2) /\ ps_alloc (snd o1) = ps_alloc (snd o2)).
Definition same {X} (m1 m2 : M X) : Prop := forall st, same_out (m1 st) (m2 st).

Lemma same_refl X (m : M X) : same m m.
Proof. intros st. split; auto. Qed.
Lemma same_bind X Y (m1 m2 : M X) (k1 k2 : X -> M Y) : same m1 m2 -> (forall x, same (k1 x) (k2 x)) ->
  same (bind m1 k1) (bind m2 k2).
Proof.
  intros Hm Hk st. specialize (Hm st). unfold bind, same_out in *.
  destruct (m1 st) as [[x|e| |] s1], (m2 st) as [[x2|e2| |] s2]; cbn in *; destruct Hm as [E H];
    try discriminate.
  - injection E as <-. destruct H as [->|((e0 & E0 & _) & _)]; [apply Hk|discriminate].
  - injection E as <-. split; [reflexivity|]. destruct H as [->|((e' & E' & Hu) & H)]; auto.
    right. split; auto. injection E' as ->. eauto.
  - split; auto. destruct H as [->|((e0 & E0 & _) & _)]; [auto|discriminate].
  - split; auto. destruct H as [->|((e0 & E0 & _) & _)]; [auto|discriminate].
Qed.
Lemma same_if X (b : bool) (m1 m2 n1 n2 : M X) : same m1 m2 -> same n1 n2 -> same (if b then m1 else n1) (if b then m2 else n2).
Proof. destruct b; auto. Qed.

Lemma same_finally X (m1 m2 : M X) : same m1 m2 -> keeps_depth m2 ->
  forall st, (0 < ps_depth st)%N -> same_out (unless_unwinding m1 decr_depth st) (finally m2 decr_depth st).
Proof.
  intros Hm Hk st Hd. specialize (Hm st). specialize (Hk st). unfold unless_unwinding, finally, same_out in *.
  destruct (m1 st) as [[x|e| |] s1], (m2 st) as [[x2|e2| |] s2]; cbn -[bind decr_depth] in *; destruct Hm as [E H];
    try discriminate.
  - injection E as <-. destruct H as [->|((e0 & E0 & _) & _)]; [auto|discriminate].
  - injection E as <-. assert (B : exists st', bind decr_depth (fun _ => raise (X:=X) e) s2 = (Err e, st') /\
      ps_strm st' = ps_strm s2 /\ ps_alloc st' = ps_alloc s2).
    { unfold bind, decr_depth, raise. rewrite Hk. replace (0 <? ps_depth st)%N with true by (symmetry; apply N.ltb_lt; exact Hd).
      eexists. split; [reflexivity|]. split; reflexivity. }
    destruct H as [->|((e' & E' & Hu) & H1 & H2)].
    + destruct (unwinding e) eqn:Hu; [|auto]. destruct B as (st' & -> & B1 & B2). cbn. split; auto. right.
      split; [eauto|]. split; congruence.
    + injection E' as <-. rewrite Hu. destruct B as (st' & -> & B1 & B2). cbn. split; auto. right.
      split; [eauto|]. split; congruence.
  - destruct H as [->|((e0 & E0 & _) & _)]; [auto|discriminate].
  - destruct H as [->|((e0 & E0 & _) & _)]; [auto|discriminate].
Qed.

Lemma bind_incr X (k : unit -> M X) st : bind (incr_depth umax) k st =
  if (ps_depth st <? umax)%N then k tt (PState (ps_strm st) (ps_depth st + 1) (ps_alloc st)) else (Panic, st).
Proof. unfold bind, incr_depth. destruct (ps_depth st <? umax)%N; reflexivity. Qed.

Lemma same_parser fuel :
  (forall m, same (unw_next umax cc so co ao bnd fuel m) (parse_next umax cc so co ao bnd fuel m)) /\
  same (unw_nested umax cc so co ao bnd fuel) (parse_nested umax cc so co ao bnd fuel) /\
  (forall m, same (unw_all umax cc so co ao bnd fuel m) (parse_all umax cc so co ao bnd fuel m)).
Proof.
  induction fuel as [|fuel (IH1 & IH2 & IH3)].
  { repeat split; intros; apply same_refl. }
  split; [|split].
  - intros m. cbn [unw_next parse_next]. cbv zeta.
    apply same_bind; [apply same_refl|]. intros _. apply same_bind; [apply same_refl|].
    intros [it|]; [|apply same_refl].
    apply same_if; [|apply same_refl].
    intros st. rewrite !bind_incr.
    destruct (ps_depth st <? umax)%N; [|split; auto].
    set (st1 := PState _ _ _). 
    assert (H : same_out (unless_unwinding (unw_nested umax cc so co ao bnd fuel) decr_depth st1)
                  (finally (parse_nested umax cc so co ao bnd fuel) decr_depth st1)).
    { apply same_finally; [exact IH2|apply kd_parse|]. cbn. lia. }
    assert (B : forall X Y (m1 m2 : M X) (k1 k2 : X -> M Y) s, same_out (m1 s) (m2 s) -> (forall x, same (k1 x) (k2 x)) ->
      same_out (bind m1 k1 s) (bind m2 k2 s)).
    { intros X Y m1 m2 k1 k2 s G Gk. pose proof (@same_bind X Y (fun _ => m1 s) (fun _ => m2 s) k1 k2 (fun _ => G) Gk s) as G'.
      unfold bind in *. exact G'. }
    apply B; [exact H|]. intros [d|]; [apply same_refl|apply IH1].
  - cbn [unw_nested parse_nested].
    apply same_bind; [apply same_refl|]. intros o. apply same_bind; [apply same_refl|]. intros _.
    apply same_bind; [apply IH1|]. intros op. apply same_bind; [apply same_refl|]. intros p.
    apply same_bind; [apply same_refl|]. intros _. destruct op as [op|]; [|apply same_refl].
    destruct (bnd op) as [[f|f]|]; [apply same_refl| |]; (apply same_bind; [apply IH3|]; intros; apply same_refl).
  - intros m. cbn [unw_all parse_all]. apply same_bind; [apply IH1|]. intros [d|]; [|apply same_refl].
    apply same_bind; [apply same_refl|]. intros e. apply same_bind; [apply same_refl|]. intros n.
    apply same_bind; [apply same_refl|]. intros b. apply same_if; [|apply same_refl].
    apply same_bind; [apply IH3|]. intros; apply same_refl.
Qed.

(** If nothing unwinds, the depth is kept. *)
Lemma kd_unwind fuel st :
  match fst (unw_nested umax cc so co ao bnd fuel st) with
  | Ok _ => ps_depth (snd (unw_nested umax cc so co ao bnd fuel st)) = ps_depth st
  | Err e => unwinding e = true \/ ps_depth (snd (unw_nested umax cc so co ao bnd fuel st)) = ps_depth st
  | _ => True
  end.
Proof.
  destruct (proj1 (proj2 (same_parser fuel)) st) as [E H].
  pose proof (proj1 (proj2 (kd_parse umax cc so co ao bnd fuel)) st) as K. rewrite <- E in K.
  destruct (unw_nested umax cc so co ao bnd fuel st) as [[x|e| |] s1]; cbn in *; auto.
  - destruct H as [->|((e & E' & _) & _)]; [exact K|discriminate].
  - destruct H as [->|((e' & E' & Hu) & _)]; [auto|]. injection E' as <-. auto.
Qed.
End Same.

(** Related collaborators give related runs; also the depths after unwinding are
    the same. *)
Section Sim.
Context {S1 A1 T1 E1 P1 C1 S2 A2 T2 E2 P2 C2 : Type}.
Context (umax : N) (cc : classifier).
Context (so1 : stream_ops S1 A1 T1 P1) (co1 : concat_ops A1 T1)
        (ao1 : alloc_ops A1 T1 E1) (bnd1 : bindings A1 T1 E1 P1 (option C1)).
Context (so2 : stream_ops S2 A2 T2 P2) (co2 : concat_ops A2 T2)
        (ao2 : alloc_ops A2 T2 E2) (bnd2 : bindings A2 T2 E2 P2 (option C2)).
Context (L : Prop).
Context (Rs : S1 -> S2 -> Prop) (Ra : A1 -> A2 -> Prop) (Rt : T1 -> T2 -> Prop)
        (Rx : E1 -> E2 -> Prop) (Rp : P1 -> P2 -> Prop) (Rc : option C1 -> option C2 -> Prop).
Local Notation Rd := (datum_rel Rt Rx).
Local Notation sim := (sim L Rs Ra Rp Rc).
Context (SS : stream_sim so1 so2 L Rs Ra Rt Rp) (CS : concat_sim co1 co2 L Ra Rt)
        (AS : alloc_sim ao1 ao2 L Ra Rt Rx) (BS : bindings_sim bnd1 bnd2 L Ra Rt Rx Rp Rc).
Context (RN : forall c1 c2, Rc c1 c2 -> (c1 = None <-> c2 = None)).
Local Notation nested1 := (unw_nested umax cc so1 co1 ao1 bnd1).
Local Notation nested2 := (unw_nested umax cc so2 co2 ao2 bnd2).

Lemma unwinding_rel (e1 : error P1 (option C1)) (e2 : error P2 (option C2)) :
  error_rel Rp Rc e1 e2 -> unwinding e1 = unwinding e2.
Proof.
  destruct e1 as [| | | |[|]], e2 as [| | | |[|]]; cbn; try tauto; intros H; destruct (RN H) as [H1 H2]; auto;
    [specialize (H2 eq_refl)|specialize (H1 eq_refl)]; discriminate.
Qed.
Lemma unwinding_alloc (e : error P1 (option C1)) : is_alloc_fail e -> unwinding e = false.
Proof. destruct e; cbn; tauto. Qed.

Lemma sim_enter_unwind fuel : sim (option_rel Rd) (nested1 fuel) (nested2 fuel) ->
  sim (option_rel Rd) (bind (incr_depth umax) (fun _ => unless_unwinding (nested1 fuel) decr_depth))
        (bind (incr_depth umax) (fun _ => unless_unwinding (nested2 fuel) decr_depth)).
Proof.
  intros Hm st1 st2 (H1 & H2 & H3). unfold bind, incr_depth. rewrite H2.
  destruct (ps_depth st2 <? umax)%N; cbn; [|exact I].
  set (q1 := PState (ps_strm st1) (ps_depth st2 + 1) (ps_alloc st1)).
  set (q2 := PState (ps_strm st2) (ps_depth st2 + 1) (ps_alloc st2)).
  pose proof (kd_unwind umax cc so1 co1 ao1 bnd1 fuel q1) as K1.
  pose proof (kd_unwind umax cc so2 co2 ao2 bnd2 fuel q2) as K2.
  specialize (Hm q1 q2 (conj H1 (conj eq_refl H3))).
  unfold unless_unwinding, out_rel in *.
  destruct (nested1 fuel q1) as [[x1|e1| |] s1], (nested2 fuel q2) as [[x2|e2| |] s2];
    cbn -[unwinding] in *; try tauto; unfold bind, decr_depth.
  - rewrite K1, K2. replace (0 <? ps_depth st2 + 1)%N with true by (symmetry; apply N.ltb_lt; lia).
    cbn. destruct Hm as [HR (h1 & h2 & h3)]. repeat split; cbn; congruence || auto.
  - rewrite (unwinding_alloc _ (proj2 Hm)). destruct (0 <? ps_depth s1)%N eqn:Z; destruct (0 <? ps_depth s2)%N; cbn; try tauto.
    all: exfalso; rewrite N.ltb_ge in Z; destruct K1 as [K1|K1]; [rewrite (unwinding_alloc _ (proj2 Hm)) in K1; discriminate|lia].
  - destruct Hm as [(HR & (h1 & h2 & h3))|Hm].
    + rewrite <- (unwinding_rel _ _ HR) in *. destruct (unwinding e1) eqn:Hu.
      { cbn. left. repeat split; auto. }
      destruct K1 as [|K1]; [discriminate|]. destruct K2 as [|K2]; [discriminate|]. rewrite K1, K2.
      replace (0 <? ps_depth st2 + 1)%N with true by (symmetry; apply N.ltb_lt; lia).
      cbn. left. repeat split; cbn; congruence || auto.
    + rewrite (unwinding_alloc _ (proj2 Hm)) in *. destruct K1 as [|K1]; [discriminate|]. rewrite K1.
      replace (0 <? ps_depth st2 + 1)%N with true by (symmetry; apply N.ltb_lt; lia). cbn.
      destruct (unwinding e2); cbn; [tauto|]. destruct (0 <? ps_depth s2)%N; cbn; tauto.
  - rewrite (unwinding_alloc _ (proj2 Hm)) in *. destruct K1 as [|K1]; [discriminate|]. rewrite K1.
    replace (0 <? ps_depth st2 + 1)%N with true by (symmetry; apply N.ltb_lt; lia). cbn. tauto.
  - rewrite (unwinding_alloc _ (proj2 Hm)) in *. destruct K1 as [|K1]; [discriminate|]. rewrite K1.
    replace (0 <? ps_depth st2 + 1)%N with true by (symmetry; apply N.ltb_lt; lia). cbn. tauto.
Qed.

Lemma sim_unwind fuel :
  (forall m, sim (option_rel Rd) (unw_next umax cc so1 co1 ao1 bnd1 fuel m)
                                 (unw_next umax cc so2 co2 ao2 bnd2 fuel m)) /\
  sim (option_rel Rd) (nested1 fuel) (nested2 fuel) /\
  (forall m, sim Rd (unw_all umax cc so1 co1 ao1 bnd1 fuel m)
                    (unw_all umax cc so2 co2 ao2 bnd2 fuel m)).
Proof.
  induction fuel as [|fuel (IH1 & IH2 & IH3)].
  { repeat split; intros; apply sim_nofuel. }
  split; [|split].
  - intros m. cbn [unw_next]. cbv zeta.
    eapply sim_bind with (R := eq).
    { apply sim_if; [reflexivity|apply (sim_skip_whitespace cc _ SS)|apply sim_ret; auto]. }
    intros _ _ _. eapply sim_bind; [apply (sim_peek _ SS)|].
    intros [i1|] [i2|] H; try contradiction.
    + destruct H as [H _]. rewrite H.
      apply sim_if; [reflexivity| |].
      { assert (sim (option_rel Rd)
          (bind (bind (incr_depth umax) (fun _ => unless_unwinding (nested1 fuel) decr_depth))
             (fun r => match r with
                       | Some d => ret (Some d) | None => unw_next umax cc so1 co1 ao1 bnd1 fuel m end))
          (bind (bind (incr_depth umax) (fun _ => unless_unwinding (nested2 fuel) decr_depth))
             (fun r => match r with
                       | Some d => ret (Some d) | None => unw_next umax cc so2 co2 ao2 bnd2 fuel m end))) as Z.
        { eapply sim_bind; [apply sim_enter_unwind; exact IH2|].
          intros [d1|] [d2|] Hd; try contradiction; [apply sim_ret; exact Hd|apply IH1]. }
        intros st1 st2 Hs. specialize (Z st1 st2 Hs). unfold bind in *.
        destruct (incr_depth umax st1) as [[| | |] ?], (incr_depth umax st2) as [[| | |] ?]; exact Z. }
      apply sim_if; [reflexivity| |].
      { eapply sim_bind; [apply sim_get_depth|]. intros d _ <-.
        eapply sim_bind; [apply (sim_check_end_char cc _ SS)|]. intros _ _ _. apply sim_ret; exact I. }
      eapply sim_bind; [apply (sim_parse_text umax cc _ SS CS)|]. intros t1 t2 Ht. apply sim_ret. exact Ht.
    + eapply sim_bind; [apply sim_get_depth|]. intros d _ <-.
      apply sim_if; [reflexivity|apply sim_ret; exact I|apply sim_raise; exact I].
  - cbn [unw_nested].
    eapply sim_bind; [apply (sim_next _ SS)|]. intros o1 o2 H.
    eapply sim_bind; [apply sim_assert|].
    { destruct o1, o2; try contradiction; auto. destruct H as [-> _]. reflexivity. }
    intros _ _ _. eapply sim_bind; [apply IH1|]. intros op1 op2 Hop.
    eapply sim_bind; [apply (sim_peek _ SS)|]. intros p1 p2 Hp.
    eapply sim_bind with (R := eq).
    { destruct p1 as [i1|], p2 as [i2|]; try contradiction; [|apply sim_ret; auto].
      destruct Hp as [Hp _]. rewrite Hp. apply sim_if; [reflexivity| |apply sim_ret; auto].
      eapply sim_bind; [apply (sim_next _ SS)|]. intros. apply sim_ret; auto. }
    intros _ _ _. destruct op1 as [op1|], op2 as [op2|]; try contradiction.
    2:{ eapply sim_bind; [apply (sim_nest_end cc _ SS)|]. intros _ _ _. apply sim_ret. exact I. }
    cbn in Hop. pose proof (BS _ _ Hop) as HB.
    destruct (bnd1 op1) as [[f1|f1]|], (bnd2 op2) as [[f2|f2]|]; try contradiction; cbn in HB.
    + eapply sim_bind; [apply (sim_parse_text umax cc _ SS CS)|]. intros t1 t2 Ht.
      eapply sim_bind; [apply (sim_nest_end cc _ SS)|]. intros _ _ _.
      eapply sim_call. intros a1 a2 Ha. exact (HB _ _ _ _ _ _ Hop Ht Ha).
    + eapply sim_bind; [apply IH3|]. intros t1 t2 Ht.
      eapply sim_bind; [apply (sim_nest_end cc _ SS)|]. intros _ _ _.
      eapply sim_call. intros a1 a2 Ha. exact (HB _ _ _ _ _ _ Hop Ht Ha).
    + eapply sim_bind; [apply IH3|]. intros t1 t2 Ht.
      eapply sim_bind; [apply (sim_nest_end cc _ SS)|]. intros _ _ _.
      eapply sim_bind; [eapply sim_new_datum; [exact AS|eassumption]|]. intros r1 r2 Hr.
      eapply sim_bind; [eapply sim_new_datum; [exact AS|eassumption]|]. intros q1 q2 Hq.
      apply sim_ret. split; assumption.
  - intros m. cbn [unw_all]. eapply sim_bind; [apply IH1|].
    intros [d1|] [d2|] Hd; try contradiction; [|apply sim_ret; exact I].
    eapply sim_bind; [eapply sim_new_datum; [exact AS|exact Hd]|]. intros e1 e2 He.
    eapply sim_bind; [eapply sim_new_datum; [exact AS|exact I]|]. intros n1 n2 Hn.
    eapply sim_bind with (R := eq).
    { intros st1 st2 Hs. split; [|exact Hs]. cbn. apply AS; [exact Hn|apply Hs]. }
    intros b _ <-. apply sim_if; [reflexivity| |apply sim_raise; exact I].
    eapply sim_bind; [apply IH3|]. intros t1 t2 Ht. apply sim_ret. split; assumption.
Qed.

(** One call of [next]. *)
Lemma sim_unw_iter_next fuel st1 st2 : st_rel Rs Ra st1 st2 ->
  next_rel L Rs Ra Rt Rx Rp Rc (unw_iter_next umax cc so1 co1 ao1 bnd1 fuel st1) (unw_iter_next umax cc so2 co2 ao2 bnd2 fuel st2).
Proof.
  intros H. pose proof (proj1 (sim_unwind fuel) Base st1 st2 H) as G.
  unfold unw_iter_next, next_rel, out_rel in *.
  destruct (unw_next _ _ so1 _ _ _ fuel Base st1) as [[[d1|]|e1| |] s1],
           (unw_next _ _ so2 _ _ _ fuel Base st2) as [[[d2|]|e2| |] s2]; cbn in *; try tauto.
  - destruct G as [HL HA]; right; eauto.
  - destruct G as [HL HA]; right; eauto.
  - destruct G as [[HR Hst]|[HL HA]]; [left; auto|right; eauto].
  - destruct G as [HL HA]; eauto.
  - destruct G as [HL HA]; eauto.
Qed.
End Sim.
