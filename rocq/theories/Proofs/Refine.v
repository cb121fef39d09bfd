(** Any collaborators that obey the contracts are simulated by the abstract
    instance; lifted to whole iterations. *)
From Coq Require Import List Arith NArith Bool Lia.
From Verif.Model Require Import Prelude Parser Iter.
From Verif.Spec Require Import Contract AbsStream.
From Verif.Proofs Require Import Sim Wp Safety FuelMono.
Import ListNotations.
Set Implicit Arguments.

Section Refine.
Context {S A TT ET Pos CE W : Type}.
Context (umax : N) (cc : classifier) (so : stream_ops S A TT Pos) (co : concat_ops A TT)
        (ao : alloc_ops A TT ET) (bnd : bindings A TT ET Pos CE).
Context (Rs : S -> list (item Pos) -> list (item Pos) -> Prop)
        (Rt : TT -> list (item Pos) -> Prop).
Context (F : Prop) (view : A -> W).

Definition Rs_abs (s : S) (x : @abs_state Pos) : Prop := Rs s (fst x) (snd x).
Definition Ra_view (a : A) (w : W) : Prop := view a = w.

Lemma option_item_refl (o : option (item Pos)) : option_rel (item_rel eq) o o.
Proof. destruct o; cbn; auto. split; reflexivity. Qed.

Lemma contract_stream_sim : stream_contract F view so Rs Rt ->
  stream_sim so (@abs_stream W Pos) F Rs_abs Ra_view Rt eq.
Proof.
  intros C. split; unfold Rs_abs, Ra_view.
  - intros s1 [r p] H. cbn in *. destruct (sc_peek C _ _ _ H) as (s' & -> & H').
    unfold pres_rel. cbn. split; [apply option_item_refl|exact H'].
  - intros s1 [r p] H. cbn in *. destruct (sc_next C _ _ _ H) as (s' & -> & H').
    unfold pres_rel. cbn. split; [apply option_item_refl|exact H'].
  - intros s1 [r p] a w H V. cbn in *.
    destruct (sc_next_accum C _ a _ _ H) as [(s' & a' & -> & V' & H')|(HF & s' & a' & -> & _)];
      unfold ares_rel, Rsa; cbn.
    + split; [apply option_item_refl|]. split; [exact H'|congruence].
    + exact HF.
  - intros s1 [r p] a w H V. cbn in *.
    destruct (sc_accum_done C _ a _ _ H) as [(s' & a' & t & -> & V' & T' & H')|(HF & s' & a' & -> & _)];
      unfold ares_rel, Rsa; cbn.
    + split; [exact T'|]. split; [exact H'|congruence].
    + exact HF.
Qed.

Lemma contract_concat_sim : concat_contract F view co Rt ->
  concat_sim co (@abs_concat W Pos) F Ra_view Rt.
Proof.
  intros C. split; [apply C|]. unfold Ra_view. intros t1 t1' l1 l1' a w H H' V.
  destruct (tc_concat C _ _ _ _ a H H') as [(t & a' & -> & V' & T)|(HF & a' & -> & _)];
    unfold ares_rel; cbn.
  - split; [exact T|congruence].
  - exact HF.
Qed.

Lemma contract_alloc_sim {AE} (Rx : ET -> AE -> Prop) : alloc_contract F view ao ->
  (forall d a, a_get_mut ao d a = true) ->
  alloc_sim ao (@abs_alloc W AE Pos) F Ra_view Rt Rx.
Proof.
  intros C G. split; unfold Ra_view.
  - intros d1 d2 a w H V. destruct (C d1 a) as [(a' & -> & V')|(HF & a' & -> & _)];
      unfold ares_rel; cbn.
    + split; [exact H|congruence].
    + exact HF.
  - intros d1 d2 a w _ _. apply G.
Qed.
End Refine.

(** Lifting a simulation to iterations. *)
Section IterSim.
Context {S1 A1 T1 E1 P1 C1 S2 A2 T2 E2 P2 C2 : Type}.
Context (umax : N) (cc : classifier).
Context (so1 : stream_ops S1 A1 T1 P1) (co1 : concat_ops A1 T1)
        (ao1 : alloc_ops A1 T1 E1) (bnd1 : bindings A1 T1 E1 P1 C1).
Context (so2 : stream_ops S2 A2 T2 P2) (co2 : concat_ops A2 T2)
        (ao2 : alloc_ops A2 T2 E2) (bnd2 : bindings A2 T2 E2 P2 C2).
Context (L : Prop).
Context (Rs : S1 -> S2 -> Prop) (Ra : A1 -> A2 -> Prop) (Rt : T1 -> T2 -> Prop)
        (Rx : E1 -> E2 -> Prop) (Rp : P1 -> P2 -> Prop) (Rc : C1 -> C2 -> Prop).
Context (SS : stream_sim so1 so2 L Rs Ra Rt Rp) (CS : concat_sim co1 co2 L Ra Rt)
        (AS : alloc_sim ao1 ao2 L Ra Rt Rx) (BS : bindings_sim bnd1 bnd2 L Ra Rt Rx Rp Rc).

Local Notation Rd := (datum_rel Rt Rx).
Local Notation Re := (error_rel Rp Rc).

Definition pitem_rel (x : datum T1 E1 + error P1 C1) (y : datum T2 E2 + error P2 C2) : Prop :=
  match x, y with
  | inl d1, inl d2 => Rd d1 d2
  | inr e1, inr e2 => Re e1 e2
  | _, _ => False
  end.

Local Notation i_next1 := (iter_next umax cc so1 co1 ao1 bnd1).
Local Notation i_next2 := (iter_next umax cc so2 co2 ao2 bnd2).
Local Notation i_collect1 := (iter_collect umax cc so1 co1 ao1 bnd1).
Local Notation i_collect2 := (iter_collect umax cc so2 co2 ao2 bnd2).
Local Notation st_rel := (st_rel Rs Ra).

(** One call of [next]. *)
Definition next_rel (o1 : res Empty_set (option (datum T1 E1 + error P1 C1)) * pstate S1 A1)
  (o2 : res Empty_set (option (datum T2 E2 + error P2 C2)) * pstate S2 A2) : Prop :=
  match fst o1, fst o2 with
  | Ok x1, Ok x2 => (option_rel pitem_rel x1 x2 /\ st_rel (snd o1) (snd o2)) \/
                    (L /\ exists e, x1 = Some (inr e) /\ is_alloc_fail e)
  | Ok x1, _ => L /\ exists e, x1 = Some (inr e) /\ is_alloc_fail e
  | Panic, Panic => True
  | OutOfFuel, OutOfFuel => True
  | _, _ => False
  end.

Lemma sim_iter_next fuel st1 st2 : st_rel st1 st2 -> next_rel (i_next1 fuel st1) (i_next2 fuel st2).
Proof.
  intros H. pose proof (proj1 (sim_parser umax cc SS CS AS BS fuel) Base st1 st2 H) as G.
  unfold iter_next, do_next, next_rel, out_rel in *.
  destruct (parse_next _ _ so1 _ _ _ fuel Base st1) as [[[d1|]|e1| |] s1],
           (parse_next _ _ so2 _ _ _ fuel Base st2) as [[[d2|]|e2| |] s2]; cbn in *; try tauto.
  - destruct G as [HL HA]; right; eauto.
  - destruct G as [HL HA]; right; eauto.
  - destruct G as [[HR Hst]|[HL HA]]; [left; auto|right; eauto].
  - destruct G as [HL HA]; eauto.
  - destruct G as [HL HA]; eauto.
Qed.

(** A whole iteration, when allocation does not fail. *)
Definition coll_rel (o1 : res Empty_set (list (datum T1 E1 + error P1 C1)) * pstate S1 A1)
  (o2 : res Empty_set (list (datum T2 E2 + error P2 C2)) * pstate S2 A2) : Prop :=
  match fst o1, fst o2 with
  | Ok x1, Ok x2 => Forall2 pitem_rel x1 x2 /\ st_rel (snd o1) (snd o2)
  | Panic, Panic => True
  | OutOfFuel, OutOfFuel => True
  | _, _ => False
  end.

Lemma sim_iter_collect (NL : ~ L) n fuel : forall st1 st2, st_rel st1 st2 ->
  coll_rel (i_collect1 n fuel st1) (i_collect2 n fuel st2).
Proof.
  induction n as [|n IH]; intros st1 st2 H; cbn [iter_collect]; [exact I|].
  pose proof (sim_iter_next fuel H) as G. unfold next_rel in G.
  destruct (i_next1 fuel st1) as [[[x1|]|[]| |] s1],
           (i_next2 fuel st2) as [[[x2|]|[]| |] s2]; cbn in *; try tauto.
  - destruct G as [[Hx Hs]|[HL _]]; [|tauto]. specialize (IH _ _ Hs). unfold coll_rel in *.
    destruct (i_collect1 n fuel s1) as [[l1|[]| |] t1], (i_collect2 n fuel s2) as [[l2|[]| |] t2];
      cbn in *; try tauto. destruct IH as [Hl Ht]. split; [constructor; auto|exact Ht].
  - destruct G as [[_ Hs]|[HL _]]; [|tauto]. split; [constructor|exact Hs].
Qed.

(** When it may: what comes before the first allocation failure agrees. *)
Definition prefix_rel (l1 : list (datum T1 E1 + error P1 C1)) (l2 : list (datum T2 E2 + error P2 C2)) : Prop :=
  Forall2 pitem_rel l1 l2 \/
  (L /\ exists p1 e q1 p2 q2, l1 = p1 ++ inr e :: q1 /\ is_alloc_fail e /\ l2 = p2 ++ q2 /\
          Forall2 pitem_rel p1 p2).

Lemma sim_iter_prefix n fuel : forall st1 st2 l1 t1 l2 t2, st_rel st1 st2 ->
  i_collect1 n fuel st1 = (Ok l1, t1) -> i_collect2 n fuel st2 = (Ok l2, t2) -> prefix_rel l1 l2.
Proof.
  induction n as [|n IH]; intros st1 st2 l1 t1 l2 t2 H E1' E2'; cbn [iter_collect] in *; [discriminate|].
  pose proof (sim_iter_next fuel H) as G. unfold next_rel in G.
  destruct (i_next1 fuel st1) as [[[x1|]|[]| |] s1] eqn:N1; try discriminate.
  - destruct (i_collect1 n fuel s1) as [[m1|[]| |] u1] eqn:M1; cbn in E1'; try discriminate.
    injection E1' as <- <-.
    assert (Alloc : forall e, x1 = inr e -> L -> is_alloc_fail e -> prefix_rel (x1 :: m1) l2).
    { intros e -> HL HA. right. split; [exact HL|].
      exists [], e, m1, [], l2. repeat split; auto; constructor. }
    destruct (i_next2 fuel st2) as [[[x2|]|[]| |] s2] eqn:N2; cbn in *; try discriminate.
    + destruct (i_collect2 n fuel s2) as [[m2|[]| |] u2] eqn:M2; cbn in E2'; try discriminate.
      injection E2' as <- <-.
      destruct G as [[Hx Hs]|(HL & e & Ee & HA)]; [|injection Ee as Ee; eauto].
      destruct (IH _ _ _ _ _ _ Hs M1 M2) as [Hf|(HL & p1 & e & q1 & p2 & q2 & -> & HA & -> & Hp)].
      * left. constructor; auto.
      * right. split; [exact HL|]. exists (x1 :: p1), e, q1, (x2 :: p2), q2.
        repeat split; auto.
    + destruct G as [[[] _]|(HL & e & Ee & HA)]. injection Ee as Ee. eauto.
  - injection E1' as <- <-.
    destruct (i_next2 fuel st2) as [[[x2|]|[]| |] s2] eqn:N2; cbn in *; try discriminate.
    + destruct G as [[[] _]|(HL & e & Ee & HA)]; discriminate.
    + injection E2' as <- <-. left. constructor.
Qed.
End IterSim.

(** Termination, progress and panic freedom of iterations. *)
Section IterSafe.
Context {S A TT ET Pos CE W : Type}.
Context (umax : N) (cc : classifier) (so : stream_ops S A TT Pos) (co : concat_ops A TT)
        (ao : alloc_ops A TT ET) (bnd : bindings A TT ET Pos CE).
Context (Rs : S -> list (item Pos) -> list (item Pos) -> Prop)
        (Rt : TT -> list (item Pos) -> Prop).
Context (F : Prop) (view : A -> W).
Context (SC : stream_contract F view so Rs Rt) (TC : concat_contract F view co Rt)
        (AC : alloc_contract F view ao).
Local Notation i_next := (iter_next umax cc so co ao bnd).
Local Notation i_collect := (iter_collect umax cc so co ao bnd).
Local Notation N_len r := (N.of_nat (length r)).

(** Between calls of [next]: depth 0, [r] to come, and nothing accumulated
    unless nothing is to come. *)
Definition idle (st : pstate S A) (r : list (item Pos)) : Prop :=
  ps_depth st = 0%N /\ exists p, Rs (ps_strm st) r p /\ (p = [] \/ r = []).

Lemma iter_next_at_end fuel st : 0 < fuel -> idle st [] ->
  exists st', i_next fuel st = (Ok None, st') /\ idle st' [].
Proof.
  intros Hf (D & p & H & _). destruct fuel as [|f]; [lia|].
  destruct (sc_peek SC _ _ _ H) as (s' & E & H').
  exists (PState s' 0%N (ps_alloc st)). split.
  - unfold iter_next, do_next. cbn. unfold bind, ret, peek, get_depth. cbn. rewrite E. cbn.
    rewrite D. reflexivity.
  - split; [reflexivity|]. exists p. auto.
Qed.

Lemma iter_next_safe fuel st r : 3 * length r + 3 <= fuel -> (N_len r <= umax)%N -> idle st r ->
  exists o st', i_next fuel st = (Ok o, st') /\
  match o with
  | None => idle st' []
  | Some _ => exists r', idle st' r' /\ suffix r' r /\ length r' < length r
  end.
Proof.
  intros Hf Hu (D & p & H & Hp).
  destruct r as [|x r].
  { destruct (@iter_next_at_end fuel st) as (st' & E & I'); [lia|split; eauto|]. eauto. }
  destruct Hp as [->|]; [|discriminate].
  pose proof (do_next_safe cc bnd SC TC AC _ st Hf D Hu H) as G. unfold wp in G.
  unfold iter_next. destruct (do_next umax cc so co ao bnd fuel st) as [[[d|]|e| |] st'] eqn:E;
    cbn in G; try contradiction.
  - destruct G as (D' & r' & H' & Hsu & Hl). exists (Some (inl d)), st'. split; [reflexivity|].
    exists r'. split; [split; eauto|auto].
  - destruct G as (D' & r' & H' & Hsu & _ & [[_ ->]|[? _]]); [|lia].
    exists None, st'. split; [reflexivity|]. split; eauto.
  - destruct G as (D' & r' & p' & H' & Hsu & Hp' & Hl). exists (Some (inr e)), st'.
    split; [reflexivity|]. exists r'. split; [split; eauto|auto].
Qed.

Lemma iter_collect_safe : forall n fuel st r, length r < n -> 3 * length r + 3 <= fuel ->
  (N_len r <= umax)%N -> idle st r ->
  exists l st', i_collect n fuel st = (Ok l, st') /\ length l <= length r /\ idle st' [].
Proof.
  induction n as [|n IH]; intros fuel st r Hn Hf Hu H; [lia|].
  cbn [iter_collect]. destruct (iter_next_safe Hf Hu H) as ([x|] & st1 & -> & G).
  - destruct G as (r' & I1 & _ & Hl).
    destruct (IH fuel st1 r') as (l & st' & E & Hll & I2); [lia|lia|lia|exact I1|].
    rewrite E. exists (x :: l), st'. cbn. repeat split; auto; [lia|apply I2|apply I2].
  - exists [], st1. cbn. repeat split; auto; [lia|apply G|apply G].
Qed.

End IterSafe.
