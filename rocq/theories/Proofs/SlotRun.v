(** Iterating over explicit slots and over trees. *)
From Coq Require Import List NArith Arith Bool Lia.
From Verif.Model Require Import Prelude Parser Iter Chunk TextIter PosStr TextDatumList Alloc
  DefaultClassifier DatumMethods Bindings Premade SlotHeap.
From Verif.Spec Require Import History SlotHeap.
From Verif.Proofs Require Import SlotSim SlotText.
Import ListNotations.
Set Implicit Arguments.

(** * Reading *)
Section Read.
Context {C ET : Type}.
Local Notation heap := (list (cell (stdl C) ET)).

Lemma read_text_holds (h : heap) t u f : tdl_holds h t u f -> forall fuel, length f < fuel -> s_read_text fuel h t = Some u.
Proof.
  induction 1 as [c|c i t u f E _ IH]; intros fuel L; destruct fuel as [|fuel]; cbn in L; try lia; [reflexivity|].
  cbn [s_read_text]. rewrite E, IH by lia. reflexivity.
Qed.

Lemma read_holds (h : heap) c d f : holds (@tdl_holds C ET) h c d f -> forall fuel, length f < fuel -> s_read fuel h c = Some d.
Proof.
  induction 1 as [t u f H|i ci di fi j cj dj fj Ei _ IHi Ej _ IHj| |i ci di fi j cj dj fj Ei _ IHi Ej _ IHj| |x];
    intros fuel L; destruct fuel as [|fuel]; cbn [length] in L; try lia; try reflexivity.
  - cbn [s_read]. rewrite (read_text_holds H) by lia. reflexivity.
  - rewrite app_length in L. cbn [length] in L. cbn [s_read]. rewrite Ei, Ej, IHi, IHj by lia. reflexivity.
  - rewrite app_length in L. cbn [length] in L. cbn [s_read]. rewrite Ei, Ej, IHi, IHj by lia. reflexivity.
Qed.

Lemma holds_in (h : heap) c d f : holds (@tdl_holds C ET) h c d f -> forall i, In i f -> i < length h.
Proof.
  assert (T : forall t u f, tdl_holds h t u f -> forall i, In i f -> i < length h).
  { induction 1 as [c0|c0 i t u f0 E _ IH]; intros j Hj; [destruct Hj|]. destruct Hj as [<-|Hj]; [|auto].
    apply nth_error_Some. congruence. }
  induction 1; intros k Hk; try (now destruct Hk); [eapply T; eassumption| |].
  all: cbn in Hk; rewrite in_app_iff in Hk; cbn in Hk.
  all: destruct Hk as [<-|[Hk|[<-|Hk]]]; auto; apply nth_error_Some; congruence.
Qed.

Lemma holds_small (h : heap) c d f : holds (@tdl_holds C ET) h c d f -> NoDup f -> length f <= length h.
Proof.
  intros H N. rewrite <- (seq_length (length h) 0). apply NoDup_incl_length; [exact N|].
  intros i Hi. apply in_seq. pose proof (holds_in H i Hi). lia.
Qed.

(** What is read is held. *)
Lemma holds_text_read fuel : forall (h : heap) t u, s_read_text fuel h t = Some u -> exists f, tdl_holds h t u f.
Proof.
  induction fuel as [|fuel IH]; intros h t u E; [discriminate|]. destruct t as [c [i|]]; cbn [s_read_text] in E.
  - destruct (nth_error h i) as [[t'| | | | | ]|] eqn:Ei; try discriminate.
    destruct (s_read_text fuel h t') as [u'|] eqn:Eu; [|discriminate]. injection E as <-.
    destruct (IH _ _ _ Eu) as (f & H). exists (i :: f). econstructor; eassumption.
  - injection E as <-. exists []. constructor.
Qed.

Lemma holds_read fuel : forall (h : heap) c d, s_read fuel h c = Some d -> exists f, holds (@tdl_holds C ET) h c d f.
Proof.
  induction fuel as [|fuel IH]; intros h c d E; [discriminate|]. destruct c as [t|i j| |i j| |x]; cbn [s_read] in E.
  - destruct (s_read_text (S fuel) h t) as [u|] eqn:Eu; [|discriminate]. injection E as <-.
    destruct (holds_text_read _ _ _ Eu) as (f & H). exists f. constructor. exact H.
  - destruct (nth_error h i) as [ci|] eqn:Ei; [|discriminate]. destruct (s_read fuel h ci) as [di|] eqn:Ri; [|discriminate].
    destruct (nth_error h j) as [cj|] eqn:Ej; [|discriminate]. destruct (s_read fuel h cj) as [dj|] eqn:Rj; [|discriminate].
    injection E as <-. destruct (IH _ _ _ Ri), (IH _ _ _ Rj). eexists. econstructor; eassumption.
  - injection E as <-. exists []. constructor.
  - destruct (nth_error h i) as [ci|] eqn:Ei; [|discriminate]. destruct (s_read fuel h ci) as [di|] eqn:Ri; [|discriminate].
    destruct (nth_error h j) as [cj|] eqn:Ej; [|discriminate]. destruct (s_read fuel h cj) as [dj|] eqn:Rj; [|discriminate].
    injection E as <-. destruct (IH _ _ _ Ri), (IH _ _ _ Rj). eexists. econstructor; eassumption.
  - injection E as <-. exists []. constructor.
  - injection E as <-. exists []. constructor.
Qed.
End Read.

(** * Iterating *)
Lemma all_hold_imp {X Y} (Q Q' : X -> Y -> list nat -> Prop) l l' f : all_hold Q l l' f ->
  (forall x y g, Q x y g -> incl g f -> Q' x y g) -> all_hold Q' l l' f.
Proof.
  induction 1 as [|x y g l l' f H _ IH]; intros K; [constructor|]. constructor.
  - apply K; [exact H|]. intros z Hz. apply in_or_app. auto.
  - apply IH. intros x' y' g' H' I. apply K; [exact H'|]. intros z Hz. apply in_or_app. auto.
Qed.

Section Iter.
Context {S1 S2 W T TT ET Pos CE : Type}.
Local Notation A := (slots T ET W).
Local Notation B := (slice_state (datum TT ET) * W)%type.
Local Notation heap := (list (cell T ET)).
Context (umax : N) (cc : classifier).
Context (so1 : stream_ops S1 A T Pos) (so2 : stream_ops S2 B TT Pos).
Context (co1 : concat_ops A T) (co2 : concat_ops B TT).
Context (bnd1 : heap -> cell T ET -> option (slot_combiner A T ET Pos CE)) (bnd2 : bindings B TT ET Pos CE).
Context (rt : heap -> T -> TT -> list nat -> Prop) (rs : heap -> S1 -> S2 -> list nat -> Prop).
Hypothesis HS : stream_slots rt rs so1 so2.
Hypothesis HC : concat_slots rt co1 co2.
Hypothesis HB : bindings_slots rt bnd1 bnd2.
Local Notation ao2 := (@slice_alloc W TT ET).
Local Notation P1 := (pstate S1 A).
Local Notation P2 := (pstate S2 B).
Local Notation ready := (ready rs).
Local Notation snext := (s_iter_next umax cc so1 co1 bnd1).
Local Notation tnext := (iter_next umax cc so2 co2 ao2 bnd2).

Lemma item_local h h' x y f : item_holds (Pos:=Pos) (CE:=CE) rt h x y f -> agree h h' f -> item_holds rt h' x y f.
Proof.
  destruct x as [c|e], y as [d|e']; cbn; auto. intros H G. eapply holds_local; [apply (cs_local HC)|exact H|exact G].
Qed.
Lemma result_local h h' x y f : result_holds (Pos:=Pos) (CE:=CE) rt h x y f -> agree h h' f -> result_holds rt h' x y f.
Proof. destruct x as [x|], y as [y|]; cbn; auto. apply item_local. Qed.

Definition same_step (st1 : P1) (fs : list nat) (r1 : res Empty_set (option slot_item) * P1)
    (r2 : res Empty_set (option parse_item) * P2) : Prop :=
  let (v1, s1) := r1 in let (v2, s2) := r2 in
  match v1, v2 with
  | Ok o, Ok o' => exists fs' fx, ready s1 s2 fs' fx /\ result_holds (Pos:=Pos) (CE:=CE) rt (mem (ps_alloc s1)) o o' fx /\
      moves (ps_alloc st1) (ps_alloc s1) fs (fs' ++ fx)
  | Panic, Panic => True
  | OutOfFuel, OutOfFuel => True
  | _, _ => False
  end.

Lemma iter_sim fuel st1 st2 fs : ready st1 st2 fs [] -> same_step st1 fs (snext fuel st1) (tnext fuel st2).
Proof.
  intros R. assert (O : owned (ps_alloc st1) fs) by (destruct R as (_ & _ & _ & O); rewrite app_nil_r in O; exact O).
  pose proof (parse_sim umax cc HS HC HB fuel) as (HN & _).
  assert (D : sim rs st1 fs (opt_holds rt) (s_do_next umax cc so1 co1 bnd1 fuel st1) (do_next umax cc so2 co2 ao2 bnd2 fuel st2)).
  { pose proof (HN Base st1 st2 fs R) as G. rewrite app_nil_r in G. exact G. }
  unfold s_iter_next, iter_next.
  destruct (s_do_next umax cc so1 co1 bnd1 fuel st1) as [v1 s1], (do_next umax cc so2 co2 ao2 bnd2 fuel st2) as [v2 s2].
  unfold sim in D. destruct v1 as [o1|e1| |], v2 as [o2|e2| |]; try contradiction.
  - destruct D as (fs' & fx & R1 & H & M). destruct o1 as [c|], o2 as [d|]; cbn in H; try contradiction; cbn; eauto 6.
  - destruct D as (-> & fs' & R1 & M). cbn. exists fs', []. rewrite app_nil_r. auto.
  - exact I.
  - exact I.
Qed.

(** One step more, keeping what was returned before. *)
Lemma keep_frame {X Y} (Q : heap -> X -> Y -> list nat -> Prop) (QL : forall h h' x y f, Q h x y f -> agree h h' f -> Q h' x y f)
    (st1 s1 s1' : P1) (s2 s2' : P2) fs fs' fx fs'' fr x y l l' :
  ready s1 s2 fs' fx -> Q (mem (ps_alloc s1)) x y fx -> moves (ps_alloc st1) (ps_alloc s1) fs (fs' ++ fx) ->
  ready s1' s2' fs'' fr -> all_hold (Q (mem (ps_alloc s1'))) l l' fr -> moves (ps_alloc s1) (ps_alloc s1') fs' (fs'' ++ fr) ->
  ready s1' s2' fs'' (fx ++ fr) /\ all_hold (Q (mem (ps_alloc s1'))) (x :: l) (y :: l') (fx ++ fr) /\
  moves (ps_alloc st1) (ps_alloc s1') fs (fs'' ++ fx ++ fr).
Proof.
  intros R1 H1 M1 R2 H2 M2. destruct R1 as (_ & _ & _ & O1).
  pose proof (moves_frame _ O1 M2) as M3. pose proof (moves_agree _ O1 M2) as G.
  assert (M4 : moves (ps_alloc s1) (ps_alloc s1') (fs' ++ fx) (fs'' ++ fx ++ fr)) by (eapply moves_sub; [exact M3|msub]).
  split; [|split].
  - destruct R2 as (D & SR & HR & O2). split; [exact D|]. split; [exact SR|]. split; [exact HR|]. eapply moves_owned; [exact O1|exact M4].
  - constructor; [|exact H2]. eapply QL; eassumption.
  - eapply moves_trans; eassumption.
Qed.

Lemma called_sim st1 rs1 st1' : s_called umax cc so1 co1 bnd1 st1 rs1 st1' -> forall st2 fs, ready st1 st2 fs [] ->
  exists rs2 st2' fs' f, called umax cc so2 co2 ao2 bnd2 st2 rs2 st2' /\ ready st1' st2' fs' f /\
    all_hold (result_holds rt (mem (ps_alloc st1'))) rs1 rs2 f /\ moves (ps_alloc st1) (ps_alloc st1') fs (fs' ++ f).
Proof.
  induction 1 as [st1|st1 fuel r s1 rs1 st1' E _ IH]; intros st2 fs R.
  - exists [], st2, fs, []. split; [constructor|]. split; [exact R|]. split; [constructor|].
    destruct R as (_ & _ & _ & O). rewrite app_nil_r in *. apply moves_refl. exact O.
  - pose proof (iter_sim fuel R) as G. rewrite E in G. destruct (tnext fuel st2) as [v2 s2] eqn:E2. destruct v2 as [o2|[]| |]; try contradiction.
    destruct G as (fs1 & fx & R1 & H1 & M1). destruct (IH _ _ (ready_nil R1)) as (rs2 & st2' & fs' & f & C & R2 & H2 & M2).
    destruct (keep_frame (result_holds rt) result_local st1 _ _ R1 H1 M1 R2 H2 M2) as (R3 & H3 & M3).
    exists (o2 :: rs2), st2', fs', (fx ++ f). split; [econstructor; eassumption|]. auto.
Qed.

Lemma called_sim_rev st2 rs2 st2' : called umax cc so2 co2 ao2 bnd2 st2 rs2 st2' -> forall st1 fs, ready st1 st2 fs [] ->
  exists rs1 st1' fs' f, s_called umax cc so1 co1 bnd1 st1 rs1 st1' /\ ready st1' st2' fs' f /\
    all_hold (result_holds rt (mem (ps_alloc st1'))) rs1 rs2 f /\ moves (ps_alloc st1) (ps_alloc st1') fs (fs' ++ f).
Proof.
  induction 1 as [st2|st2 fuel r s2 rs2 st2' E _ IH]; intros st1 fs R.
  - exists [], st1, fs, []. split; [constructor|]. split; [exact R|]. split; [constructor|].
    destruct R as (_ & _ & _ & O). rewrite app_nil_r in *. apply moves_refl. exact O.
  - pose proof (iter_sim fuel R) as G. rewrite E in G. destruct (snext fuel st1) as [v1 s1] eqn:E1. destruct v1 as [o1|[]| |]; try contradiction.
    destruct G as (fs1 & fx & R1 & H1 & M1). destruct (IH _ _ (ready_nil R1)) as (rs1 & st1' & fs' & f & C & R2 & H2 & M2).
    destruct (keep_frame (result_holds rt) result_local st1 _ _ R1 H1 M1 R2 H2 M2) as (R3 & H3 & M3).
    exists (o1 :: rs1), st1', fs', (fx ++ f). split; [econstructor; eassumption|]. auto.
Qed.

Lemma take_sim fuel n : forall ae st1 st2 fs, ready st1 st2 fs [] ->
  match s_take_while umax cc so1 co1 bnd1 n fuel ae st1, take_while_collect umax cc so2 co2 ao2 bnd2 n fuel ae st2 with
  | (Ok l, s1), (Ok l', s2) => exists fs' f, ready s1 s2 fs' f /\
      all_hold (item_holds rt (mem (ps_alloc s1))) l l' f /\ moves (ps_alloc st1) (ps_alloc s1) fs (fs' ++ f)
  | (Panic, _), (Panic, _) => True
  | (OutOfFuel, _), (OutOfFuel, _) => True
  | _, _ => False
  end.
Proof.
  induction n as [|n IH]; intros ae st1 st2 fs R; [exact I|]. cbn [s_take_while take_while_collect].
  pose proof (iter_sim fuel R) as G. destruct (snext fuel st1) as [v1 s1], (tnext fuel st2) as [v2 s2].
  destruct v1 as [o1|[]| |], v2 as [o2|[]| |]; try contradiction; try exact I.
  destruct G as (fs1 & fx & R1 & H1 & M1). destruct o1 as [x|], o2 as [y|]; cbn in H1; try contradiction.
  2:{ subst fx. exists fs1, []. split; [exact R1|]. split; [constructor|exact M1]. }
  unfold keep_until_err, is_err. destruct ae; cbn iota.
  { exists fs1, []. split; [exact (ready_nil R1)|]. split; [constructor|]. eapply moves_sub; [exact M1|msub]. }
  assert (EE : (match x with inl _ => false | inr _ => true end) = match y with inl _ => false | inr _ => true end).
  { destruct x, y; cbn in H1; try contradiction; reflexivity. }
  rewrite EE. replace (if match y with inl _ => false | inr _ => true end then true else false)
    with (match y with inl _ => false | inr _ => true end) by (destruct y; reflexivity).
  specialize (IH (match y with inl _ => false | inr _ => true end) _ _ _ (ready_nil R1)).
  destruct (s_take_while umax cc so1 co1 bnd1 n fuel _ s1) as [w1 s1'], (take_while_collect umax cc so2 co2 ao2 bnd2 n fuel _ s2) as [w2 s2'].
  destruct w1 as [l1|[]| |], w2 as [l2|[]| |]; try contradiction; try exact I. cbn [res_map].
  destruct IH as (fs' & f & R2 & H2 & M2).
  destruct (keep_frame (item_holds rt) item_local st1 _ _ R1 H1 M1 R2 H2 M2) as (R3 & H3 & M3).
  exists fs', (fx ++ f). auto.
Qed.
End Iter.

(** * The list *)
Section Operands.
Context {S A TT ET Pos CE : Type} (umax : N) (cc : classifier) (so : stream_ops S A TT Pos) (co : concat_ops A TT)
        (ao : alloc_ops A TT ET) (bnd : bindings A TT ET Pos CE) (m : mode).

Lemma all_operands fuel : forall st d st', parse_all umax cc so co ao bnd fuel m st = (Ok d, st') ->
  exists ds, d = list_of ds /\ operands umax cc so co ao bnd m st ds st'.
Proof.
  induction fuel as [|f IH]; intros st d st' E; [discriminate|]. cbn [parse_all] in E. unfold bind at 1 in E.
  match type of E with context [match ?e with (_, _) => _ end] => change e with (parse_next umax cc so co ao bnd f m st) in E end.
  destruct (parse_next umax cc so co ao bnd f m st) as [r st1] eqn:E1. destruct r as [[x|]| | |]; try discriminate E.
  2:{ injection E as <- <-. exists []. split; [reflexivity|]. econstructor. exact E1. }
  unfold bind at 1 in E. destruct (new_datum ao x st1) as [r st2] eqn:E2. destruct r as [d1| | |]; try discriminate E.
  unfold bind at 1 in E. destruct (new_datum ao DEmptyList st2) as [r st3] eqn:E3. destruct r as [d2| | |]; try discriminate E.
  unfold bind at 1 in E. destruct (a_get_mut ao d2 (ps_alloc st3)); [|discriminate E].
  unfold bind at 1 in E. 
  match type of E with context [match ?e with (_, _) => _ end] => change e with (parse_all umax cc so co ao bnd f m st3) in E end.
  destruct (parse_all umax cc so co ao bnd f m st3) as [r st4] eqn:E4. destruct r as [d4| | |]; try discriminate E.
  injection E as <- <-. destruct (IH _ _ _ E4) as (ds & -> & O). exists (d1 :: ds). split; [reflexivity|].
  econstructor; eassumption.
Qed.
End Operands.

(** * The ready-made parser *)
Section Premade.
Context {W ET CE : Type} (ET_eq : ET -> ET -> bool).
Local Notation rt := (@tdl_holds posstr ET).
Local Notation B := (nh_alloc_state (W:=W) (ET:=ET)).

Lemma s_pair_slots m1 m2 :
  Forall2 (fun p q => fst p = fst q /\ combiner_slots rt (snd p) (snd q)) m1 m2 ->
  bindings_slots rt (s_pair_lookup (W:=W) (CE:=CE) ET_eq m1) (nh_lookup ET_eq m2).
Proof.
  intros HM h c d f H N. unfold s_pair_lookup. rewrite (read_holds H) by (pose proof (holds_small H N); lia).
  unfold nh_lookup. induction HM as [|[k1 v1] [k2 v2] m1 m2 [Hk Hv] _ IH]; [exact I|].
  cbn [fst snd] in Hk, Hv. subst k2. cbn [pair_lookup]. destruct (nh_datum_eq ET_eq d k1); [|exact IH].
  unfold combiner_slots in Hv. destruct v1, v2; try contradiction.
  - intros a b fc t u ft. apply Hv.
  - intros a b fc c' d' fc'. apply Hv.
Qed.

Lemma nh_stream_slots : stream_slots rt (iter_rs rt) (s_nh_stream (W:=W) (ET:=ET)) nh_stream.
Proof. apply titer_slots; [apply stdl_concat_slots|]. intros h c. constructor. Qed.

Lemma premade_sim t bnd1 (m : nh_bindings (W:=W) (ET:=ET) (CE:=CE)) a b :
  bindings_slots rt bnd1 (nh_lookup ET_eq m) -> same_room a b ->
  match s_parse_chunks_with (tx_chunks (nh_ops (W:=W) (ET:=ET)) t) bnd1 a, parse_text_with ET_eq t m b with
  | (Ok l, Some s1), (Ok l', Some s2) => exists fs f, all_hold (item_holds rt (mem (ps_alloc s1))) l l' f /\
      moves a (ps_alloc s1) [] (fs ++ f) /\ same_room (ps_alloc s1) (ps_alloc s2)
  | (Panic, _), (Panic, _) => True
  | (OutOfFuel, _), (OutOfFuel, _) => True
  | _, _ => False
  end.
Proof.
  intros HB R. unfold s_parse_chunks_with, parse_text_with, titer_new.
  destruct (next_chunk posstr_ops (tx_chunks (nh_ops (W:=W) (ET:=ET)) t)) as [[cur rest]|[]| |]; cbn [res_map fst snd]; try exact I.
  assert (H : ready (iter_rs (Pos:=strpos) rt) (parse_iter_new (TIter cur rest None None) a) (parse_iter_new (TIter cur rest None None) b) [] []).
  { split; [reflexivity|]. split; [exact R|]. split; [repeat split|]. split; [constructor|intros i []]. }
  pose proof (take_sim usize_max default_classifier nh_stream_slots (stdl_concat_slots posstr_ops) HB
    (parse_fuel (seq_size posstr_size (tx_chunks (nh_ops (W:=W) (ET:=ET)) t))) (parse_calls (seq_size posstr_size (tx_chunks (nh_ops (W:=W) (ET:=ET)) t))) false H) as G.
  unfold s_nh_ops, nh_ops in *.
  destruct (s_take_while _ _ _ _ _ _ _ _ _) as [v1 s1], (take_while_collect _ _ _ _ _ _ _ _ _ _) as [v2 s2].
  destruct v1 as [l1|[]| |], v2 as [l2|[]| |]; try contradiction; try exact I.
  destruct G as (fs & f & (_ & R' & _) & G & M). exists fs, f. auto.
Qed.
End Premade.
