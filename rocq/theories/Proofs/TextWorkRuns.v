(** Runs that count the work of concatenating texts beside runs that do not. *)
From Coq Require Import List Arith NArith ZArith Bool Lia.
From Verif.Model Require Import Prelude Parser Iter Chunk TextIter TextVec TextDatumList CharIter StrishIter PosStrish TextWork.
From Verif.Spec Require Grammar.
From Verif.Spec Require Import Memory TextWork Pieces Run.
From Verif.Proofs Require Import Sim Refine Memory Amortize TextWorkFacts TextSim.
Import ListNotations.
Set Implicit Arguments.

Lemma zsum_nat (l : list nat) : zsum (map Z.of_nat l) = Z.of_nat (list_sum l).
Proof. induction l as [|n l IH]; [reflexivity|]. cbn [map zsum fold_right list_sum]. unfold zsum in IH. rewrite IH. unfold list_sum. cbn [fold_right]. lia. Qed.
Lemma zsum_le {X} (f g : X -> Z) (l : list X) : (forall y, f y <= g y)%Z -> (zsum (map f l) <= zsum (map g l))%Z.
Proof. intros H. induction l as [|y l IH]; [reflexivity|]. cbn [map zsum fold_right]. specialize (H y). unfold zsum in IH. lia. Qed.
Lemma zsum_opp {X} (f : X -> Z) (l : list X) : zsum (map (fun y => - f y)%Z l) = (- zsum (map f l))%Z.
Proof. induction l as [|y l IH]; [reflexivity|]. cbn [map zsum fold_right]. unfold zsum in IH. rewrite IH. lia. Qed.

(** ** Any related texts *)
Section Runs.
Context {S1 S2 A1 A2 T1 T2 ET Pos CE : Type} (umax : N) (cc : classifier).
Context (so1 : stream_ops S1 A1 T1 Pos) (co1 : concat_ops A1 T1) (ao1 : alloc_ops A1 T1 ET).
Context (so2 : stream_ops S2 A2 T2 Pos) (co2 : concat_ops A2 T2) (ao2 : alloc_ops A2 T2 ET).
Context (Rs : S1 -> S2 -> Prop) (Ra : A1 -> A2 -> Prop) (Rt : T1 -> T2 -> Prop).
Local Notation nb A T := (fun _ : datum T ET => @None (combiner A T ET Pos CE)).
Lemma sim_runs fuel n st1 st2 ds st1' : stream_sim so1 so2 False Rs Ra Rt eq -> concat_sim co1 co2 False Ra Rt ->
  alloc_sim ao1 ao2 False Ra Rt eq -> st_rel Rs Ra st1 st2 ->
  iter_collect umax cc so1 co1 ao1 (nb A1 T1) n fuel st1 = (Ok (map inl ds), st1') ->
  exists es st2', iter_collect umax cc so2 co2 ao2 (nb A2 T2) n fuel st2 = (Ok (map inl es), st2') /\
    Forall2 (datum_rel Rt eq) ds es /\ st_rel Rs Ra st1' st2'.
Proof.
  intros SS CS AS Hst E.
  pose proof (sim_iter_collect (L:=False) (Rc:=eq) umax cc SS CS AS (bnd1:=nb A1 T1) (bnd2:=nb A2 T2) (fun d1 d2 _ => I) (fun f => f) n fuel Hst) as G.
  rewrite E in G. unfold coll_rel in G. cbn [fst snd] in G.
  destruct (iter_collect umax cc so2 co2 ao2 (nb A2 T2) n fuel st2) as [[items|e| |] st2']; cbn [fst snd] in G; try contradiction.
  destruct G as [G1 G2].
  assert (H : exists es, items = map inl es /\ Forall2 (datum_rel Rt eq) ds es).
  { clear -G1. revert items G1. induction ds as [|d ds IH]; intros items G; inversion G as [|q [e|e] qs its H1 H2]; subst.
    - exists []. split; [reflexivity|constructor].
    - destruct (IH _ H2) as (es & -> & F). exists (e :: es). split; [reflexivity|]. constructor; auto.
    - contradiction. }
  destruct H as (es & -> & F). exists es, st2'. auto.
Qed.
End Runs.

(** ** [TextDatumList] *)
Section List.
Context {C CS Pos A ET CE : Type} (umax : N) (cc : classifier) (k : chunk_ops C CS Pos) (ao : alloc_ops A (tdl C ET) ET).
Local Notation x := (tdl_ops k ao).
Local Notation xw := (tdl_work_ops k ao).
Local Notation nb A := (fun _ : datum (tdl C ET) ET => @None (combiner A (tdl C ET) ET Pos CE)).

Lemma datum_eq_rel (d : datum (tdl C ET) ET) : forall e, datum_rel eq eq d e <-> d = e.
Proof.
  induction d; intros []; cbn; split; intros Q; try discriminate Q; try contradiction; try reflexivity; try exact I;
    repeat match goal with H : _ /\ _ |- _ => destruct H end;
    repeat match goal with H : datum_rel _ _ _ _, IH : forall e, _ <-> _ |- _ => apply IH in H end; subst; try reflexivity; try congruence.
  - injection Q as -> ->. split; [apply IHd1|apply IHd2]; reflexivity.
  - injection Q as -> ->. split; [apply IHd1|apply IHd2]; reflexivity.
Qed.
Lemma work_alloc_sim : alloc_sim ao (work_alloc ao) False (@counts A) eq eq.
Proof.
  split.
  - intros d1 d2 a1 a2 Hd ->. apply datum_eq_rel in Hd. subst d2. cbn. destruct (a_new_datum ao d1 (fst a2)) as [[d'|e| |] a']; cbn.
    + split; [apply datum_eq_rel; reflexivity|reflexivity].
    + right. reflexivity.
    + exact I.
    + exact I.
  - intros d1 d2 a1 a2 Hd ->. apply datum_eq_rel in Hd. subst d2. reflexivity.
Qed.
Lemma tdl_sim : text_sim x xw eq (@counts A).
Proof.
  split; cbn; try reflexivity. intros t1 u1 t2 u2 a1 a2 -> -> ->.
  destruct (tdl_concat k ao t2 u2 (fst a2)) as [[t|e| |] a']; cbn; try exact I.
  - split; reflexivity.
  - right. reflexivity.
Qed.

Context (HN : forall d a d' a', a_new_datum ao d a = (Ok d', a') -> d' = d).
Lemma list_run t s a ds st' : titer_new k x t = Ok s ->
  iterates umax cc (titer_stream k x) (text_concat_ops x) ao (nb A) (parse_iter_new s a) (map inl ds) st' ->
  exists n fuel m, iter_collect umax cc (titer_stream k xw) (text_concat_ops xw) (work_alloc ao) (nb (A * nat)%type) m fuel
    (parse_iter_new s (a, 0)) = (Ok (map inl ds), PState (ps_strm st') (ps_depth st') (ps_alloc st', n)).
Proof.
  intros Es (m & fuel & E).
  destruct (sim_runs (CE:=CE) umax cc (so2:=titer_stream k xw) (co2:=text_concat_ops xw) (ao2:=work_alloc ao)
     (Rs:=titer_rel eq) (Ra:=@counts A) (Rt:=eq) fuel m (st1:=parse_iter_new s a) (st2:=parse_iter_new s (a, 0)) ds (st1':=st')
     (titer_sim tdl_sim k) (text_concat_sim tdl_sim) work_alloc_sim) as (es & st2 & E2 & F & H2); auto.
  { split; [|split; reflexivity]. repeat split. cbn. destruct (ti_accum s); cbn; auto. }
  assert (es = ds) as ->.
  { clear -F. induction F as [|d e ds es H _ IH]; [reflexivity|]. apply datum_eq_rel in H. congruence. }
  destruct H2 as ((K1 & K2 & K3 & K4) & K5 & K6). destruct st2 as [s2 dp2 [a2 n]]. cbn in *. exists n, fuel, m.
  rewrite E2. f_equal. f_equal; auto.
  - destruct (ps_strm st') as [c1 n1 o1 p1], s2 as [c2 n2 o2 p2]. cbn in *. subst. destruct o1, o2; cbn in K3; try contradiction; congruence.
  - red in K6. cbn in K6. congruence.
Qed.

Lemma list_bound s a ds st' n fuel m : ti_accum s = None ->
  iter_collect umax cc (titer_stream k xw) (text_concat_ops xw) (work_alloc ao) (nb (A * nat)%type) m fuel
    (parse_iter_new s (a, 0)) = (Ok (map inl ds), PState (ps_strm st') (ps_depth st') (ps_alloc st', n)) ->
  n <= list_sum (map pairs (chunk_counts x ds)) /\ Forall (fun d => Forall (no_empty_chunks x k) (texts_in d)) ds.
Proof.
  intros Hs E.
  assert (AM : amortized (titer_stream k xw) (text_concat_ops xw) (work_alloc ao) (@list_used A) (@list_cost C ET)
    (@list_cost C ET) (list_ok k) (list_ok k) (fun s => accum_cost (@list_cost C ET) (ti_accum s)) (fun s => accum_ok (list_ok k) (ti_accum s))).
  { apply titer_amortized; [apply list_accumulates; exact HN| | |].
    - split; [apply list_ok_from|]. cbn. lia.
    - intros t u b t' b'. apply list_upper. exact HN.
    - cbn. intros d b d' b' Q. destruct (a_new_datum ao d (fst b)) as [r b2] eqn:Ea. injection Q as -> <-. split; [eapply HN; eauto|reflexivity]. }
  apply (amortized_collect umax cc AM) in E; [|cbn; rewrite Hs; exact I|cbn; rewrite Hs; reflexivity].
  destruct E as [E1 E2]. split; [|exact E1].
  unfold usedp, list_used in E2. cbn [ps_alloc snd parse_iter_new] in E2. apply Nat2Z.inj_le.
  rewrite <- zsum_nat. unfold chunk_counts. rewrite !map_map. cbn [tx_chunks tdl_ops]. unfold list_cost in E2. lia.
Qed.

Lemma list_exact c s a ds st' n fuel m : c_is_empty k (c_empty k) = Ok true -> titer_new k x (tdl_from c) = Ok s ->
  iter_collect umax cc (titer_stream k xw) (text_concat_ops xw) (work_alloc ao) (nb (A * nat)%type) m fuel
    (parse_iter_new s (a, 0)) = (Ok (map inl ds), PState (ps_strm st') (ps_depth st') (ps_alloc st', n)) ->
  n = list_sum (map pairs (chunk_counts x ds)).
Proof.
  intros He Es E. apply Nat.le_antisymm.
  { eapply list_bound; [|exact E]. unfold titer_new in Es. cbn in Es. injection Es as <-. reflexivity. }
  assert (AM : amortized (titer_stream k xw) (text_concat_ops xw) (work_alloc ao) (fun b => - list_used (A:=A) b)%Z
    (fun t => - list_cost (C:=C) (ET:=ET) t)%Z (fun _ => 0%Z) (list_ok k) (@list_one C ET) (fun _ => 0%Z) (one_chunk (@list_one C ET))).
  { apply one_amortized.
    - intros c' b t' b' Q. cbn in Q. unfold tdl_concat, tdl_is_empty, tdl_work, tdl_is_empty in Q. cbn in Q. rewrite He in Q. cbn in Q.
      injection Q as <- <-. split; [eexists; reflexivity|]. unfold list_used. cbn [snd]. rewrite Nat.add_0_r. reflexivity.
    - eexists. reflexivity.
    - split; [apply list_ok_from|]. cbn. lia.
    - intros t u b t' b'. apply list_lower. exact HN.
    - cbn. intros d b d' b' Q. destruct (a_new_datum ao d (fst b)) as [r b2] eqn:Ea. injection Q as -> <-. split; [eapply HN; eauto|reflexivity]. }
  apply (amortized_collect umax cc AM) in E.
  - destruct E as [_ E2]. unfold usedp, list_used in E2. cbn [ps_alloc snd parse_iter_new] in E2. apply Nat2Z.inj_le.
    rewrite <- zsum_nat. unfold chunk_counts. rewrite !map_map. cbn [tx_chunks tdl_ops]. rewrite zsum_opp in E2. unfold list_cost in E2. lia.
  - unfold titer_new in Es. cbn in Es. injection Es as <-. split; reflexivity.
  - reflexivity.
Qed.
End List.

(** ** [TextVec] *)
Section Vec.
Context {S1 S2 C CS Pos A ET CE : Type} (umax : N) (cc : classifier) (k : chunk_ops C CS Pos) (grow : nat -> nat -> nat).
Context (ao : alloc_ops A (tvec C) ET).
Local Notation x := (tvec_ops (A:=A) k).
Local Notation xc := (cvec_ops (A:=A) k grow).
Local Notation nb A T := (fun _ : datum T ET => @None (combiner A T ET Pos CE)).
Context (G1 : forall cap need, need <= grow cap need) (G2 : forall cap need, 2 * cap <= grow cap need).
Context (HN : forall d a d' a', a_new_datum ao d a = (Ok d', a') -> d' = d).
Context (so1 : stream_ops S1 A (tvec C) Pos) (so2 : stream_ops S2 (A * nat) (cvec C) Pos) (Rs : S1 -> S2 -> Prop).
Context (pc : S2 -> Z) (pok : S2 -> Prop).
Context (SS : stream_sim so1 so2 False Rs (@counts A) (@forgets C) eq).
Context (AM : amortized so2 (text_concat_ops xc) (cvec_alloc ao) (@vec_used A) (@vec_tcost C) (@vec_acost C)
  (vec_chunks_ok k) (vec_chunks_ok k) pc pok).

Lemma texts_forget (d : datum (cvec C) ET) : texts_in (cvec_datum d) = map (@cvec_forget C) (texts_in d).
Proof. induction d; cbn; auto; rewrite IHd1, IHd2, map_app; reflexivity. Qed.
Lemma vec_run s1 s2 a ds st' : Rs s1 s2 -> pok s2 -> pc s2 = 0%Z ->
  iterates umax cc so1 (text_concat_ops x) ao (nb A (tvec C)) (parse_iter_new s1 a) (map inl ds) st' ->
  exists es st2 n, iterates umax cc so2 (text_concat_ops xc) (cvec_alloc ao) (nb (A * nat)%type (cvec C))
      (parse_iter_new s2 (a, 0)) (map inl es) st2 /\
    map (@cvec_datum C ET) es = ds /\ ps_alloc st2 = (ps_alloc st', n) /\
    n <= 7 * list_sum (chunk_counts x ds) /\ Forall (fun d => Forall (no_empty_chunks x k) (texts_in d)) ds.
Proof.
  intros Hs Hp Hc (m & fuel & E).
  destruct (sim_runs (CE:=CE) umax cc (co2:=text_concat_ops xc) (ao2:=cvec_alloc ao)
     fuel m (st1:=parse_iter_new s1 a) (st2:=parse_iter_new s2 (a, 0)) ds (st1':=st')
     SS (text_concat_sim (cvec_sim k grow)) (@cvec_alloc_sim _ _ _ ao HN)) as (es & st2 & E2 & F & H2); auto.
  { split; [exact Hs|split; reflexivity]. }
  assert (Ed : map (@cvec_datum C ET) es = ds).
  { clear -F. induction F as [|d e ds es H _ IH]; [reflexivity|]. apply forgets_datum in H. cbn. congruence. }
  destruct H2 as (_ & _ & K). destruct (ps_alloc st2) as [a2 n] eqn:Ea. red in K. cbn in K. subst a2.
  exists es, st2, n. split; [exists m, fuel; exact E2|]. split; [exact Ed|]. split; [exact Ea|].
  apply (amortized_collect umax cc AM) in E2; auto. destruct E2 as [Q1 Q2]. unfold usedp, vec_used in Q2. rewrite Ea in Q2. cbn [snd ps_alloc parse_iter_new] in Q2.
  subst ds. split.
  - apply Nat2Z.inj_le. rewrite Nat2Z.inj_mul. rewrite <- zsum_nat. unfold chunk_counts.
    assert (Et : flat_map (@texts_in _ ET) (map (@cvec_datum C ET) es) = map (@cvec_forget C) (flat_map (@texts_in _ ET) es)).
    { clear. induction es as [|e es IH]; [reflexivity|]. cbn. rewrite map_app, texts_forget, IH. reflexivity. }
    rewrite Et, !map_map.
    assert (B : (zsum (map (@vec_tcost C) (flat_map (@texts_in _ ET) es)) <=
      7 * zsum (map (fun t : cvec C => Z.of_nat (chunk_count (tx_chunks x (cvec_forget t)))) (flat_map (@texts_in _ ET) es)))%Z).
    { clear. induction (flat_map (@texts_in _ ET) es) as [|t l IH]; [cbn; lia|]. pose proof (vec_tcost_count t) as B.
      unfold cvec_chunks in B. unfold zsum in *. cbn [map fold_right tx_chunks tvec_ops]. cbn [tx_chunks tvec_ops] in IH. lia. }
    change (Z.of_nat 7) with 7%Z. lia.
  - clear -Q1. induction Q1 as [|e es H _ IH]; constructor; auto. rewrite texts_forget.
    clear -H. unfold dok in H. induction H as [|t l Ht _ IH]; constructor; auto.
    exists (tvec_slice (cvec_forget t)). split; [destruct t; reflexivity|exact (proj1 Ht)].
Qed.
End Vec.

Section VecStreams.
Context {A ET : Type} (grow : nat -> nat -> nat) (G1 : forall cap need, need <= grow cap need) (G2 : forall cap need, 2 * cap <= grow cap need).
Lemma vec_empty_cost C CS Pos (k : chunk_ops C CS Pos) : vec_chunks_ok k (CMulti (Vec [] 0)) /\ (0 <= vec_tcost (CMulti (Vec (@nil C) 0)))%Z.
Proof. split; [apply vec_ok_empty|]. cbn. lia. Qed.
Lemma cvec_new C (ao : alloc_ops A (tvec C) ET) d b d' b' : a_new_datum (cvec_alloc ao) d b = (Ok d', b') -> d' = d /\ vec_used b' = vec_used b.
Proof.
  cbn. destruct (a_new_datum ao (cvec_datum d) (fst b)) as [[q|e| |] a']; cbn; try discriminate. intros [= <- <-]. split; reflexivity.
Qed.
Lemma vec_titer_amortized C CS Pos (k : chunk_ops C CS Pos) (ao : alloc_ops A (tvec C) ET) :
  amortized (titer_stream k (cvec_ops (A:=A) k grow)) (text_concat_ops (cvec_ops (A:=A) k grow)) (cvec_alloc ao) (@vec_used A)
    (@vec_tcost C) (@vec_acost C) (vec_chunks_ok k) (vec_chunks_ok k) (fun s => accum_cost (@vec_acost C) (ti_accum s))
    (fun s => accum_ok (vec_chunks_ok k) (ti_accum s)).
Proof.
  apply titer_amortized; [apply vec_accumulates; auto|apply vec_empty_cost|apply vec_upper; auto|apply cvec_new].
Qed.
Lemma vec_chariter_amortized (ao : alloc_ops A (tvec posstrish) ET) :
  amortized (chariter_stream (cvec_ops (A:=A) posstrish_ops grow)) (text_concat_ops (cvec_ops (A:=A) posstrish_ops grow)) (cvec_alloc ao) (@vec_used A)
    (@vec_tcost posstrish) (@vec_acost posstrish) (vec_chunks_ok posstrish_ops) (vec_chunks_ok posstrish_ops) (fun _ => 0%Z) (fun _ => True).
Proof.
  apply chariter_amortized; [|apply vec_empty_cost|apply vec_upper; auto|apply cvec_new].
  intros c. split; [apply vec_ok_from|]. cbn. lia.
Qed.
Lemma vec_strishiter_amortized (ao : alloc_ops A (tvec posstrish) ET) :
  amortized (strishiter_stream (cvec_ops (A:=A) posstrish_ops grow)) (text_concat_ops (cvec_ops (A:=A) posstrish_ops grow)) (cvec_alloc ao) (@vec_used A)
    (@vec_tcost posstrish) (@vec_acost posstrish) (vec_chunks_ok posstrish_ops) (vec_chunks_ok posstrish_ops)
    (fun s => accum_cost (@vec_acost posstrish) (si_accum s)) (fun s => accum_ok (vec_chunks_ok posstrish_ops) (si_accum s)).
Proof.
  apply strishiter_amortized; [apply vec_accumulates; auto|apply vec_empty_cost|apply vec_upper; auto|apply cvec_new].
Qed.
End VecStreams.

(** ** A text with many escapes *)
Lemma escaped_raw {Pos} (cc : classifier) stop b c k : is_nest_escape cc b = true -> forall src : list (item Pos),
  map it_ch src = List.concat (repeat [b; c] k) ->
  exists t, Grammar.raw cc stop src t /\ length t = k /\
    (forall l i j r, t = l ++ i :: j :: r -> exists p y q, src = p ++ i :: y :: j :: q).
Proof.
  intros Hb. induction k as [|k IH]; intros src E; cbn in E.
  - destruct src; [|discriminate]. exists []. split; [constructor|]. split; [reflexivity|]. intros [|? l] ? ? ? Q; discriminate.
  - destruct src as [|x [|y src]]; try discriminate. injection E as E1 E2 E. destruct (IH src E) as (t & H1 & H2 & H3).
    exists (y :: t). split; [constructor; [red; congruence|exact H1]|]. split; [cbn; congruence|].
    intros [|h l] i j r Q; cbn in Q; injection Q as Q0 Q; subst.
    + cbn in E. destruct src as [|u [|v src]]; try discriminate. injection E as E3 E4 E.
      inversion H1; subst.
      * exfalso. unfold Grammar.escapes in *. congruence.
      * exists [x], u, src. reflexivity.
    + destruct (H3 l i j r eq_refl) as (p & z & q & ->). exists (x :: h :: p), z, q. reflexivity.
Qed.
(** Single items of a source that are not adjacent in it. *)
Lemma apart_pieces {X} (src t : list X) : NoDup src -> (forall i, In i t -> In i src) ->
  (forall l i j r, t = l ++ i :: j :: r -> exists p y q, src = p ++ i :: y :: j :: q) ->
  pieces src (map (fun i => [i]) t).
Proof.
  intros ND HI HA. split.
  - apply Forall_forall. intros l Hl. apply in_map_iff in Hl. destruct Hl as (i & <- & Hi).
    destruct (in_split _ _ (HI _ Hi)) as (p & q & ->). exists p, q. reflexivity.
  - intros a l1 l2 b E (p & q & Es).
    destruct (map_eq_app _ _ _ _ E) as (t1 & t2 & Et & <- & E2). destruct t2 as [|i [|j t2]]; try discriminate.
    injection E2 as <- <- _. destruct (HA _ _ _ _ Et) as (p' & y & q' & Es'). cbn in Es.
    rewrite Es in Es', ND. assert (p = p' /\ i :: j :: q = i :: y :: j :: q') as [-> Q].
    { clear -ND Es'. revert p' Es'. induction p as [|z p IH]; intros [|z' p'] Es'; cbn in *.
      - auto.
      - injection Es' as <- Es'. exfalso. inversion ND as [|? ? N1 _]. apply N1. rewrite Es'. apply in_app_iff. right. left. reflexivity.
      - injection Es' as -> Es'. exfalso. inversion ND as [|? ? N1 _]. apply N1. apply in_app_iff. right. left. reflexivity.
      - injection Es' as <- Es'. inversion ND. destruct (IH ltac:(auto) _ Es'). subst. auto. }
    injection Q as -> ->. apply (NoDup_remove_2 (p' ++ [i]) (y :: q') y); [rewrite <- app_assoc; exact ND|].
    apply in_app_iff. right. left. reflexivity.
Qed.
Lemma raw_in {Pos} cc stop (s t : list (item Pos)) : Grammar.raw cc stop s t -> forall i, In i t -> In i s.
Proof. induction 1; cbn; intros i Hi; auto; destruct Hi as [<-|Hi]; auto. Qed.
