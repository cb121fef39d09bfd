(** Runs with text types whose texts are related. *)
From Coq Require Import List Arith NArith Bool Lia.
From Verif.Model Require Import Prelude Parser Iter Chunk TextIter TextVec CharIter StrishIter PosStrish TextWork.
From Verif.Proofs Require Import Sim.
Import ListNotations.
Set Implicit Arguments.

Section TextSim.
Context {T1 T2 C A1 A2 : Type} (x1 : text_ops T1 C A1) (x2 : text_ops T2 C A2) (Rt : T1 -> T2 -> Prop) (Ra : A1 -> A2 -> Prop).
Record text_sim : Prop := {
  ts_from : forall c, Rt (tx_from x1 c) (tx_from x2 c);
  ts_empty : Rt (tx_empty x1) (tx_empty x2);
  ts_concat : forall t1 u1 t2 u2 a1 a2, Rt t1 t2 -> Rt u1 u2 -> Ra a1 a2 ->
    ares_rel False Rt Ra (tx_concat x1 t1 u1 a1) (tx_concat x2 t2 u2 a2) }.
Context (H : text_sim).

Lemma text_concat_sim : concat_sim (text_concat_ops x1) (text_concat_ops x2) False Ra Rt.
Proof. split; cbn; [apply (ts_empty H)|]. intros. apply (ts_concat H); auto. Qed.

Lemma item_refl {P} (o : option (item P)) : option_rel (item_rel eq) o o.
Proof. destruct o; cbn; auto. split; reflexivity. Qed.
Lemma unwrap_rel o1 o2 : option_rel Rt o1 o2 ->
  Rt (match o1 with Some t => t | None => tx_empty x1 end) (match o2 with Some t => t | None => tx_empty x2 end).
Proof. destruct o1, o2; cbn; try tauto. intros _. apply (ts_empty H). Qed.

Section Chunks.
Context {CS Pos : Type} (k : chunk_ops C CS Pos).
Definition cs_rel (y1 : CS * A1) (y2 : CS * A2) : Prop := fst y1 = fst y2 /\ Ra (snd y1) (snd y2).
Lemma accum_chunk_sim o1 o2 cs a1 a2 : option_rel Rt o1 o2 -> Ra a1 a2 ->
  ares_rel False Rt cs_rel (accum_chunk k x1 o1 cs a1) (accum_chunk k x2 o2 cs a2).
Proof.
  intros Ho Hra. unfold accum_chunk. destruct (cs_accum_done k cs) as [[c|[]| |] cs']; try exact I.
  pose proof (ts_concat H (unwrap_rel _ _ Ho) (ts_from H c) Hra) as G. unfold ares_rel, cs_rel in *.
  destruct (tx_concat x1 _ _ a1) as [[t1|e1| |] b1], (tx_concat x2 _ _ a2) as [[t2|e2| |] b2]; cbn in *; tauto.
Qed.

Local Notation titer TT := (titer (TT:=TT) (C:=C) (CS:=CS) (Pos:=Pos)).
Definition titer_rel (s1 : titer T1) (s2 : titer T2) : Prop :=
  ti_cur s1 = ti_cur s2 /\ ti_next s1 = ti_next s2 /\ option_rel Rt (ti_accum s1) (ti_accum s2) /\ ti_peeked s1 = ti_peeked s2.
Local Notation Rsa := (Rsa titer_rel Ra).

Lemma titer_loop_sim : forall nexts cs o1 o2 a1 a2, option_rel Rt o1 o2 -> Ra a1 a2 ->
  ares_rel False (option_rel (item_rel eq)) Rsa (titer_next_accum_loop k x1 nexts cs o1 a1) (titer_next_accum_loop k x2 nexts cs o2 a2).
Proof.
  induction nexts as [| |c rest IH]; intros cs o1 o2 a1 a2 Ho Hra; cbn [titer_next_accum_loop];
    (destruct (cs_next_accum k cs) as [[[it|]|[]| |] cs']; try exact I;
      [split; [apply item_refl|]; split; [split; [reflexivity|]; split; [reflexivity|]; split; [exact Ho|reflexivity]|exact Hra]|]);
    (pose proof (accum_chunk_sim o1 o2 cs' Ho Hra) as G; unfold ares_rel at 1 in G;
     destruct (accum_chunk k x1 o1 cs' a1) as [[t1|e1| |] [c1 b1]], (accum_chunk k x2 o2 cs' a2) as [[t2|e2| |] [c2 b2]];
     cbn [fst snd] in G; try tauto; unfold cs_rel in G; cbn [fst snd] in G;
     [try exact I|right; split; [|tauto]; cbn; destruct G as [[]|[-> _]]; repeat split; auto]).
  - split; [exact I|]. split; [|tauto]. repeat split; cbn; tauto.
  - destruct G as (G1 & G2 & G3). apply IH; auto.
Qed.

Lemma titer_sim : stream_sim (titer_stream k x1) (titer_stream k x2) False titer_rel Ra Rt eq.
Proof.
  split; cbn.
  - intros s1 s2 (H1 & H2 & H3 & H4). unfold titer_peek. rewrite <- H4, <- H1, <- H2. destruct (ti_peeked s1) eqn:Ep.
    { split; [apply item_refl|]. repeat split; cbn; auto. congruence. }
    destruct (ti_cur s1) as [cs|] eqn:Ec; [|split; [exact I|]; repeat split; cbn; congruence].
    destruct (cs_peek k cs) as [r cs']. unfold pres_rel. cbn [fst snd].
    destruct (match r with Ok None => _ | _ => _ end) as [o|[]| |]; try exact I.
    split; [apply item_refl|]. repeat split; cbn; auto.
  - intros s1 s2 (H1 & H2 & H3 & H4). unfold titer_next. rewrite <- H1, <- H2.
    destruct (ti_cur s1) as [cs|] eqn:Ec; [|split; [exact I|]; repeat split; cbn; auto].
    destruct (titer_next_loop k (ti_next s1) cs) as [[o|[]| |] [cur nx]]; try exact I.
    split; [apply item_refl|]. repeat split; cbn; auto.
  - intros s1 s2 a1 a2 (H1 & H2 & H3 & H4) Hra. unfold titer_next_accum. rewrite <- H1, <- H2.
    destruct (ti_cur s1) as [cs|] eqn:Ec; [apply titer_loop_sim; auto|].
    split; [exact I|]. split; [|exact Hra]. repeat split; cbn; auto.
  - intros s1 s2 a1 a2 (H1 & H2 & H3 & H4) Hra. unfold titer_accum_done. rewrite <- H1, <- H2, <- H4.
    destruct (ti_cur s1) as [cs|] eqn:Ec.
    + pose proof (accum_chunk_sim _ _ cs H3 Hra) as G. unfold ares_rel, cs_rel, Rsa in *.
      destruct (accum_chunk k x1 _ cs a1) as [[t1|e1| |] [c1 b1]], (accum_chunk k x2 _ cs a2) as [[t2|e2| |] [c2 b2]];
        cbn in *; try tauto.
      * destruct G as (G1 & -> & G3). repeat split; auto.
      * destruct G as [[]|[-> G3]]. right. repeat split; auto.
    + split; [apply unwrap_rel; exact H3|]. split; [|exact Hra]. repeat split; cbn; auto.
Qed.

Lemma titer_new_sim t1 t2 s1 : tx_chunks x1 t1 = tx_chunks x2 t2 -> titer_new k x1 t1 = Ok s1 ->
  exists s2, titer_new k x2 t2 = Ok s2 /\ titer_rel s1 s2.
Proof.
  intros E Es. unfold titer_new in *. rewrite <- E. destruct (next_chunk k (tx_chunks x1 t1)) as [[cur nx]|[]| |]; try discriminate.
  injection Es as <-. eexists. split; [reflexivity|]. repeat split; cbn; auto.
Qed.
End Chunks.
End TextSim.

Section Chars.
Context {T1 T2 A1 A2 : Type} (x1 : text_ops T1 posstrish A1) (x2 : text_ops T2 posstrish A2) (Rt : T1 -> T2 -> Prop) (Ra : A1 -> A2 -> Prop).
Context (H : text_sim x1 x2 Rt Ra).
Lemma chariter_sim : stream_sim (chariter_stream x1) (chariter_stream x2) False eq Ra Rt eq.
Proof.
  split; cbn.
  - intros s _ <-. unfold chariter_peek. destruct (pk_peek (ch_iter s)). split; [apply item_refl|reflexivity].
  - intros s _ <-. unfold chariter_next. destruct (pk_next (ch_iter s)). split; [apply item_refl|reflexivity].
  - intros s _ a1 a2 <- Hra. unfold chariter_next_accum. destruct (pk_next (ch_iter s)) as [[it|] p]; (split; [apply item_refl|split; auto]).
  - intros s _ a1 a2 <- Hra. unfold chariter_accum_done. split; [apply (ts_from H)|split; auto].
Qed.

Definition strish_rel (s1 : strishiter T1) (s2 : strishiter T2) : Prop :=
  si_cur s1 = si_cur s2 /\ si_char s1 = si_char s2 /\ si_iter s1 = si_iter s2 /\ si_peeked s1 = si_peeked s2 /\
  option_rel Rt (si_accum s1) (si_accum s2).
Local Notation Rsa := (Rsa strish_rel Ra).
Lemma strish_next_loop_sim : forall f s1 s2, strish_rel s1 s2 ->
  pres_rel (option_rel (item_rel eq)) strish_rel (strishiter_next_loop f s1) (strishiter_next_loop f s2).
Proof.
  induction f as [|f IH]; intros s1 s2 HR; cbn [strishiter_next_loop]; [exact I|].
  assert (HR' := HR). destruct HR' as (H1 & H2 & H3 & H4 & H5). rewrite <- H1, <- H2, <- H3, <- H4.
  destruct (si_cur s1) as [cs|]; [|split; [exact I|exact HR]].
  destruct (posstrish_next cs) as [[[it|]|[]| |] cs']; try exact I.
  - split; [apply item_refl|]. repeat split; cbn; auto.
  - destruct (next_posstrish cs' (si_char s1) (si_iter s1) (si_peeked s1)) as [[[cur it'] pk]|[]| |]; try exact I.
    apply IH. repeat split; cbn; auto.
Qed.
Lemma strish_next_accum_loop_sim : forall f s1 s2 a1 a2, strish_rel s1 s2 -> Ra a1 a2 ->
  ares_rel False (option_rel (item_rel eq)) Rsa (strishiter_next_accum_loop x1 f s1 a1) (strishiter_next_accum_loop x2 f s2 a2).
Proof.
  induction f as [|f IH]; intros s1 s2 a1 a2 HR Hra; cbn [strishiter_next_accum_loop]; [exact I|].
  assert (HR' := HR). destruct HR' as (H1 & H2 & H3 & H4 & H5). rewrite <- H1, <- H2, <- H3, <- H4.
  destruct (si_cur s1) as [cs|]; [|split; [exact I|split; [exact HR|exact Hra]]].
  destruct (posstrish_next_accum cs) as [[[it|]|[]| |] cs']; try exact I.
  - split; [apply item_refl|]. split; [repeat split; cbn; auto|exact Hra].
  - pose proof (accum_chunk_sim H posstrish_ops _ _ cs' _ _ H5 Hra) as G. unfold ares_rel at 1 in G.
    destruct (accum_chunk posstrish_ops x1 _ cs' a1) as [[t1|e1| |] [c1 b1]], (accum_chunk posstrish_ops x2 _ cs' a2) as [[t2|e2| |] [c2 b2]];
      cbn [fst snd] in G; try tauto; unfold cs_rel in G; cbn [fst snd] in G.
    + destruct G as (G1 & -> & G3). destruct (next_posstrish c2 (si_char s1) (si_iter s1) (si_peeked s1)) as [[[cur it'] pk]|[]| |]; try exact I.
      apply IH; [repeat split; cbn; auto|exact G3].
    + destruct G as [[]|[-> G3]]. right. split; [repeat split; cbn; auto|exact G3].
Qed.
Lemma strishiter_sim : stream_sim (strishiter_stream x1) (strishiter_stream x2) False strish_rel Ra Rt eq.
Proof.
  split; cbn [strishiter_stream s_peek s_next s_next_accum s_accum_done].
  - intros s1 s2 HR. assert (HR' := HR). destruct HR' as (H1 & H2 & H3 & H4 & H5). unfold strishiter_peek.
    rewrite <- H1, <- H2, <- H3, <- H4. destruct (si_cur s1) as [cs|]; [|split; [exact I|exact HR]].
    destruct (posstrish_peek cs) as [r cs'].
    assert (G : forall o : option (item charpos), pres_rel (option_rel (item_rel eq)) strish_rel
      (Ok o, StrishIter (Some cs') (si_char s1) (si_iter s1) (si_peeked s1) (si_accum s1))
      (Ok o, StrishIter (Some cs') (si_char s1) (si_iter s1) (si_peeked s1) (si_accum s2))).
    { intros o. split; [apply item_refl|]. repeat split; cbn; auto. }
    destruct r as [[it|]|[]| |]; try exact I; [apply G|].
    destruct (match si_peeked s1 with Some p => _ | None => _ end) as [[[p|]|[]| |] it']; try exact I.
    + destruct (posstrish_peek p) as [[o|[]| |] p']; try exact I. split; [apply item_refl|]. repeat split; cbn; auto.
    + split; [exact I|]. repeat split; cbn; auto.
  - intros s1 s2 HR. destruct HR as (H1 & H2 & H3 & H4 & H5). unfold strishiter_next, strishiter_fuel. rewrite H1, H2, H3, H4.
    apply (@strish_next_loop_sim (3 + length (si_iter s2)) (StrishIter _ _ _ _ None) (StrishIter _ _ _ _ None)). repeat split; cbn; auto.
  - intros s1 s2 a1 a2 HR Hra. unfold strishiter_next_accum, strishiter_fuel. destruct HR as (H1 & H2 & H3 & H4 & H5).
    rewrite H3. generalize (3 + length (si_iter s2)). intros f. apply strish_next_accum_loop_sim; [repeat split; auto|exact Hra].
  - intros s1 s2 a1 a2 (H1 & H2 & H3 & H4 & H5) Hra. unfold strishiter_accum_done. rewrite <- H1, <- H2, <- H3, <- H4.
    destruct (si_cur s1) as [cs|].
    + pose proof (accum_chunk_sim H posstrish_ops _ _ cs _ _ H5 Hra) as G. unfold ares_rel, cs_rel, Sim.Rsa in *.
      destruct (accum_chunk posstrish_ops x1 _ cs a1) as [[t1|e1| |] [c1 b1]], (accum_chunk posstrish_ops x2 _ cs a2) as [[t2|e2| |] [c2 b2]];
        cbn in *; try tauto.
      * destruct G as (G1 & -> & G3). repeat split; auto.
      * destruct G as [[]|[-> G3]]. right. repeat split; auto.
    + split; [apply (unwrap_rel H); exact H5|]. split; [|exact Hra]. repeat split; cbn; auto.
Qed.
Lemma strishiter_new_sim it s1 : strishiter_new it = Ok s1 -> exists s2, strishiter_new it = Ok s2 /\ strish_rel s1 s2.
Proof.
  unfold strishiter_new. destruct (next_posstrish_of it 0) as [[cur|[]| |] it']; try discriminate.
  intros [= <-]. eexists. split; [reflexivity|]. repeat split; cbn; auto.
Qed.
End Chars.

(** [TextVec] with and without capacities. *)
Section Vec.
Context {C CS Pos A ET : Type} (k : chunk_ops C CS Pos) (grow : nat -> nat -> nat) (ao : alloc_ops A (tvec C) ET).
Definition forgets (t : tvec C) (u : cvec C) : Prop := t = cvec_forget u.
Definition counts (a : A) (b : A * nat) : Prop := a = fst b.
Lemma cvec_sim : text_sim (tvec_ops (A:=A) k) (cvec_ops (A:=A) k grow) forgets counts.
Proof.
  split; cbn; try reflexivity. intros t1 u1 t2 u2 a1 a2 -> -> ->. unfold tvec_concat, cvec_concat, cvec_is_empty.
  destruct (tvec_is_empty k (cvec_forget t2)) as [[|]|[]| |]; try exact I; try (split; reflexivity).
  destruct (tvec_is_empty k (cvec_forget u2)) as [[|]|[]| |]; try exact I; try (split; reflexivity).
  destruct t2 as [c1|v1], u2 as [c2|v2]; cbn; try (split; reflexivity).
  - unfold vec_insert0. destruct (vec_reserve grow v2 1). split; reflexivity.
  - unfold vec_push. destruct (vec_reserve grow v1 1). split; reflexivity.
  - unfold vec_append. destruct (vec_reserve grow v1 _). split; reflexivity.
Qed.
Lemma forgets_datum (d : datum (tvec C) ET) : forall e, datum_rel forgets eq d e <-> d = cvec_datum e.
Proof.
  induction d; intros []; cbn; split; intros Q; try discriminate Q; try contradiction; try reflexivity; try exact I;
    repeat match goal with H : _ /\ _ |- _ => destruct H end;
    repeat match goal with H : datum_rel _ _ _ _, IH : forall e, _ <-> _ |- _ => apply IH in H end; subst; try reflexivity.
  - red in Q. congruence.
  - congruence.
  - injection Q as -> ->. split; [apply IHd1|apply IHd2]; reflexivity.
  - injection Q as -> ->. split; [apply IHd1|apply IHd2]; reflexivity.
  - congruence.
Qed.
Lemma cvec_alloc_sim : (forall d a d' a', a_new_datum ao d a = (Ok d', a') -> d' = d) ->
  alloc_sim ao (cvec_alloc ao) False counts forgets eq.
Proof.
  intros HN. split.
  - intros d1 d2 a1 a2 Hd ->. apply forgets_datum in Hd. cbn. rewrite <- Hd. destruct (a_new_datum ao d1 (fst a2)) as [[d'|e| |] a'] eqn:E; cbn.
    + split; [|reflexivity]. apply forgets_datum. cbn. rewrite <- Hd. exact (HN _ _ _ _ E).
    + right. reflexivity.
    + exact I.
    + exact I.
  - intros d1 d2 a1 a2 Hd ->. apply forgets_datum in Hd. cbn. rewrite <- Hd. reflexivity.
Qed.
End Vec.
