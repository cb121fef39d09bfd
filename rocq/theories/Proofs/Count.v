(** Counting allocations. *)
From Coq Require Import List Arith NArith Bool Lia.
From Verif.Model Require Import Prelude Parser Iter Chunk TextIter TextDatumList Alloc.
From Verif.Spec Require Import Memory.
Import ListNotations.
Set Implicit Arguments.

Section Count.
Context {C CS Pos ET CE A : Type} (umax : N) (cc : classifier) (k : chunk_ops C CS Pos) (ao : alloc_ops A (tdl C ET) ET).
Local Notation tdl := (tdl C ET).
Local Notation titer := (titer (TT:=tdl) (C:=C) (CS:=CS) (Pos:=Pos)).
Local Notation x := (tdl_ops k ao).
Local Notation so := (titer_stream k x).
Local Notation co := (text_concat_ops x).
Local Notation bnd := (fun _ : datum tdl ET => @None (combiner A tdl ET Pos CE)).
Context (used : A -> nat).
Context (HN : forall d a d' a', a_new_datum ao d a = (Ok d', a') -> d' = d /\ used a' = S (used a)).

Definition tcost (t : tdl) : nat := chunk_count (tdl_chunks t) - 1.
(** An empty text has a single chunk. *)
Definition tidy (t : tdl) : Prop := tdl_is_empty k t = Ok true -> tcost t = 0.
Definition pcost (s : titer) : nat := match ti_accum s with Some t => tcost t | None => 0 end.
Definition ptidy (s : titer) : Prop := match ti_accum s with Some t => tidy t | None => True end.

Lemma tcost_from c : tcost (tdl_from c) = 0.
Proof. reflexivity. Qed.
Lemma tidy_from c : tidy (tdl_from c).
Proof. intros _. reflexivity. Qed.

Lemma link_cost u : forall t a t' a', tdl_link ao t u a = (Ok t', a') -> tdl_is_empty k u <> Panic ->
  tcost t' = S (tcost t + tcost u) /\ used a' = S (used a) /\
  (tdl_is_empty k t = Ok false -> tdl_is_empty k t' = Ok false).
Proof.
  fix IH 1. intros [c [d|]] a t' a' E Hu.
  - destruct d as [t1| | | | |]; try discriminate. cbn [tdl_link] in E.
    destruct (tdl_link ao t1 u a) as [[t2|e| |] a2] eqn:E2; try discriminate. injection E as <- <-.
    destruct (IH _ _ _ _ E2 Hu) as (H1 & H2 & H3). clear IH. unfold tcost, tdl_is_empty in *. cbn [tdl_chunks chunk_count all_empty].
    split; [|split; [exact H2|]].
    + assert (G : chunk_count (tdl_chunks t1) <> 0 \/ tdl_chunks t1 = SPanic).
      { destruct t1 as [c1 [[ | | | | | ]|]]; cbn; auto. }
      assert (G2 : chunk_count (tdl_chunks t2) <> 0 \/ tdl_chunks t2 = SPanic).
      { destruct t2 as [c1 [[ | | | | | ]|]]; cbn; auto. }
      assert (G3 : tdl_chunks t1 <> SPanic).
      { intros K. destruct t1 as [c1 [[ | | | | | ]|]]; cbn in K; try discriminate; cbn in E2; discriminate. }
      assert (G4 : tdl_chunks t2 <> SPanic).
      { intros K. rewrite K in H1. cbn in H1. discriminate. }
      destruct G; [|contradiction]. destruct G2; [|contradiction]. lia.
    + destruct (c_is_empty k c) as [[|]| | |]; cbn; auto.
  - clear IH. cbn [tdl_link] in E. destruct (a_new_datum ao (DText u) a) as [[d|e| |] a2] eqn:E2; try discriminate.
    injection E as <- <-. destruct (HN _ _ E2) as [-> H2]. unfold tcost, tdl_is_empty in *. cbn [tdl_chunks chunk_count all_empty].
    split; [|split; [exact H2|]].
    + destruct u as [c1 [[ | | | | | ]|]]; cbn in *; try lia; try (contradiction Hu; reflexivity).
    + destruct (c_is_empty k c) as [[|]| | |]; cbn; auto; discriminate.
Qed.

Lemma concat_cost t u a t' a' : tidy t -> tidy u -> tdl_concat k ao t u a = (Ok t', a') ->
  used a' + tcost t + tcost u = used a + tcost t' /\ tidy t'.
Proof.
  intros Ht Hu E. unfold tdl_concat in E. destruct (tdl_is_empty k t) as [[|]|[]| |] eqn:Et; try discriminate.
  { injection E as <- <-. rewrite (Ht Et). split; [lia|exact Hu]. }
  destruct (tdl_is_empty k u) as [[|]|[]| |] eqn:Eu; try discriminate.
  { injection E as <- <-. rewrite (Hu Eu). split; [lia|exact Ht]. }
  destruct (link_cost _ _ _ E) as (H1 & H2 & H3); [congruence|]. split; [lia|].
  intros H. rewrite (H3 Et) in H. discriminate.
Qed.

Lemma accum_chunk_cost accum cs a t cs' a' : match accum with Some u => tidy u | None => True end ->
  accum_chunk k x accum cs a = (Ok t, (cs', a')) ->
  used a' + match accum with Some u => tcost u | None => 0 end = used a + tcost t /\ tidy t.
Proof.
  intros Hu E. unfold accum_chunk in E. destruct (cs_accum_done k cs) as [[c|[]| |] cs1]; try discriminate.
  destruct (tx_concat x _ _ a) as [r b] eqn:Ec. injection E as -> -> ->. cbn in Ec.
  destruct accum as [u|]; cbn in Ec.
  - destruct (concat_cost _ Hu (tidy_from _) Ec) as [H1 H2]. split; [cbn in H1; lia|exact H2].
  - destruct (concat_cost _ (tidy_from _) (tidy_from _) Ec) as [H1 H2]. split; [cbn in H1; lia|exact H2].
Qed.

Lemma next_accum_loop_cost : forall nexts cs accum a o s' a', match accum with Some u => tidy u | None => True end ->
  titer_next_accum_loop k x nexts cs accum a = (Ok o, (s', a')) ->
  used a' + match accum with Some u => tcost u | None => 0 end = used a + pcost s' /\ ptidy s'.
Proof.
  induction nexts as [| |c rest IH]; intros cs accum a o s' a' Hu E; cbn [titer_next_accum_loop] in E;
    (destruct (cs_next_accum k cs) as [[[it|]|[]| |] cs']; try discriminate;
      [injection E as <- <- <-; unfold pcost, ptidy; cbn; auto|]);
    (destruct (accum_chunk k x accum cs' a) as [[t|e| |] [cs2 b]] eqn:Ec; try discriminate;
     destruct (accum_chunk_cost _ _ _ Hu Ec) as [H1 H2]); try discriminate.
  - injection E as <- <- <-. unfold pcost, ptidy; cbn; auto.
  - apply IH in E; [|exact H2]. destruct E as [H3 H4]. split; [lia|exact H4].
Qed.

(** ** The parser *)
Local Notation pst := (pstate titer A).
Definition usedp (st : pst) : nat := used (ps_alloc st).
Definition fine (st : pst) : Prop := ptidy (ps_strm st) /\ pcost (ps_strm st) = 0.
Local Notation M X := (M (S:=titer) (A:=A) (Pos:=Pos) (CE:=CE) X).
Definition acct {X} (m : M X) (c : X -> nat) : Prop :=
  forall st v st', fine st -> m st = (Ok v, st') -> fine st' /\ usedp st' = usedp st + c v.

Lemma c_ret X (v : X) (c : X -> nat) : c v = 0 -> acct (ret v) c.
Proof. intros H st v' st' Hf [= <- <-]. split; [auto|lia]. Qed.
Lemma c_raise X e (c : X -> nat) : acct (raise e) c.
Proof. intros st v st' Hf [=]. Qed.
Lemma c_panic X (c : X -> nat) : acct panic c.
Proof. intros st v st' Hf [=]. Qed.
Lemma c_nofuel X (c : X -> nat) : acct nofuel c.
Proof. intros st v st' Hf [=]. Qed.
Lemma c_bind X Y (m : M X) (f : X -> M Y) c1 c : acct m c1 ->
  (forall v, exists c2, acct (f v) c2 /\ forall y, c y = c1 v + c2 y) -> acct (bind m f) c.
Proof.
  intros Hm Hf st v st' H E. unfold bind in E. destruct (m st) as [[y|e| |] s1] eqn:Em; try discriminate.
  destruct (Hm _ _ _ H Em) as [H1 E1]. destruct (Hf y) as (c2 & H2 & Hc). destruct (H2 _ _ _ H1 E) as [H3 E3].
  split; [exact H3|]. rewrite Hc. lia.
Qed.
Lemma c_bind0 X Y (m : M X) (f : X -> M Y) c : acct m (fun _ => 0) -> (forall v, acct (f v) c) -> acct (bind m f) c.
Proof. intros Hm Hf. eapply c_bind; [exact Hm|]. intros v. exists c. split; auto. Qed.
Lemma c_assert b : acct (assert b) (fun _ => 0).
Proof. destruct b; [apply c_ret; reflexivity|apply c_panic]. Qed.
Lemma c_get_depth : acct get_depth (fun _ => 0).
Proof. intros st v st' Hf [= <- <-]. split; [auto|lia]. Qed.
Lemma c_incr_depth : acct (incr_depth umax) (fun _ => 0).
Proof.
  intros st v st' Hf E. unfold incr_depth in E. destruct (ps_depth st <? umax)%N; [|discriminate].
  injection E as <- <-. split; [exact Hf|unfold usedp; cbn; lia].
Qed.
Lemma c_finally X (m : M X) c : acct m c -> acct (finally m decr_depth) c.
Proof.
  intros Hm st v st' Hf E. unfold finally, bind, decr_depth in E.
  destruct (m st) as [[y|e| |] s1] eqn:Em; try discriminate; destruct (0 <? ps_depth s1)%N; try discriminate.
  injection E as <- <-. exact (Hm _ _ _ Hf Em).
Qed.
Lemma peek_fine st v st' : peek (CE:=CE) so st = (Ok v, st') ->
  (ptidy (ps_strm st) -> ptidy (ps_strm st')) /\ pcost (ps_strm st') = pcost (ps_strm st) /\ usedp st' = usedp st.
Proof.
  unfold peek. cbn [s_peek titer_stream]. unfold titer_peek. intros E.
  destruct (ti_peeked (ps_strm st)) as [it|].
  { injection E as <- <-. unfold usedp; cbn; auto. }
  destruct (ti_cur (ps_strm st)) as [cs|].
  2:{ injection E as <- <-. unfold usedp; cbn; auto. }
  destruct (cs_peek k cs) as [r cs']. injection E as _ <-. unfold usedp, ptidy, pcost; cbn; auto.
Qed.
Lemma c_peek : acct (peek (CE:=CE) so) (fun _ => 0).
Proof.
  intros st v st' [H1 H2] E. destruct (peek_fine _ E) as (G1 & G2 & G3). split; [split; auto; congruence|lia].
Qed.
Lemma c_next : acct (next so) (fun _ => 0).
Proof.
  intros st v st' _ E. unfold next in E. cbn [s_next titer_stream] in E. unfold titer_next in E.
  destruct (ti_cur (ps_strm st)) as [cs|].
  - destruct (titer_next_loop k (ti_next (ps_strm st)) cs) as [r [cur nexts]].
    injection E as _ <-. unfold usedp, fine, ptidy, pcost; cbn; auto.
  - injection E as _ <-. unfold usedp, fine, ptidy, pcost; cbn; auto.
Qed.
Lemma next_accum_cost st v st' : ptidy (ps_strm st) -> next_accum (CE:=CE) so st = (Ok v, st') ->
  ptidy (ps_strm st') /\ usedp st' + pcost (ps_strm st) = usedp st + pcost (ps_strm st').
Proof.
  intros Ht E. unfold next_accum in E. cbn [s_next_accum titer_stream] in E. unfold titer_next_accum in E.
  destruct (ti_cur (ps_strm st)) as [cs|].
  - destruct (titer_next_accum_loop k x _ cs _ _) as [r [s' a']] eqn:El. destruct r as [o|e| |]; try discriminate.
    injection E as <- <-. unfold usedp; cbn [ps_strm ps_alloc].
    destruct (next_accum_loop_cost _ _ _ _ Ht El) as [H1 H2]. split; [exact H2|].
    unfold pcost at 1. lia.
  - injection E as _ <-. unfold usedp, ptidy, pcost in *; cbn; auto.
Qed.
Lemma accum_done_cost st v st' : ptidy (ps_strm st) -> accum_done (CE:=CE) so st = (Ok v, st') ->
  fine st' /\ usedp st' + pcost (ps_strm st) = usedp st + tcost v /\ tidy v.
Proof.
  intros Ht E. unfold accum_done in E. cbn [s_accum_done titer_stream] in E. unfold titer_accum_done in E.
  destruct (ti_cur (ps_strm st)) as [cs|].
  - destruct (accum_chunk k x _ cs _) as [r [s' a']] eqn:El. destruct r as [o|e| |]; try discriminate.
    injection E as <- <-. destruct (accum_chunk_cost _ _ _ Ht El) as [H1 H2].
    split; [split; reflexivity|]. split; [|exact H2]. unfold usedp, pcost; cbn. exact H1.
  - injection E as <- <-. split; [split; reflexivity|]. unfold usedp, ptidy, pcost in *; cbn.
    destruct (ti_accum (ps_strm st)); cbn; [auto|split; [reflexivity|apply tidy_from]].
Qed.
Lemma concat_accum_cost t st v st' : tidy t -> ptidy (ps_strm st) -> concat_accum (CE:=CE) so co t st = (Ok v, st') ->
  fine st' /\ usedp st' + pcost (ps_strm st) + tcost t = usedp st + tcost v /\ tidy v.
Proof.
  intros Ht Hp E. unfold concat_accum, bind in E. destruct (accum_done so st) as [[u|e| |] s1] eqn:E1; try discriminate.
  destruct (accum_done_cost _ Hp E1) as (H1 & H2 & H3). unfold concat in E. cbn [t_concat text_concat_ops tx_concat tdl_ops] in E.
  destruct (tdl_concat k ao t u (ps_alloc s1)) as [[v'|e| |] a'] eqn:E2; try discriminate. injection E as <- <-.
  destruct (concat_cost _ Ht H3 E2) as [H4 H5]. split; [exact H1|]. split; [|exact H5].
  unfold usedp in *; cbn in *. lia.
Qed.

Definition text_acct (m : M tdl) (t : tdl) : Prop := forall st v st', tidy t -> ptidy (ps_strm st) -> m st = (Ok v, st') ->
  fine st' /\ usedp st' + pcost (ps_strm st) + tcost t = usedp st + tcost v.
Lemma c_check_end_char d st v st' : check_end_char (CE:=CE) cc so d st = (Ok v, st') ->
  (ptidy (ps_strm st) -> ptidy (ps_strm st')) /\ pcost (ps_strm st') = pcost (ps_strm st) /\ usedp st' = usedp st.
Proof.
  unfold check_end_char, bind. intros E. destruct (peek so st) as [[o|e| |] s1] eqn:Ep; try discriminate.
  pose proof (peek_fine _ Ep) as G. unfold assert in E. destruct (match o with Some it => _ | None => _ end); [|discriminate].
  cbn [ret] in E. destruct (0 <? d)%N; [injection E as <- <-; exact G|].
  destruct (next so s1) as [[[it|]|e| |] s2]; discriminate.
Qed.
Lemma done_acct t nl : text_acct (parse_text_done (CE:=CE) so co t nl) t.
Proof.
  intros st v st' Ht Hp E. unfold parse_text_done in E. destruct (nl =? 0)%N; [|discriminate].
  destruct (concat_accum_cost _ Ht Hp E) as (H1 & H2 & _). auto.
Qed.
Lemma loop_acct m : forall fuel t nl, text_acct (parse_text_loop umax cc so co fuel m t nl) t.
Proof.
  induction fuel as [|f IH]; intros t nl st v st' Ht Hp E; cbn [parse_text_loop] in E; [discriminate|].
  unfold bind at 1 in E. destruct (peek so st) as [[o|e| |] s1] eqn:Ep; try discriminate.
  destruct (peek_fine _ Ep) as (P1 & P2 & P3). specialize (P1 Hp). destruct o as [it|].
  2:{ destruct (done_acct _ _ Ht P1 E) as [H1 H2]. split; [exact H1|]. rewrite P2, P3 in *. lia. }
  cbv zeta in E. destruct ((nl =? 0)%N && is_end_char cc (it_ch it) m)%bool.
  { destruct (done_acct _ _ Ht P1 E) as [H1 H2]. split; [exact H1|]. rewrite P2, P3 in *. lia. }
  assert (AC : forall t' nl' s0 v0 s0', tidy t' -> ptidy (ps_strm s0) ->
     bind (next_accum (CE:=CE) so) (fun _ => parse_text_loop umax cc so co f m t' nl') s0 = (Ok v0, s0') ->
     fine s0' /\ usedp s0' + pcost (ps_strm s0) + tcost t' = usedp s0 + tcost v0).
  { intros t' nl' s0 v0 s0' Ht' Hp' E'. unfold bind in E'. destruct (next_accum so s0) as [[o2|e| |] s2] eqn:E2; try discriminate.
    destruct (next_accum_cost _ Hp' E2) as [H1 H2]. destruct (IH _ _ _ _ _ Ht' H1 E') as [H3 H4]. split; [exact H3|lia]. }
  destruct (is_nest_escape cc (it_ch it)).
  { unfold bind at 1 in E. destruct (concat_accum so co t s1) as [[t'|e| |] s2] eqn:E2; try discriminate.
    destruct (concat_accum_cost _ Ht P1 E2) as (H1 & H2 & H3).
    unfold bind at 1 in E. destruct (next so s2) as [[o2|e| |] s3] eqn:E3; try discriminate.
    destruct (c_next H1 E3) as [[H4 H5] H6]. destruct (AC _ _ _ _ _ H3 H4 E) as [H7 H8]. split; [exact H7|].
    rewrite P2, P3 in *. lia. }
  destruct (is_nest_start cc (it_ch it)).
  { unfold bind in E. destruct (next_accum so s1) as [[o2|e| |] s2] eqn:E2; try discriminate.
    destruct (nl <? umax)%N; [|discriminate].
    destruct (next_accum_cost _ P1 E2) as [H1 H2]. destruct (IH _ _ _ _ _ Ht H1 E) as [H3 H4]. split; [exact H3|].
    rewrite P2, P3 in *. lia. }
  destruct (is_nest_end cc (it_ch it)).
  { destruct (0 <? nl)%N.
    - destruct (AC _ _ _ _ _ Ht P1 E) as [H7 H8]. split; [exact H7|]. rewrite P2, P3 in *. lia.
    - unfold bind at 1, get_depth in E. unfold bind in E.
      destruct (check_end_char cc so (ps_depth s1) s1) as [[o2|e| |] s2] eqn:E2; try discriminate.
      destruct (c_check_end_char _ _ E2) as (Q1 & Q2 & Q3). specialize (Q1 P1).
      destruct (done_acct _ _ Ht Q1 E) as [H1 H2]. split; [exact H1|]. rewrite Q2, Q3, P2, P3 in *. lia. }
  destruct (AC _ _ _ _ _ Ht P1 E) as [H7 H8]. split; [exact H7|]. rewrite P2, P3 in *. lia.
Qed.
Lemma c_parse_text fuel m : acct (parse_text umax cc so co fuel m) tcost.
Proof.
  intros st v st' [H1 H2] E. unfold parse_text in E. destruct (loop_acct _ _ _ _ (tidy_from _) H1 E) as [H3 H4].
  split; [exact H3|]. rewrite H2 in H4. cbn in H4. lia.
Qed.
Lemma c_skip_whitespace fuel : acct (skip_whitespace cc so fuel) (fun _ => 0).
Proof.
  induction fuel as [|f IH]; cbn [skip_whitespace]; [apply c_nofuel|].
  apply c_bind0; [apply c_peek|]. intros [it|]; [|apply c_ret; reflexivity].
  destruct (is_whitespace cc (it_ch it)); [|apply c_ret; reflexivity]. apply c_bind0; [apply c_next|]. auto.
Qed.
Lemma c_nest_end : acct (nest_end cc so) (fun _ => 0).
Proof.
  unfold nest_end. apply c_bind0; [apply c_next|]. intros [it|]; [apply c_assert|apply c_raise].
Qed.
Lemma c_new_datum d : acct (new_datum ao d) (fun d' => 1).
Proof.
  intros st v st' H E. unfold new_datum in E. destruct (a_new_datum ao d (ps_alloc st)) as [[d'|e| |] a'] eqn:En; try discriminate.
  injection E as <- <-. destruct (HN _ _ En) as [-> Hu]. split; [exact H|]. unfold usedp; cbn. lia.
Qed.
Lemma new_datum_same d st v st' : new_datum (S:=titer) (Pos:=Pos) (CE:=CE) ao d st = (Ok v, st') -> v = d.
Proof.
  intros E. unfold new_datum in E. destruct (a_new_datum ao d (ps_alloc st)) as [[d'|e| |] a'] eqn:En; try discriminate.
  injection E as <- <-. apply (HN _ _ En).
Qed.
Lemma bind_inv X Y (m : M X) (f : X -> M Y) st v st' : bind m f st = (Ok v, st') ->
  exists y s1, m st = (Ok y, s1) /\ f y s1 = (Ok v, st').
Proof. unfold bind. destruct (m st) as [[y|e| |] s1]; try discriminate. eauto. Qed.
Definition ocost (o : option (datum tdl ET)) : nat := match o with Some d => slots_needed d | None => 0 end.
Lemma c_parser fuel :
  (forall m, acct (parse_next umax cc so co ao bnd fuel m) ocost) /\
  acct (parse_nested umax cc so co ao bnd fuel) ocost /\
  (forall m, acct (parse_all umax cc so co ao bnd fuel m) slots_needed).
Proof.
  induction fuel as [|fuel (IH1 & IH2 & IH3)].
  { split; [|split]; intros; apply c_nofuel. }
  split; [|split].
  - intros m. cbn [parse_next]. cbv zeta. apply c_bind0.
    { destruct (is_operator_mode m); [apply c_skip_whitespace|apply c_ret; reflexivity]. }
    intros _. apply c_bind0; [apply c_peek|]. intros [it|].
    2:{ apply c_bind0; [apply c_get_depth|]. intros d. destruct (d =? 0)%N; [apply c_ret; reflexivity|apply c_raise]. }
    destruct (is_nest_start cc (it_ch it)).
    { apply c_bind0; [apply c_incr_depth|]. intros _. intros st v st' H E. apply bind_inv in E. destruct E as ([d|] & s1 & En & E);
        destruct (c_finally IH2 H En) as [H1 E1].
      - injection E as <- <-. auto.
      - destruct (IH1 _ _ _ _ H1 E) as [H2 E2]. split; [exact H2|]. cbn in E1. lia. }
    destruct (is_nest_end cc (it_ch it)).
    { apply c_bind0; [apply c_get_depth|]. intros d. apply c_bind0; [|intros _; apply c_ret; reflexivity].
      intros st v st' [H1 H2] E. destruct (c_check_end_char _ _ E) as (Q1 & Q2 & Q3). split; [split; [auto|congruence]|lia]. }
    intros st v st' H E. apply bind_inv in E. destruct E as (t & s1 & Et & E).
    injection E as <- <-. exact (c_parse_text _ _ H Et).
  - cbn [parse_nested]. apply c_bind0; [apply c_next|]. intros o. apply c_bind0; [apply c_assert|]. intros _.
    intros st v st' H E. apply bind_inv in E. destruct E as (op & s1 & En & E).
    destruct (IH1 _ _ _ _ H En) as [H1 E1]. revert E.
    assert (G : acct (match op with
       | Some operator => bind (parse_all umax cc so co ao bnd fuel Base) (fun operands => bind (nest_end cc so) (fun _ =>
            bind (new_datum ao operator) (fun r1 => bind (new_datum ao operands) (fun r2 => ret (Some (DComb r1 r2))))))
       | None => bind (nest_end cc so) (fun _ => ret (Some DEmptyNest)) end) (fun y : option (datum tdl ET) => ocost y - ocost op)).
    { destruct op as [op|].
      - intros s v0 s' Hs E. apply bind_inv in E. destruct E as (ops & s2 & Ea & E).
        destruct (IH3 _ _ _ _ Hs Ea) as [H2 E2]. apply bind_inv in E. destruct E as (u & s3 & Ee & E).
        destruct (c_nest_end H2 Ee) as [H3 E3]. apply bind_inv in E. destruct E as (r1 & s4 & E4 & E).
        pose proof (new_datum_same _ _ E4). subst r1. destruct (c_new_datum _ H3 E4) as [H4 E4']. apply bind_inv in E. destruct E as (r1 & s5 & E5 & E).
        pose proof (new_datum_same _ _ E5). subst r1. destruct (c_new_datum _ H4 E5) as [H5 E5']. injection E as <- <-.
        split; [exact H5|]. cbn [ocost slots_needed]. lia.
      - apply c_bind0; [apply c_nest_end|]. intros _. apply c_ret. reflexivity. }
    intros E. apply bind_inv in E. destruct E as (p & s2 & Ep & E).
    destruct (c_peek H1 Ep) as [H2 E2]. apply bind_inv in E. destruct E as (u & s3 & Ew & E).
    assert (K : fine s3 /\ usedp s3 = usedp s2).
    { destruct p as [it|]; [destruct (is_whitespace cc (it_ch it))|].
      - apply bind_inv in Ew. destruct Ew as (p2 & s4 & E4 & Ew). injection Ew as _ <-.
        destruct (c_next H2 E4). split; [auto|lia].
      - injection Ew as _ <-. auto.
      - injection Ew as _ <-. auto. }
    destruct K as [H3 E3]. destruct (G _ _ _ H3 E) as [H4 E4]. split; [exact H4|].
    assert (ocost op <= ocost v).
    { destruct op as [op|]; [|cbn; lia]. apply bind_inv in E. destruct E as (ops & s5 & _ & E).
      apply bind_inv in E. destruct E as (u' & s6 & _ & E). apply bind_inv in E. destruct E as (r1 & s7 & E7 & E).
      pose proof (new_datum_same _ _ E7). subst r1. apply bind_inv in E. destruct E as (r1 & s8 & E8 & E). injection E as <- <-. cbn [ocost slots_needed]. lia. }
    lia.
  - intros m. cbn [parse_all]. intros st v st' H E. apply bind_inv in E. destruct E as ([d|] & s1 & En & E);
      destruct (IH1 _ _ _ _ H En) as [H1 E1].
    2:{ injection E as <- <-. auto. }
    apply bind_inv in E. destruct E as (r1 & s2 & E2 & E).
    pose proof (new_datum_same _ _ E2). subst r1. destruct (c_new_datum _ H1 E2) as [H2 E2']. apply bind_inv in E. destruct E as (r1 & s3 & E3 & E).
    destruct (c_new_datum _ H2 E3) as [H3 E3']. apply bind_inv in E. destruct E as (g & s3' & Eg & E).
    injection Eg as <- <-. destruct (a_get_mut ao r1 (ps_alloc s3)); [|discriminate].
    apply bind_inv in E. destruct E as (rest & s4 & E4 & E).
    destruct (IH3 _ _ _ _ H3 E4) as [H4 E4']. injection E as <- <-. split; [exact H4|]. cbn [slots_needed ocost] in *. lia.
Qed.

(** Items all successful: exactly the memory they need has been used. *)
Lemma collect_used fuel : forall n st ds st', fine st ->
  iter_collect umax cc so co ao bnd n fuel st = (Ok (map inl ds), st') ->
  fine st' /\ usedp st' = usedp st + total_needed ds.
Proof.
  induction n as [|n IH]; intros st ds st' H E; cbn [iter_collect] in E; [discriminate|].
  unfold iter_next, do_next in E.
  destruct (parse_next umax cc so co ao bnd fuel Base st) as [[[d|]|e| |] s1] eqn:En; try discriminate.
  - destruct (proj1 (c_parser fuel) Base _ _ _ H En) as [H1 E1].
    destruct (iter_collect umax cc so co ao bnd n fuel s1) as [[l|[]| |] s2] eqn:Ec; try discriminate.
    injection E as E <-. destruct ds as [|d' ds]; [discriminate|]. injection E as -> ->.
    destruct (IH _ _ _ H1 Ec) as [H2 E2]. split; [exact H2|]. unfold total_needed in *; cbn [map list_sum fold_right] in *.
    unfold list_sum in *. cbn. cbn in E1. lia.
  - destruct (proj1 (c_parser fuel) Base _ _ _ H En) as [H1 E1].
    injection E as E <-. destruct ds; [|discriminate]. split; [exact H1|]. cbn in *. lia.
  - destruct (iter_collect umax cc so co ao bnd n fuel s1) as [[l|[]| |] s2] eqn:Ec; try discriminate.
    injection E as E <-. destruct ds; discriminate.
Qed.
End Count.
