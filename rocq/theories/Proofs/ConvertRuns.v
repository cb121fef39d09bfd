(** What a stream gives out in texts is what the parser returns, in order, when nothing is bound. *)
From Coq Require Import List Arith NArith Bool Lia.
From Verif.Model Require Import Prelude Parser Iter Utf8 Chunk PosStrish TextVec CharIter CharConvert.
From Verif.Spec Require Import ChunkContract Convert TextWork.
From Verif.Proofs Require Import StrFacts ChunkFacts Instances.
Import ListNotations.
Set Implicit Arguments.

Section Gives.
Context {S A TT ET Pos CE X : Type} (umax : N) (cc : classifier).
Context (so : stream_ops S A TT Pos) (co : concat_ops A TT) (ao : alloc_ops A TT ET).
Context (given : S -> list X) (good : TT -> Prop) (parts : TT -> list X).
Local Notation bnd := (fun _ : datum TT ET => None : option (combiner A TT ET Pos CE)).
Local Notation M := (M (S:=S) (A:=A) (Pos:=Pos) (CE:=CE)).
Context (H_peek : forall s r s', s_peek so s = (Ok r, s') -> given s' = given s).
Context (H_next : forall s r s', s_next so s = (Ok r, s') -> given s' = given s).
Context (H_next_accum : forall s a r s' a', s_next_accum so s a = (Ok r, (s', a')) -> given s' = given s).
Context (H_accum_done : forall s a t s' a', s_accum_done so s a = (Ok t, (s', a')) -> good t /\ given s' = given s ++ parts t).
Context (H_empty : good (t_empty co) /\ parts (t_empty co) = []).
Context (H_concat : forall t1 t2 a t a', t_concat co t1 t2 a = (Ok t, a') -> good t1 -> good t2 -> good t /\ parts t = parts t1 ++ parts t2).
Context (H_new : forall d a d' a', a_new_datum ao d a = (Ok d', a') -> d' = d).

Definition gv (st : pstate S A) : list X := given (ps_strm st).
(** What holds if it returns normally. *)
Definition okp {Y} (m : M Y) (st : pstate S A) (Q : Y -> pstate S A -> Prop) : Prop :=
  forall y st', m st = (Ok y, st') -> Q y st'.
Lemma okp_ret Y (y : Y) st (Q : Y -> _ -> Prop) : Q y st -> okp (ret y) st Q.
Proof. intros H z st' [= <- <-]. exact H. Qed.
Lemma okp_raise Y e st (Q : Y -> _ -> Prop) : okp (raise e) st Q.
Proof. intros z st' E. discriminate. Qed.
Lemma okp_bind Y Z (m : M Y) (k : Y -> M Z) st (Q : Z -> _ -> Prop) : okp m st (fun y st' => okp (k y) st' Q) -> okp (bind m k) st Q.
Proof. intros H z st' E. unfold bind in E. destruct (m st) as [[y|e| |] st1] eqn:Em; try discriminate. exact (H _ _ Em _ _ E). Qed.
Lemma okp_mono Y (m : M Y) st (Q Q' : Y -> _ -> Prop) : okp m st Q -> (forall y st', Q y st' -> Q' y st') -> okp m st Q'.
Proof. intros H HQ y st' E. auto. Qed.

(** It gives out nothing. *)
Definition mute {Y} (m : M Y) : Prop := forall st, okp m st (fun _ st' => gv st' = gv st).
Lemma mute_bind Y Z (m : M Y) (k : Y -> M Z) : mute m -> (forall y, mute (k y)) -> mute (bind m k).
Proof.
  intros Hm Hk st. apply okp_bind. eapply okp_mono; [apply Hm|]. intros y st1 E1. eapply okp_mono; [apply Hk|].
  cbv beta. congruence.
Qed.
Lemma okp_mute Y Z (m : M Y) (k : Y -> M Z) st l (Q : Z -> _ -> Prop) : mute m -> gv st = l ->
  (forall y st', gv st' = l -> okp (k y) st' Q) -> okp (bind m k) st Q.
Proof. intros Hm Hl Hk. apply okp_bind. eapply okp_mono; [apply Hm|]. intros y st1 E1. apply Hk. congruence. Qed.
Lemma mute_ret Y (y : Y) : mute (ret y).
Proof. intros st. apply okp_ret. reflexivity. Qed.
Lemma mute_raise Y e : mute (raise (X:=Y) e).
Proof. intros st. apply okp_raise. Qed.
Lemma mute_fail Y : mute (panic (X:=Y)) /\ mute (nofuel (X:=Y)).
Proof. split; intros st y st' E; discriminate. Qed.
Lemma mute_assert b : mute (assert b).
Proof. destruct b; [apply mute_ret|apply mute_fail]. Qed.
Lemma mute_get_depth : mute get_depth.
Proof. intros st y st' [= _ <-]. reflexivity. Qed.
Lemma mute_incr : mute (incr_depth umax).
Proof. intros st y st' E. unfold incr_depth in E. destruct (ps_depth st <? umax)%N; [injection E as _ <-; reflexivity|discriminate]. Qed.
Lemma mute_decr : mute decr_depth.
Proof. intros st y st' E. unfold decr_depth in E. destruct (0 <? ps_depth st)%N; [injection E as _ <-; reflexivity|discriminate]. Qed.
Lemma okp_finally Y (m : M Y) st (Q : Y -> _ -> Prop) : okp m st (fun y st' => forall st2, gv st2 = gv st' -> Q y st2) -> okp (finally m decr_depth) st Q.
Proof.
  intros H y st' E. unfold finally, bind in E. destruct (m st) as [[z|e| |] st1] eqn:Em; try discriminate;
    destruct (decr_depth st1) as [[u|e'| |] st2] eqn:Ed; try discriminate.
  injection E as <- <-. apply (H _ _ Em). exact (mute_decr _ Ed).
Qed.
Lemma mute_peek : mute (peek so).
Proof.
  intros st y st' E. unfold peek in E. destruct (s_peek so (ps_strm st)) as [[o|[]| |] s] eqn:Ep; try discriminate.
  injection E as _ <-. exact (H_peek _ Ep).
Qed.
Lemma mute_next : mute (next so).
Proof.
  intros st y st' E. unfold next in E. destruct (s_next so (ps_strm st)) as [[o|[]| |] s] eqn:Ep; try discriminate.
  injection E as _ <-. exact (H_next _ Ep).
Qed.
Lemma mute_next_accum : mute (next_accum so).
Proof.
  intros st y st' E. unfold next_accum in E. destruct (s_next_accum so (ps_strm st) (ps_alloc st)) as [[o|e| |] [s a]] eqn:Ep; try discriminate.
  injection E as _ <-. exact (H_next_accum _ _ Ep).
Qed.
Hint Resolve mute_ret mute_raise mute_assert mute_get_depth mute_incr mute_decr mute_peek mute_next mute_next_accum : mute.
Lemma mute_skip fuel : mute (skip_whitespace cc so fuel).
Proof.
  induction fuel as [|f IH]; cbn [skip_whitespace]; [apply mute_fail|]. apply mute_bind; [auto with mute|].
  intros [it|]; [|auto with mute]. destruct (is_whitespace cc (it_ch it)); [|auto with mute]. apply mute_bind; auto with mute.
Qed.
Lemma mute_check d : mute (check_end_char cc so d).
Proof.
  unfold check_end_char. apply mute_bind; [auto with mute|]. intros o. apply mute_bind; [auto with mute|]. intros _.
  destruct (0 <? d)%N; [auto with mute|]. apply mute_bind; [auto with mute|]. intros [it|]; [auto with mute|apply mute_fail].
Qed.
Lemma mute_nest_end : mute (nest_end cc so).
Proof. unfold nest_end. apply mute_bind; [auto with mute|]. intros [it|]; auto with mute. Qed.
Hint Resolve mute_skip mute_check mute_nest_end : mute.

Lemma gives_concat_accum t st : good t -> okp (concat_accum so co t) st (fun u st' => good u /\ exists l, gv st' = gv st ++ l /\ parts u = parts t ++ l).
Proof.
  intros Ht. unfold concat_accum. apply okp_bind. intros u st1 E1. unfold accum_done in E1.
  destruct (s_accum_done so (ps_strm st) (ps_alloc st)) as [[v|e| |] [s a]] eqn:Ep; try discriminate. injection E1 as <- <-.
  destruct (H_accum_done _ _ Ep) as [Hg Hv]. intros w st2 E2. unfold concat in E2. cbn [ps_alloc ps_strm ps_depth] in E2.
  destruct (t_concat co t v a) as [[z|e| |] a2] eqn:Ec; try discriminate. injection E2 as <- <-.
  destruct (H_concat _ Ec Ht Hg) as [Gz Pz]. split; [exact Gz|]. exists (parts v). auto.
Qed.
Lemma gives_done t n st : good t -> okp (parse_text_done so co t n) st (fun u st' => good u /\ exists l, gv st' = gv st ++ l /\ parts u = parts t ++ l).
Proof. intros Ht. unfold parse_text_done. destruct (n =? 0)%N; [apply gives_concat_accum; exact Ht|apply okp_raise]. Qed.
Lemma gives_loop m : forall fuel t n st, good t ->
  okp (parse_text_loop umax cc so co fuel m t n) st (fun u st' => good u /\ exists l, gv st' = gv st ++ l /\ parts u = parts t ++ l).
Proof.
  induction fuel as [|f IH]; intros t n st Ht; cbn [parse_text_loop]; [intros y st' E; discriminate|].
  eapply okp_mute; [auto with mute|reflexivity|]. intros [it|] st1 E1; [|rewrite <- E1; apply gives_done; exact Ht]. rewrite <- E1.
  destruct (_ && _)%bool; [apply gives_done; exact Ht|].
  destruct (is_nest_escape cc (it_ch it)).
  { apply okp_bind. eapply okp_mono; [apply gives_concat_accum; exact Ht|]. intros u st2 (Hu & l & E2 & P2).
    eapply okp_mute; [auto with mute|exact E2|]. intros _ st3 E3. eapply okp_mute; [auto with mute|exact E3|]. intros _ st4 E4.
    eapply okp_mono; [apply IH; exact Hu|]. intros v st5 (Hv & l2 & E5 & P5). split; [exact Hv|]. exists (l ++ l2).
    rewrite E5, E4, P5, P2, !app_assoc. auto. }
  destruct (is_nest_start cc (it_ch it)).
  { eapply okp_mute; [auto with mute|reflexivity|]. intros _ st3 E3. rewrite <- E3. destruct (n <? umax)%N; [apply IH; exact Ht|intros y st' E; discriminate]. }
  destruct (is_nest_end cc (it_ch it)).
  { destruct (0 <? n)%N.
    - eapply okp_mute; [auto with mute|reflexivity|]. intros _ st3 E3. rewrite <- E3. apply IH. exact Ht.
    - eapply okp_mute; [auto with mute|reflexivity|]. intros d st3 E3. eapply okp_mute; [auto with mute|exact E3|]. intros _ st4 E4.
      rewrite <- E4. apply gives_done. exact Ht. }
  eapply okp_mute; [auto with mute|reflexivity|]. intros _ st3 E3. rewrite <- E3. apply IH. exact Ht.
Qed.
Lemma gives_text fuel m st : okp (parse_text umax cc so co fuel m) st (fun u st' => good u /\ gv st' = gv st ++ parts u).
Proof.
  destruct H_empty as [G E]. eapply okp_mono; [apply gives_loop; exact G|]. intros u st' (Hu & l & El & Pl).
  rewrite E in Pl. cbn in Pl. subst l. auto.
Qed.
Lemma new_same d st : okp (new_datum ao d) st (fun d' st' => d' = d /\ gv st' = gv st).
Proof.
  intros y st' E. unfold new_datum in E. destruct (a_new_datum ao d (ps_alloc st)) as [[z|e| |] a] eqn:En; try discriminate.
  injection E as <- <-. split; [exact (H_new _ _ En)|reflexivity].
Qed.

Definition parts_in (d : datum TT ET) : list X := flat_map parts (texts_in d).
Definition parts_opt (o : option (datum TT ET)) : list X := match o with Some d => parts_in d | None => [] end.
Lemma gives_parser fuel :
  (forall m st, okp (parse_next umax cc so co ao bnd fuel m) st (fun o st' => gv st' = gv st ++ parts_opt o)) /\
  (forall st, okp (parse_nested umax cc so co ao bnd fuel) st (fun o st' => o <> None /\ gv st' = gv st ++ parts_opt o)) /\
  (forall m st, okp (parse_all umax cc so co ao bnd fuel m) st (fun d st' => gv st' = gv st ++ parts_in d)).
Proof.
  induction fuel as [|f (IHn & IHd & IHa)]; (split; [|split]); intros; cbn [parse_next parse_nested parse_all];
    try (intros y st' E; discriminate).
  - eapply okp_mute; [destruct (is_operator_mode m); auto with mute|reflexivity|]. intros _ st1 E1.
    eapply okp_mute; [auto with mute|exact E1|]. intros [it|] st2 E2.
    + destruct (is_nest_start cc (it_ch it)).
      { eapply okp_mute; [auto with mute|exact E2|]. intros _ st3 E3. apply okp_bind.
        apply okp_finally. eapply okp_mono; [apply IHd|]. intros o st4 [Ho G] st5 E5. destruct o as [d|]; [|contradiction].
        apply okp_ret. rewrite E5, G, E3. reflexivity. }
      destruct (is_nest_end cc (it_ch it)).
      { eapply okp_mute; [auto with mute|exact E2|]. intros d st3 E3. eapply okp_mute; [auto with mute|exact E3|]. intros _ st4 E4.
        apply okp_ret. cbn. rewrite app_nil_r. exact E4. }
      apply okp_bind. eapply okp_mono; [apply gives_text|]. intros t st3 [_ E3]. apply okp_ret. cbn. unfold parts_in. cbn. rewrite app_nil_r. congruence.
    + eapply okp_mute; [auto with mute|exact E2|]. intros d st3 E3. destruct (d =? 0)%N; [|apply okp_raise]. apply okp_ret. cbn. rewrite app_nil_r. exact E3.
  - eapply okp_mute; [auto with mute|reflexivity|]. intros start st1 E1. eapply okp_mute; [auto with mute|exact E1|]. intros _ st2 E2.
    apply okp_bind. eapply okp_mono; [apply IHn|]. intros o st3 E3. cbv beta in E3. rewrite E2 in E3.
    eapply okp_mute; [auto with mute|exact E3|]. intros p st4 E4. eapply okp_mute; [|exact E4|].
    { destruct p as [it|]; [|auto with mute]. destruct (is_whitespace cc (it_ch it)); [|auto with mute]. apply mute_bind; auto with mute. }
    intros _ st5 E5. destruct o as [d|]; cbn [parts_opt] in *.
    + apply okp_bind. eapply okp_mono; [apply IHa|]. intros ds st6 E6. cbv beta in E6. rewrite E5 in E6.
      eapply okp_mute; [auto with mute|exact E6|]. intros _ st7 E7. apply okp_bind. eapply okp_mono; [apply new_same|]. intros d1 st8 [-> E8].
      apply okp_bind. eapply okp_mono; [apply new_same|]. intros d2 st9 [-> E9]. apply okp_ret. split; [discriminate|]. cbn [parts_opt].
      unfold parts_in in *. cbn [texts_in]. rewrite flat_map_app, E9, E8, E7, app_assoc. reflexivity.
    + eapply okp_mute; [auto with mute|exact E5|]. intros _ st6 E6. apply okp_ret. split; [discriminate|]. cbn. exact E6.
  - apply okp_bind. eapply okp_mono; [apply IHn|]. intros [d|] st1 E1; cbv beta in E1; cbn [parts_opt] in E1.
    + apply okp_bind. eapply okp_mono; [apply new_same|]. intros d1 st2 [-> E2]. apply okp_bind. eapply okp_mono; [apply new_same|]. intros d2 st3 [-> E3].
      apply okp_bind. intros b st4 [= <- <-]. destruct (a_get_mut ao _ _); [|apply okp_raise].
      apply okp_bind. eapply okp_mono; [apply IHa|]. intros ds st5 E5. cbv beta in E5. apply okp_ret.
      unfold parts_in in *. cbn [texts_in]. rewrite flat_map_app, E5, E3, E2, E1, app_assoc. reflexivity.
    + apply okp_ret. exact E1.
Qed.

(** A whole iteration without errors. *)
Lemma gives_collect fuel n : forall st ds st', iter_collect umax cc so co ao bnd n fuel st = (Ok (map inl ds), st') ->
  gv st' = gv st ++ flat_map parts_in ds.
Proof.
  induction n as [|n IH]; intros st ds st' E; cbn [iter_collect] in E; [discriminate|].
  unfold iter_next, do_next in E. pose proof (proj1 (gives_parser fuel) Base st) as G.
  destruct (parse_next umax cc so co ao bnd fuel Base st) as [[[d|]|e| |] st1] eqn:Ep; try discriminate.
  - specialize (G _ _ Ep). cbv beta in G. cbn [parts_opt] in G.
    destruct (iter_collect umax cc so co ao bnd n fuel st1) as [[l|[]| |] st2] eqn:Ec; try discriminate.
    cbn in E. injection E as E <-. destruct ds as [|d' ds]; [discriminate|]. cbn in E. injection E as <- ->.
    rewrite (IH _ _ _ Ec), G. cbn [flat_map]. rewrite app_assoc. reflexivity.
  - specialize (G _ _ Ep). cbn in G, E. injection E as E <-. destruct ds; [|discriminate]. cbn. exact G.
  - destruct (iter_collect umax cc so co ao bnd n fuel st1) as [[l|[]| |] st2]; try discriminate.
    cbn in E. injection E as E _. destruct ds; discriminate.
Qed.
End Gives.

(** The strings of the chunks. *)
Section Vec.
Context {A K ET CE : Type} (umax : N) (cc : classifier) (conv : str -> K -> str * K).
Local Notation x := (tvec_ops (A:=A) posstrish_ops).
Local Notation so := (converting_stream x (noting conv)).
Definition full (s : str) : bool := negb (is_nil s).
Definition whole (c : posstrish) : Prop := exists s p, c = posstrish_new s p.
Context (g : posstrish -> str) (Hg : forall s p, g (posstrish_new s p) = s).
Definition vec_parts (t : tvec posstrish) : list str := filter full (map g (tvec_slice t)).
Definition vec_good (t : tvec posstrish) : Prop := Forall whole (tvec_slice t).

Lemma whole_is_empty c : whole c -> posstrish_is_empty c = Ok (is_nil (g c)).
Proof.
  intros (s & p & ->). rewrite Hg.
  assert (E : posstrish_is_empty (posstrish_new s p) = Ok (is_nil (enumerate p s))).
  { apply (kc_is_empty posstrish_any_contract). apply posstrish_new_rep. exact I. }
  rewrite E. destruct s; reflexivity.
Qed.
Lemma whole_all_empty l : Forall whole l -> exists b, all_empty posstrish_ops (seq_of l) = Ok b /\ (b = true -> filter full (map g l) = []).
Proof.
  induction 1 as [|c l Hc _ (b & Eb & Hb)]; cbn; [eauto|]. rewrite (whole_is_empty Hc). cbn [res_bind]. unfold full at 1.
  destruct (is_nil (g c)); cbn; [eauto|]. exists false. split; [reflexivity|discriminate].
Qed.

Lemma vec_concat (t1 t2 : tvec posstrish) (a : A) t a' : tx_concat x t1 t2 a = (Ok t, a') -> vec_good t1 -> vec_good t2 ->
  vec_good t /\ vec_parts t = vec_parts t1 ++ vec_parts t2.
Proof.
  intros E G1 G2. cbn in E. unfold tvec_concat, tvec_is_empty, tvec_chunks in E.
  destruct (whole_all_empty G1) as (b1 & E1 & H1). destruct (whole_all_empty G2) as (b2 & E2 & H2). rewrite E1 in E. cbn [no_err res_bind] in E.
  unfold vec_parts, vec_good in *. destruct b1.
  { injection E as <- _. rewrite H1 by reflexivity. auto. }
  rewrite E2 in E. cbn [no_err res_bind] in E. destruct b2.
  { injection E as <- _. rewrite H2, app_nil_r by reflexivity. auto. }
  assert (Es : tvec_slice t = tvec_slice t1 ++ tvec_slice t2) by (destruct t1, t2; injection E as <- _; reflexivity).
  rewrite Es, map_app, filter_app. split; [apply Forall_app; auto|reflexivity].
Qed.

Lemma converting_gives (HK : forall s k, fst (conv s k) = s) (ao : alloc_ops A (tvec posstrish) ET) fuel n input k a ds st :
  (forall d a d' a', a_new_datum ao d a = (Ok d', a') -> d' = d) ->
  iter_collect (CE:=CE) umax cc so (text_concat_ops x) ao (fun _ => None) n fuel (parse_iter_new (converting_new input (k, [])) a) = (Ok (map inl ds), st) ->
  filter full (snd (cv_kept (ps_strm st))) = flat_map (fun d => flat_map vec_parts (texts_in d)) ds.
Proof.
  intros HN E.
  refine (@gives_collect _ _ _ _ _ _ _ umax cc so (text_concat_ops x) ao (fun s => filter full (snd (cv_kept s))) vec_good vec_parts _ _ _ _ _ _ HN fuel n _ ds st E).
  - intros s r s'. cbn. unfold converting_peek. destruct (chariter_peek (cv_chars s)). intros [= _ <-]. reflexivity.
  - intros s r s'. cbn. unfold converting_next. destruct (chariter_next (cv_chars s)). intros [= _ <-]. reflexivity.
  - intros s b r s' b'. cbn. unfold converting_next_accum. destruct (chariter_next_accum (cv_chars s) b) as [? [? ?]]. intros [= _ <- _]. reflexivity.
  - intros s b t s' b'. cbn. unfold converting_accum_done. destruct (ch_accum (cv_chars s)) as [[v pos]|].
    + unfold noting. specialize (HK v (fst (cv_kept s))). destruct (conv v (fst (cv_kept s))) as [r k']. cbn in HK. subst r.
      intros [= <- <- _]. split; [constructor; [eexists _, _; reflexivity|constructor]|].
      cbn [cv_kept snd]. rewrite filter_app. unfold vec_parts. cbn. rewrite Hg. reflexivity.
    + intros [= <- <- _]. split; [constructor; [eexists _, _; reflexivity|constructor]|].
      unfold vec_parts. cbn. unfold posstrish_empty. rewrite Hg. cbn. rewrite app_nil_r. reflexivity.
  - split; [constructor|reflexivity].
  - exact vec_concat.
Qed.
End Vec.

Lemma parts_full l s : parts_of l s -> filter full l = l.
Proof.
  induction 1 as [|l s c _ IH|l s v Hv _ IH]; auto. rewrite filter_app, IH. cbn. unfold full at 1. destruct v; [congruence|reflexivity].
Qed.
Lemma whole_chars s p : rc_as_str (px_val (posstrish_new s p)) = Ok s.
Proof. cbn. unfold rc_as_str. cbn. rewrite <- (app_nil_r s) at 1. apply (str_slice_mid [] s []). Qed.
