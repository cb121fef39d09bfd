(** What strings a [StrishIterSourceStream] refers to. *)
From Coq Require Import List Arith NArith ZArith Bool Lia.
From Verif.Model Require Import Prelude Parser Utf8 Chunk TextIter PosStrish CharIter StrishIter.
From Verif.Spec Require Import Contract ChunkContract Run TextWork Slices Pieces Held.
From Verif.Proofs Require Import StrFacts ChunkFacts TextFacts ManyPieces ManyStreams ManyRuns.
Import ListNotations.
Set Implicit Arguments.

Lemma nonempties_app a b : nonempties (a ++ b) = nonempties a ++ nonempties b.
Proof. apply filter_app. Qed.
Lemma nonempties_cons : forall mid s l, nonempties mid = s :: l -> exists m1 m2, mid = m1 ++ m2 /\ nonempties m2 = l.
Proof.
  induction mid as [|t mid IH]; intros s l E; [discriminate|]. cbn in E. destruct t as [|c t].
  - destruct (IH _ _ E) as (m1 & m2 & -> & E2). exists ([] :: m1), m2. auto.
  - injection E as _ E. exists [c :: t], mid. auto.
Qed.
Lemma nonempties_concat mid : List.concat mid = List.concat (nonempties mid).
Proof. induction mid as [|s mid IH]; [reflexivity|]. cbn. destruct s; cbn; rewrite IH; reflexivity. Qed.

Lemma no_peeked_chunk s : xi_chunk (snd (do_next_no_peeked s)) = xi_chunk s.
Proof. unfold do_next_no_peeked. destruct (res_bind _ _) as [[|]| | |]; reflexivity. Qed.
Lemma do_next_chunk s : xi_chunk (snd (do_next_strish s)) = xi_chunk s.
Proof. unfold do_next_strish. destruct (xi_peeked s); [reflexivity|]. apply no_peeked_chunk. Qed.
Lemma next_chunk s : xi_chunk (snd (posstrish_next s)) = xi_chunk s.
Proof. unfold posstrish_next. rewrite do_next_chunk. reflexivity. Qed.
Lemma peek_chunk s : xi_chunk (snd (posstrish_peek s)) = xi_chunk s.
Proof.
  unfold posstrish_peek. destruct (xi_peeked s); [reflexivity|]. pose proof (no_peeked_chunk s) as H.
  destruct (do_next_no_peeked s) as [[]]; exact H.
Qed.
Lemma next_accum_chunk s : xi_chunk (snd (posstrish_next_accum s)) = xi_chunk s.
Proof.
  unfold posstrish_next_accum. pose proof (do_next_chunk s) as H. destruct (do_next_strish s) as [[[i|]| | |] s']; try exact H.
  destruct (xi_accum s') as [[[b e] p]|]; [exact H|]. destruct (_ && _); exact H.
Qed.
Lemma accum_done_chunk s : xi_chunk (snd (posstrish_accum_done s)) = xi_chunk s.
Proof. reflexivity. Qed.

Section Held.
Context {TT A : Type} (x : text_ops TT posstrish A) (strs : list str).
Definition holds (cur peeked : option posstrish_iter) (it : list str) : Prop :=
  exists before mid, strs = before ++ mid ++ it /\ nonempties mid = strs_of cur ++ strs_of peeked /\ (cur = None -> peeked = None /\ it = []).
Definition held (s : strishiter TT) : Prop := holds (si_cur s) (si_peeked s) (si_iter s).

Lemma next_of_held : forall it n o it', next_posstrish_of it n = (Ok o, it') -> exists skip, it = skip ++ it' /\ nonempties skip = strs_of o /\ (o = None -> it' = []).
Proof.
  induction it as [|s it IH]; intros n o it' E; cbn in E; [injection E as <- <-; exists []; auto|].
  unfold rc_as_str in E. cbn in E. pose proof (str_slice_mid [] s []) as Y. rewrite app_nil_r in Y. cbn [app byte_len] in Y. rewrite N.add_0_l in Y. rewrite Y in E.
  destruct s as [|c s].
  - cbn in E. destruct (IH _ _ _ E) as (skip & -> & H). exists ([] :: skip). auto.
  - destruct (N.ltb_spec 0 (byte_len (c :: s))).
    2:{ pose proof (len_utf8_pos c). cbn [byte_len] in *. lia. }
    injection E as <- <-. exists [c :: s]. repeat split; discriminate.
Qed.
Lemma same_chunk cs cs' peeked it : xi_chunk cs' = xi_chunk cs -> holds (Some cs) peeked it -> holds (Some cs') peeked it.
Proof. intros E (b & m & H1 & H2 & H3). exists b, m. cbn in *. rewrite E. split; [auto|]. split; [auto|discriminate]. Qed.
Lemma next_held cs n it peeked cur it' pk : holds (Some cs) peeked it -> next_posstrish cs n it peeked = Ok (cur, it', pk) ->
  holds cur pk it'.
Proof.
  intros (b & m & H1 & H2 & _) E. unfold next_posstrish in E. destruct (fst (posstrish_peek cs)) as [[|]| | |]; try discriminate.
  cbn [strs_of app] in H2. destruct (nonempties_cons _ H2) as (m1 & m2 & -> & Em). destruct peeked as [p|].
  - injection E as <- <- <-. exists (b ++ m1), m2. rewrite <- !app_assoc in *. split; [exact H1|]. split; [|discriminate]. exact Em.
  - destruct (next_posstrish_of it n) as [[o| | |] it2] eqn:En; try discriminate. injection E as <- <- <-.
    destruct (next_of_held _ _ En) as (skip & -> & Hs & Hn). exists (b ++ m1 ++ m2), skip. rewrite <- !app_assoc in *.
    split; [exact H1|]. split; [rewrite app_nil_r; exact Hs|auto].
Qed.
Lemma next_loop_held : forall f s, held s -> held (snd (strishiter_next_loop f s)).
Proof.
  induction f as [|f IH]; intros s H; [exact H|]. cbn [strishiter_next_loop]. unfold held in *.
  destruct (si_cur s) as [cs|] eqn:Hc; [|cbn; rewrite Hc; exact H].
  pose proof (next_chunk cs) as K. destruct (posstrish_next cs) as [[[i|]| | |] cs'] eqn:En; cbn in K.
  - cbn. exact (same_chunk _ K H).
  - destruct (next_posstrish cs' _ _ _) as [[[cur it'] pk]| | |] eqn:E2; try (cbn; rewrite Hc; exact H).
    apply IH. cbn. eapply next_held; [eapply same_chunk; [exact K|exact H]|exact E2].
  - cbn. rewrite Hc. exact H.
  - cbn. rewrite Hc. exact H.
  - cbn. rewrite Hc. exact H.
Qed.
Lemma accum_chunk_chunk accum cs a : xi_chunk (fst (snd (accum_chunk posstrish_ops x accum cs a))) = xi_chunk cs.
Proof.
  unfold accum_chunk. cbn [posstrish_ops cs_accum_done]. pose proof (accum_done_chunk cs) as H. destruct (posstrish_accum_done cs) as [[c|[]| |] cs']; try exact H.
  match goal with |- context [tx_concat x ?p ?q a] => destruct (tx_concat x p q a) end. exact H.
Qed.
Lemma next_accum_loop_held : forall f s a, held s -> held (fst (snd (strishiter_next_accum_loop x f s a))).
Proof.
  induction f as [|f IH]; intros s a H; [exact H|]. cbn [strishiter_next_accum_loop]. unfold held in *.
  destruct (si_cur s) as [cs|] eqn:Hc; [|cbn; rewrite Hc; exact H].
  pose proof (next_accum_chunk cs) as K. destruct (posstrish_next_accum cs) as [[[i|]| | |] cs'] eqn:En; cbn in K.
  - cbn. exact (same_chunk _ K H).
  - pose proof (accum_chunk_chunk (si_accum s) cs' a) as K2.
    destruct (accum_chunk posstrish_ops x (si_accum s) cs' a) as [[t|e| |] [cs'' a']] eqn:E1; cbn in K2; rewrite K in K2.
    + destruct (next_posstrish cs'' _ _ _) as [[[cur it'] pk]| | |] eqn:E2; try (cbn; rewrite Hc; exact H).
      apply IH. cbn. eapply next_held; [eapply same_chunk; [exact K2|exact H]|exact E2].
    + cbn. exact (same_chunk _ K2 H).
    + cbn. rewrite Hc. exact H.
    + cbn. rewrite Hc. exact H.
  - cbn. rewrite Hc. exact H.
  - cbn. rewrite Hc. exact H.
  - cbn. rewrite Hc. exact H.
Qed.
Lemma peek_held s : held s -> held (snd (strishiter_peek s)).
Proof.
  intros H. unfold strishiter_peek, held in *. destruct (si_cur s) as [cs|] eqn:Hc; [|cbn; rewrite Hc; exact H].
  pose proof (peek_chunk cs) as K. destruct (posstrish_peek cs) as [r cs'] eqn:E; cbn in K.
  pose proof (same_chunk _ K H) as H'.
  destruct r as [[i|]| | |]; try exact H'.
  destruct (si_peeked s) as [p|] eqn:Hp.
  - pose proof (peek_chunk p) as Kp. destruct (posstrish_peek p) as [r' p']; cbn in Kp. cbn.
    destruct H' as (b & m & H1 & H2 & H3). exists b, m. cbn in *. rewrite Kp. split; [auto|]. split; [auto|discriminate].
  - destruct H' as (b & m & H1 & H2 & H3). destruct (next_posstrish_of (si_iter s) (si_char s)) as [[[p|]| | |] it'] eqn:En.
    + destruct (next_of_held _ _ En) as (skip & Es & Hs & _).
      pose proof (peek_chunk p) as Kp. destruct (posstrish_peek p) as [r' p']; cbn in Kp. cbn.
      exists b, (m ++ skip). rewrite nonempties_app, Hs, H2. cbn. rewrite Kp. rewrite <- app_assoc, <- Es. split; [auto|]. split; [auto|discriminate].
    + destruct (next_of_held _ _ En) as (skip & Es & Hs & _). cbn.
      exists b, (m ++ skip). rewrite nonempties_app, Hs, H2. cbn. rewrite <- app_assoc, <- Es. split; [auto|]. split; [auto|discriminate].
    + exfalso. destruct e.
    + exfalso. revert En. generalize (si_iter s) (si_char s). clear. induction l as [|s l IH]; intros n E; cbn in E; [discriminate|].
      unfold rc_as_str in E. cbn in E. pose proof (str_slice_mid [] s []) as Y. rewrite app_nil_r in Y. cbn [app byte_len] in Y. rewrite N.add_0_l in Y. rewrite Y in E.
      destruct (0 <? byte_len s)%N; [discriminate|]. eauto.
    + exfalso. revert En. generalize (si_iter s) (si_char s). clear. induction l as [|s l IH]; intros n E; cbn in E; [discriminate|].
      unfold rc_as_str in E. cbn in E. pose proof (str_slice_mid [] s []) as Y. rewrite app_nil_r in Y. cbn [app byte_len] in Y. rewrite N.add_0_l in Y. rewrite Y in E.
      destruct (0 <? byte_len s)%N; [discriminate|]. eauto.
Qed.
Lemma accum_done_held s a : held s -> held (fst (snd (strishiter_accum_done x s a))).
Proof.
  intros H. unfold strishiter_accum_done, held in *. destruct (si_cur s) as [cs|] eqn:Hc; [|cbn; exact H].
  pose proof (accum_chunk_chunk (si_accum s) cs a) as K.
  destruct (accum_chunk posstrish_ops x (si_accum s) cs a) as [r [cs' a']]; cbn in K. cbn. exact (same_chunk _ K H).
Qed.
Lemma new_held s : strishiter_new strs = Ok s -> held s.
Proof.
  unfold strishiter_new. destruct (next_posstrish_of strs 0) as [[o| | |] it'] eqn:E; try discriminate. intros [= <-].
  destruct (next_of_held _ _ E) as (skip & Es & H & Hn). exists [], skip. cbn. rewrite app_nil_r. auto.
Qed.

Lemma held_contract (F : Prop) W (view : A -> W) Rs Rt : stream_contract F view (strishiter_stream x) Rs Rt ->
  stream_contract F view (strishiter_stream x) (fun s r p => Rs s r p /\ held s) Rt.
Proof.
  intros SC. split.
  - intros s rest pend [H Hd]. destruct (sc_peek SC _ _ _ H) as (s' & E & H'). exists s'. split; [exact E|]. split; [exact H'|].
    pose proof (peek_held Hd) as K. cbn [strishiter_stream s_peek s_next s_next_accum s_accum_done] in E. rewrite E in K. exact K.
  - intros s rest pend [H Hd]. destruct (sc_next SC _ _ _ H) as (s' & E & H'). exists s'. split; [exact E|]. split; [exact H'|].
    cbn [strishiter_stream s_peek s_next s_next_accum s_accum_done] in E. unfold strishiter_next in E. pose proof (@next_loop_held (strishiter_fuel s) (StrishIter (si_cur s) (si_char s) (si_iter s) (si_peeked s) None) Hd) as K.
    rewrite E in K. exact K.
  - intros s a rest pend [H Hd]. pose proof (@next_accum_loop_held (strishiter_fuel s) s a Hd) as K.
    destruct (sc_next_accum SC _ a _ _ H) as [(s' & a' & E & V & H')|(HF & s' & a' & E & V & N1 & H')];
      cbn [strishiter_stream s_peek s_next s_next_accum s_accum_done] in E; unfold strishiter_next_accum in E; rewrite E in K; cbn in K.
    + left. exists s', a'. auto.
    + right. split; [exact HF|]. exists s', a'. auto.
  - intros s a rest pend [H Hd]. pose proof (@accum_done_held s a Hd) as K.
    destruct (sc_accum_done SC _ a _ _ H) as [(s' & a' & t & E & V & R & H')|(HF & s' & a' & E & V & N1 & H')];
      cbn [strishiter_stream s_peek s_next s_next_accum s_accum_done] in E; rewrite E in K; cbn in K.
    + left. exists s', a', t. auto.
    + right. split; [exact HF|]. exists s', a'. auto.
Qed.
End Held.

Lemma state_size ok cs r p : posstrish_state ok cs r p -> length r <= length (rs_str (px_val (xi_chunk cs))).
Proof.
  intros (pre & d0 & pv & rv & post & Ev & _ & -> & _). rewrite Ev. cbn. rewrite enumerate_length, !app_length. lia.
Qed.
Lemma nonempties_twice l : nonempties (nonempties l) = nonempties l.
Proof.
  induction l as [|[|c s] l IH]; [reflexivity|exact IH|]. change (nonempties ((c :: s) :: l)) with ((c :: s) :: nonempties l).
  change (nonempties ((c :: s) :: nonempties l)) with ((c :: s) :: nonempties (nonempties l)). rewrite IH. reflexivity.
Qed.
Lemma nonempties_chunks ok : forall cs ls, Forall2 (tight_rep ok) cs ls -> List.concat ls = [] ->
  nonempties (map (fun c => rs_str (px_val c)) cs) = [].
Proof.
  induction 1 as [|c l cs ls [_ Hc] _ IH]; intros E; [reflexivity|]. cbn in E. apply app_eq_nil in E. destruct E as [-> E].
  cbn. rewrite (Hc eq_refl). cbn. exact (IH E).
Qed.
Lemma chunk_list_seq {C} (cs : list C) : chunk_list (seq_of cs) = cs.
Proof. induction cs as [|c cs IH]; cbn; [|rewrite IH]; reflexivity. Qed.

Lemma held_end {TT A} ok (x : text_ops TT posstrish A) strs s rest : strish_many ok x strs (tight_rep ok) s rest [] -> held strs s ->
  exists before mid, strs = before ++ mid ++ si_iter s /\ nonempties (stream_strs x s) = nonempties mid /\ length (nonempties mid) <= 2 /\
    length (List.concat (si_iter s)) <= length rest <= length (List.concat (mid ++ si_iter s)).
Proof.
  intros (pa & Ha & H) (before & mid & E1 & E2 & E3). exists before, mid. split; [exact E1|].
  assert (Z : pa = []) by (destruct (si_cur s); [destruct H as (? & ? & ? & ? & ? & ? & _ & H & _)|destruct H as [_ H]]; destruct pa; [reflexivity|discriminate|reflexivity|discriminate]).
  subst pa.
  assert (Z : nonempties (match si_accum s with Some t => map (fun c => rs_str (px_val c)) (chunk_list (tx_chunks x t)) | None => [] end) = []).
  { destruct (si_accum s) as [t|]; [|reflexivity]. destruct Ha as (cs & ls & K1 & K2 & _ & K3). rewrite K1, chunk_list_seq.
    eapply nonempties_chunks; [exact K2|auto]. }
  split; [|split].
  - unfold stream_strs. rewrite app_assoc, nonempties_app, Z, app_nil_r, <- E2. apply nonempties_twice.
  - rewrite E2. destruct (si_cur s), (si_peeked s); cbn; lia.
  - rewrite concat_app, app_length, (nonempties_concat mid), E2.
    destruct (si_cur s) as [cs|].
    + destruct H as (bf & d & r1 & p1 & md & r2 & H1 & _ & _ & _ & H4 & _ & _ & ->). rewrite !app_length, enumerate_length.
      pose proof (state_size H1). destruct (si_peeked s) as [p|]; cbn [strs_of app List.concat] in *; rewrite ?app_length; cbn [length].
      * destruct H4 as (_ & H4 & _). pose proof (state_size H4). lia.
      * destruct H4 as [-> _]. cbn. lia.
    + destruct H as [-> _]. destruct (E3 eq_refl) as [_ ->]. cbn. lia.
Qed.
