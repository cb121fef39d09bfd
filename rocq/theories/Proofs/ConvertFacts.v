(** Facts about streams with converters. *)
From Coq Require Import List Arith NArith Lia.
From Verif.Model Require Import Prelude Parser Iter Utf8 Chunk PosStrish CharIter CharConvert.
From Verif.Spec Require Import Contract ChunkContract Calls Convert Run.
From Verif.Proofs Require Import Sim Refine ChunkFacts TextFacts TextSim Instances RunFacts.
Import ListNotations.
Set Implicit Arguments.

Section Eq.
Context {TT ET Pos CE A : Type}.
Lemma datum_eq_iff : forall d1 d2 : datum TT ET, datum_rel eq eq d1 d2 <-> d1 = d2.
Proof.
  induction d1; intros [ ]; cbn; try (split; [easy|discriminate]); try (split; [intros ->; reflexivity|intros [= ->]; reflexivity]); try (split; reflexivity);
    rewrite IHd1_1, IHd1_2; (split; [intros (-> & ->); reflexivity|intros [= -> ->]; auto]).
Qed.
Lemma err_refl (e : error Pos CE) : error_rel eq eq e e.
Proof. destruct e; cbn; auto. Qed.
Lemma err_eq (e1 e2 : error Pos CE) : error_rel eq eq e1 e2 -> e1 = e2.
Proof. destruct e1 as [| |[]| |], e2 as [| |[]| |]; cbn; try contradiction; try reflexivity; intros ->; reflexivity. Qed.
Lemma bindings_eq (bnd : bindings A TT ET Pos CE) : bindings_sim bnd bnd False eq eq eq eq eq.
Proof.
  intros d1 d2 H. apply datum_eq_iff in H. subst. destruct (bnd d2) as [[f|f]|]; cbn; auto; intros ? ? ? ? ? ? H1 H2 H3.
  - apply datum_eq_iff in H1. subst. unfold cres_rel. destruct (f _ _ _) as [[[d|]|e] a]; cbn; auto.
    + split; [apply datum_eq_iff|]; reflexivity.
    + left. split; [apply err_refl|reflexivity].
  - apply datum_eq_iff in H1, H2. subst. unfold cres_rel. destruct (f _ _ _) as [[[d|]|e] a]; cbn; auto.
    + split; [apply datum_eq_iff|]; reflexivity.
    + left. split; [apply err_refl|reflexivity].
Qed.
Lemma concat_eq (co : concat_ops A TT) : concat_sim co co False eq eq.
Proof.
  split; [reflexivity|]. intros t1 t1' t2 t2' a1 a2 -> -> ->. unfold ares_rel. destruct (t_concat co t2 t2' a2) as [[]]; cbn; auto.
Qed.
Lemma alloc_eq (ao : alloc_ops A TT ET) : alloc_sim ao ao False eq eq eq.
Proof.
  split; intros d1 d2 a1 a2 H ->; apply datum_eq_iff in H; subst; [|reflexivity].
  unfold ares_rel. destruct (a_new_datum ao d2 a2) as [[]]; cbn; auto. split; [apply datum_eq_iff|]; reflexivity.
Qed.
Lemma items_eq (l1 l2 : list (datum TT ET + error Pos CE)) : Forall2 (pitem_rel eq eq eq eq) l1 l2 -> l1 = l2.
Proof.
  induction 1 as [|[d1|e1] [d2|e2] l1 l2 H _ IH]; cbn in *; try contradiction; f_equal; auto; f_equal;
    [apply datum_eq_iff|apply err_eq]; exact H.
Qed.
End Eq.

Section Same.
Context {TT A K : Type} (x : text_ops TT posstrish A) (conv : str -> K -> str * K).

(** With a converter that keeps the contents the texts are those without. *)
Lemma converting_same : (forall s k, fst (conv s k) = s) ->
  stream_sim (converting_stream x conv) (chariter_stream x) False (fun s1 s2 => cv_chars s1 = s2) eq eq eq.
Proof.
  intros HK. split; cbn.
  - intros s _ <-. unfold converting_peek, chariter_peek. destruct (pk_peek (ch_iter (cv_chars s))). split; [apply item_refl|reflexivity].
  - intros s _ <-. unfold converting_next, chariter_next. destruct (pk_next (ch_iter (cv_chars s))). split; [apply item_refl|reflexivity].
  - intros s _ a _ <- <-. unfold converting_next_accum, chariter_next_accum.
    destruct (pk_next (ch_iter (cv_chars s))) as [[it|] p]; (split; [apply item_refl|split; reflexivity]).
  - intros s _ a _ <- <-. unfold converting_accum_done, chariter_accum_done.
    destruct (ch_accum (cv_chars s)) as [[t pos]|].
    + specialize (HK t (cv_kept s)). destruct (conv t (cv_kept s)) as [r k]. cbn in HK. subst r. repeat split.
    + repeat split.
Qed.
End Same.

(** Strings and positions. *)
Lemma from_pos_eq : forall s p, from_pos p s = enumerate p s.
Proof.
  unfold from_pos. induction s as [|c s IH]; intros p; [reflexivity|].
  cbn [length seq map enumerate nth]. rewrite N.add_0_r. f_equal.
  rewrite <- (IH (p + 1)%N), <- seq_shift, map_map. apply map_ext. intros j. cbn [nth]. f_equal. lia.
Qed.

Section Any.
Context {TT A K W : Type} (view : A -> W) (x : text_ops TT posstrish A) (conv : str -> K -> str * K).
Context (XC : text_contract False view x posstrish_any).
Local Notation Rt := (converted conv x posstrish_any).
Local Notation Ra := (fun a1 a2 : A => view a1 = view a2).

Lemma converted_one p r s k : fst (conv s k) = r -> Rt (tx_from x (posstrish_new r p)) (tx_from x (posstrish_new s p)).
Proof.
  intros E. exists [(p, r, s)]. cbn [flat_map]. rewrite !app_nil_r, !from_pos_eq. split; [|split].
  - constructor; [|constructor]. eauto.
  - apply (xc_from XC). apply posstrish_new_rep. exact I.
  - apply (xc_from XC). apply posstrish_new_rep. exact I.
Qed.
Lemma converted_empty : Rt (tx_from x posstrish_empty) (tx_from x posstrish_empty).
Proof.
  exists []. cbn. split; [constructor|]. split; apply (xc_from XC); exists [], [], []; cbn; auto 10.
Qed.

Lemma converting_sim : stream_sim (converting_stream x conv) (chariter_stream x) False (fun s1 s2 => cv_chars s1 = s2) Ra Rt eq.
Proof.
  split; cbn.
  - intros s _ <-. unfold converting_peek, chariter_peek. destruct (pk_peek (ch_iter (cv_chars s))). split; [apply item_refl|reflexivity].
  - intros s _ <-. unfold converting_next, chariter_next. destruct (pk_next (ch_iter (cv_chars s))). split; [apply item_refl|reflexivity].
  - intros s _ a1 a2 <- HA. unfold converting_next_accum, chariter_next_accum.
    destruct (pk_next (ch_iter (cv_chars s))) as [[it|] p]; (split; [apply item_refl|split; [reflexivity|exact HA]]).
  - intros s _ a1 a2 <- HA. unfold converting_accum_done, chariter_accum_done.
    destruct (ch_accum (cv_chars s)) as [[t pos]|].
    + destruct (conv t (cv_kept s)) as [r k] eqn:E. split; [|split; [reflexivity|exact HA]].
      cbn. apply (converted_one pos t (cv_kept s)). rewrite E. reflexivity.
    + split; [apply converted_empty|split; [reflexivity|exact HA]].
Qed.

Lemma converting_concat : concat_sim (text_concat_ops x) (text_concat_ops x) False Ra Rt.
Proof.
  pose proof (xc_concat XC) as C. split.
  - exists []. split; [constructor|]. split; apply (tc_empty C).
  - intros t1 t1' t2 t2' a1 a2 (l & HL & H1 & H2) (l' & HL' & H1' & H2') HA.
    destruct (tc_concat C _ _ _ _ a1 H1 H1') as [(t & b & -> & V & Ht)|[[] _]].
    destruct (tc_concat C _ _ _ _ a2 H2 H2') as [(t0 & b0 & -> & V0 & Ht0)|[[] _]].
    split; [|cbn; congruence]. exists (l ++ l'). rewrite !flat_map_app. split; [apply Forall_app; auto|]. auto.
Qed.

Lemma converting_alloc {ET} (ao : alloc_ops A TT ET) : alloc_contract False view ao -> (forall d a, a_get_mut ao d a = true) ->
  alloc_sim ao ao False Ra Rt eq.
Proof.
  intros C G. split.
  - intros d1 d2 a1 a2 H HA. destruct (C d1 a1) as [(b & -> & V)|[[] _]]. destruct (C d2 a2) as [(b2 & -> & V2)|[[] _]].
    split; [exact H|cbn; congruence].
  - intros. rewrite !G. reflexivity.
Qed.
End Any.

(** What the converter is given. *)
Section Given.
Context {TT A K : Type} (x : text_ops TT posstrish A) (conv : str -> K -> str * K) (input : str).
Local Notation so := (converting_stream x (noting conv)).

(** The notes, what is read of the source before what is accumulated, and that. *)
Definition noted (s : converting (K * list str)) (rest pend : list (item charpos)) (l : list str) : Prop :=
  chariter_rep input (cv_chars s) rest pend /\ snd (cv_kept s) = l.
Definition noted_parts (s : converting (K * list str)) : Prop :=
  exists pre pv rv, input = pre ++ pv ++ rv /\
    pk_items (ch_iter (cv_chars s)) (enumerate (N.of_nat (length (pre ++ pv))) rv) /\
    ch_accum (cv_chars s) = match pv with [] => None | _ => Some (pv, N.of_nat (length pre)) end /\
    parts_of (snd (cv_kept s)) pre.
Lemma parts_app l s v : parts_of l s -> parts_of l (s ++ v).
Proof.
  intros H. induction v as [|c v IH] using rev_ind; [rewrite app_nil_r; exact H|]. rewrite app_assoc. constructor. exact IH.
Qed.
Lemma noted_new k : noted_parts (converting_new input (k, [])).
Proof. exists [], [], input. repeat split. constructor. Qed.

Lemma noted_sim : stream_sim so so False (fun s1 s2 => s1 = s2 /\ noted_parts s1) eq eq eq.
Proof.
  split; cbn.
  - intros s _ [<- (pre & pv & rv & E & Hi & Ha & Hp)]. unfold converting_peek, chariter_peek.
    destruct (pk_peek_items _ _ Hi) as (p' & -> & Hi'). split; [apply item_refl|]. split; [reflexivity|].
    exists pre, pv, rv. auto.
  - intros s _ [<- (pre & pv & rv & E & Hi & Ha & Hp)]. unfold converting_next, chariter_next.
    rewrite (pk_next_items _ _ Hi). split; [apply item_refl|]. split; [reflexivity|].
    destruct rv as [|c rv].
    + exists (pre ++ pv), [], []. rewrite !app_nil_r in *. repeat split; auto. apply parts_app. exact Hp.
    + exists ((pre ++ pv) ++ [c]), [], rv. rewrite app_nil_r. repeat split.
      * rewrite E, <- !app_assoc. reflexivity.
      * cbn. rewrite (app_length (pre ++ pv)). cbn [length]. f_equal. lia.
      * cbn. constructor. apply parts_app. exact Hp.
  - intros s _ a _ [<- (pre & pv & rv & E & Hi & Ha & Hp)] <-. unfold converting_next_accum, chariter_next_accum.
    rewrite (pk_next_items _ _ Hi). destruct rv as [|c rv]; cbn [enumerate hd_error tl].
    + split; [exact I|]. split; [|reflexivity]. split; [reflexivity|]. exists pre, pv, []. repeat split; auto.
    + split; [split; reflexivity|]. split; [|reflexivity]. split; [reflexivity|]. exists pre, (pv ++ [c]), rv. cbn [cv_chars cv_kept ch_iter ch_accum it_ch it_pos]. repeat split.
      * rewrite E, <- !app_assoc. reflexivity.
      * cbn. rewrite !app_length. cbn [length]. f_equal. lia.
      * rewrite Ha. destruct pv as [|c0 pv]; cbn [app]; [rewrite app_nil_r|]; reflexivity.
      * exact Hp.
  - intros s _ a _ [<- (pre & pv & rv & E & Hi & Ha & Hp)] <-. unfold converting_accum_done. rewrite Ha. destruct pv as [|c pv].
    + split; [reflexivity|]. split; [|reflexivity]. split; [reflexivity|]. exists pre, [], rv. repeat split; auto.
    + unfold noting. destruct (conv (c :: pv) (fst (cv_kept s))) as [r k]. split; [reflexivity|]. split; [|reflexivity]. split; [reflexivity|].
      exists (pre ++ c :: pv), [], rv. cbn [cv_chars cv_kept ch_iter ch_accum fst snd]. repeat split.
      * rewrite E, <- app_assoc. reflexivity.
      * rewrite app_nil_r. exact Hi.
      * apply po_part; [discriminate|exact Hp].
Qed.

(** Any calls. *)
Context {W : Type} (view : A -> W) (XC : text_contract False view x posstrish_any).
Lemma noted_calls : forall calls s a rest pend l, noted s rest pend l ->
  exists answers s' a', do_calls so calls s a = (Ok answers, (s', a')) /\
    snd (cv_kept s') = l ++ strings_of (documented calls rest pend).
Proof.
  pose proof (chariter_contract XC (src:=input) (fun _ _ _ _ => I)) as C.
  induction calls as [|c calls IH]; intros [ch kp] a rest pend l [Hc Hl]; cbn [cv_chars cv_kept] in *.
  { exists [], (Converting ch kp), a. split; [reflexivity|]. cbn. rewrite app_nil_r. exact Hl. }
  destruct c; cbn [do_calls do_call documented converting_stream s_peek s_next s_next_accum s_accum_done].
  - unfold converting_peek. cbn [cv_chars cv_kept]. destruct (sc_peek C _ _ _ Hc) as (ch' & E & Hc'). cbn [chariter_stream s_peek] in E. rewrite E. cbn [res_map].
    destruct (IH (Converting ch' kp) a _ _ _ (conj Hc' Hl)) as (xs & s' & a' & Ed & Hs). rewrite Ed.
    do 3 eexists. split; [reflexivity|exact Hs].
  - unfold converting_next. cbn [cv_chars cv_kept]. destruct (sc_next C _ _ _ Hc) as (ch' & E & Hc'). cbn [chariter_stream s_next] in E. rewrite E. cbn [res_map].
    destruct (IH (Converting ch' kp) a _ _ _ (conj Hc' Hl)) as (xs & s' & a' & Ed & Hs). rewrite Ed.
    do 3 eexists. split; [reflexivity|exact Hs].
  - unfold converting_next_accum. cbn [cv_chars cv_kept]. destruct (sc_next_accum C _ a _ _ Hc) as [(ch' & a1 & E & _ & Hc')|[[] _]].
    cbn [chariter_stream s_next_accum] in E. rewrite E.
    destruct (IH (Converting ch' kp) a1 _ _ _ (conj Hc' Hl)) as (xs & s' & a' & Ed & Hs). rewrite Ed.
    do 3 eexists. split; [reflexivity|exact Hs].
  - unfold converting_accum_done. cbn [cv_chars cv_kept].
    destruct (sc_accum_done C _ a _ _ Hc) as [(ch' & a1 & t & E & _ & _ & Hc')|[[] _]].
    cbn [chariter_stream s_accum_done] in E. unfold chariter_accum_done in E. injection E as _ <- _.
    destruct Hc as (pre & pv & rv & Ei & Hr & Hd & Hi & Ha). rewrite Ha. destruct pv as [|c pv].
    + cbn in Hd. subst pend. destruct (IH (Converting (CharIter (ch_iter ch) None) kp) a _ _ _ (conj Hc' Hl)) as (xs & s' & a' & Ed & Hs). rewrite Ed.
      do 3 eexists. split; [reflexivity|exact Hs].
    + destruct (noting conv (c :: pv) kp) as [r kp'] eqn:En.
      assert (exists k, kp' = (k, snd kp ++ [c :: pv])) as [k ->].
      { unfold noting in En. destruct (conv (c :: pv) (fst kp)) as [r0 k]. injection En as _ <-. eauto. }
      destruct (IH (Converting (CharIter (ch_iter ch) None) (k, snd kp ++ [c :: pv])) a rest [] (l ++ [c :: pv])) as (xs & s' & a' & Ed & Hs).
      { split; [exact Hc'|]. cbn. rewrite Hl. reflexivity. }
      rewrite Ed. do 3 eexists. split; [reflexivity|]. rewrite Hs, <- app_assoc. subst pend. cbn [enumerate strings_of flat_map app map it_ch].
      rewrite enumerate_ch. reflexivity.
Qed.
End Given.
