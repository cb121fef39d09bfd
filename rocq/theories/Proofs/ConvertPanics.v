(** Streams with a converter that panics. *)
From Coq Require Import List NArith Bool Lia.
From Verif.Model Require Import Prelude Parser Iter Utf8 Chunk PosStrish CharIter CharConvert.
From Verif.Spec Require Import Contract ChunkContract Convert Reported.
From Verif.Proofs Require Import ChunkFacts TextFacts Instances ConvertFacts.
Import ListNotations.
Set Implicit Arguments.

Section Panics.
Context {TT A K : Type} (x : text_ops TT posstrish A) (conv : str -> K -> option str * K) (input : str).
Local Notation so := (panicking_stream x (noting_panics conv)).
Local Notation inv := (@noted_parts K input).

(** How the stream is left by a converter that panics. *)
Definition left_by (s : converting (K * list str)) : Prop :=
  exists pre v rest l k, input = pre ++ v ++ rest /\ v <> [] /\ snd (cv_kept s) = l ++ [v] /\ parts_of l pre /\
    conv v k = (None, fst (cv_kept s)) /\ ch_accum (cv_chars s) = None /\
    unread (cv_chars s) = enumerate (N.of_nat (length (pre ++ v))) rest.

Lemma pk_unread c l : pk_items (ch_iter c) l -> unread c = l.
Proof.
  unfold pk_items, unread. destruct (pk_peeked (ch_iter c)) as [[i|]|]; auto.
  - intros [E1 E2]. destruct l; cbn in *; [discriminate|]. injection E1 as ->. f_equal. exact E2.
  - intros [E1 _]. destruct l; [reflexivity|discriminate].
Qed.

Lemma keeps_peek s : inv s -> inv (snd (s_peek so s)).
Proof.
  intros (pre & pv & rv & E & Hi & Ha & Hp). cbn. unfold converting_peek, chariter_peek.
  destruct (pk_peek_items _ _ Hi) as (p' & -> & Hi'). exists pre, pv, rv. auto.
Qed.
Lemma keeps_next s : inv s -> inv (snd (s_next so s)).
Proof.
  intros (pre & pv & rv & E & Hi & Ha & Hp). cbn. unfold converting_next, chariter_next.
  rewrite (pk_next_items _ _ Hi). destruct rv as [|c rv].
  - exists (pre ++ pv), [], []. rewrite !app_nil_r in *. repeat split; auto. apply parts_app. exact Hp.
  - exists ((pre ++ pv) ++ [c]), [], rv. rewrite app_nil_r. repeat split.
    + rewrite E, <- !app_assoc. reflexivity.
    + cbn. rewrite (app_length (pre ++ pv)). cbn [length]. f_equal. lia.
    + cbn. constructor. apply parts_app. exact Hp.
Qed.
Lemma keeps_next_accum s a : inv s -> inv (fst (snd (s_next_accum so s a))) /\
  (fst (s_next_accum so s a) = Panic -> left_by (fst (snd (s_next_accum so s a)))).
Proof.
  intros (pre & pv & rv & E & Hi & Ha & Hp). cbn. unfold converting_next_accum, chariter_next_accum.
  rewrite (pk_next_items _ _ Hi). destruct rv as [|c rv]; cbn [enumerate hd_error tl]; (split; [|discriminate]).
  - exists pre, pv, []. repeat split; auto.
  - exists pre, (pv ++ [c]), rv. cbn [fst snd cv_chars cv_kept ch_iter ch_accum it_ch it_pos]. repeat split.
    + rewrite E, <- !app_assoc. reflexivity.
    + cbn. rewrite !app_length. cbn [length]. f_equal. lia.
    + rewrite Ha. destruct pv as [|c0 pv]; cbn [app]; [rewrite app_nil_r|]; reflexivity.
    + exact Hp.
Qed.
Lemma keeps_accum_done s a : inv s -> inv (fst (snd (s_accum_done so s a))) /\
  (fst (s_accum_done so s a) = Panic -> left_by (fst (snd (s_accum_done so s a)))).
Proof.
  intros (pre & pv & rv & E & Hi & Ha & Hp). cbn. unfold panicking_accum_done. rewrite Ha. destruct pv as [|c pv].
  { split; [|discriminate]. exists pre, [], rv. repeat split; auto. }
  unfold noting_panics. destruct (conv (c :: pv) (fst (cv_kept s))) as [r k] eqn:EC.
  assert (G : inv (Converting (CharIter (ch_iter (cv_chars s)) None) (k, snd (cv_kept s) ++ [c :: pv]))).
  { exists (pre ++ c :: pv), [], rv. cbn [cv_chars cv_kept ch_iter ch_accum fst snd]. repeat split.
    - rewrite E, <- app_assoc. reflexivity.
    - rewrite app_nil_r. exact Hi.
    - apply po_part; [discriminate|exact Hp]. }
  destruct r as [r|]; (split; [exact G|]); [discriminate|]. intros _.
  exists pre, (c :: pv), rv, (snd (cv_kept s)), (fst (cv_kept s)). repeat split; auto; [discriminate|]. apply (@pk_unread (CharIter (ch_iter (cv_chars s)) None)). exact Hi.
Qed.

(** It obeys the contract, if it reported where it panics; what the texts are is up to the converter. *)
Context {W : Type} (view : A -> W) (XC : text_contract False view x posstrish_any).
Definition some_text (t : TT) (l : list (item charpos)) : Prop := exists l', text_items x posstrish_any t l'.
Lemma panicking_contract : stream_contract True view (reporting_stream so) (fun s r p => chariter_rep input (cv_chars s) r p) some_text.
Proof.
  assert (CC : stream_contract False view (chariter_stream x) (chariter_rep input) (text_items x posstrish_any)).
  { apply (chariter_contract XC). intros. exact I. }
  split.
  - intros s r p H. destruct (sc_peek CC _ _ _ H) as (c & E & H'). cbn in *. unfold converting_peek. rewrite E. eexists. split; [reflexivity|exact H'].
  - intros s r p H. destruct (sc_next CC _ _ _ H) as (c & E & H'). cbn in *. unfold converting_next. rewrite E. eexists. split; [reflexivity|exact H'].
  - intros s a r p H. destruct (sc_next_accum CC _ a _ _ H) as [(c & a' & E & V & H')|[[] _]]. left. cbn in *. unfold converting_next_accum. rewrite E.
    do 2 eexists. split; [reflexivity|]. split; [exact V|exact H'].
  - intros s a r p H. destruct (sc_accum_done CC _ a _ _ H) as [(c & a' & t & E & V & _ & H')|[[] _]]. cbn in *. unfold chariter_accum_done in E. injection E as _ <- <-.
    unfold panicking_accum_done. destruct H as (pre & pv & rv & _ & _ & -> & _ & Ha). rewrite Ha. destruct pv as [|ch pv].
    + left. do 3 eexists. split; [reflexivity|]. split; [reflexivity|]. split; [|exact H'].
      exists []. apply (xc_from XC). exists [], [], []. cbn. auto 10.
    + unfold noting_panics. destruct (conv (ch :: pv) (fst (cv_kept s))) as [[r0|] k].
      * left. do 3 eexists. split; [reflexivity|]. split; [reflexivity|]. split; [|exact H'].
        eexists. apply (xc_from XC). apply posstrish_new_rep. exact I.
      * right. split; [exact I|]. do 2 eexists. split; [reflexivity|]. split; [reflexivity|]. split; [discriminate|exact H'].
Qed.
Lemma some_concat : concat_contract True view (reporting_concat (text_concat_ops x)) some_text.
Proof.
  pose proof (xc_concat XC) as C. split.
  - exists []. apply (tc_empty C).
  - intros t1 t2 l1 l2 a (m1 & H1) (m2 & H2). destruct (tc_concat C _ _ _ _ a H1 H2) as [(t & a' & E & V & Ht)|[[] _]].
    left. cbn [reporting_concat t_concat] in *. rewrite E. do 2 eexists. split; [reflexivity|]. split; [exact V|]. eexists. exact Ht.
Qed.
Lemma done_some s a : inv s -> forall t, fst (s_accum_done so s a) = Ok t -> some_text t [].
Proof.
  intros (pre & pv & rv & E & Hi & Ha & Hp) t. cbn. unfold panicking_accum_done. rewrite Ha. destruct pv as [|c pv].
  - intros [= <-]. exists []. apply (xc_from XC). exists [], [], []. cbn. auto 10.
  - destruct (noting_panics conv (c :: pv) (cv_kept s)) as [[r|] k]; [|discriminate]. intros [= <-].
    eexists. apply (xc_from XC). apply posstrish_new_rep. exact I.
Qed.
Lemma concat_some t1 t2 a : some_text t1 [] -> some_text t2 [] ->
  (fst (t_concat (text_concat_ops x) t1 t2 a) = Panic -> forall s, inv s -> left_by s) /\
  (forall t, fst (t_concat (text_concat_ops x) t1 t2 a) = Ok t -> some_text t []).
Proof.
  intros (m1 & H1) (m2 & H2). destruct (tc_concat (xc_concat XC) _ _ _ _ a H1 H2) as [(t & a' & -> & _ & Ht)|[[] _]].
  split; [discriminate|]. intros t' [= <-]. eexists. exact Ht.
Qed.
End Panics.
