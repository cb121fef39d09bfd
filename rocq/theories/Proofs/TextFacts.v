(** Texts and streams over lawful chunks obey their contracts. *)
From Coq Require Import List NArith Bool Lia.
From Verif.Model Require Import Prelude Parser Utf8 Chunk TextIter PosStrish TextVec TextDatumList
  CharIter StrishIter.
From Verif.Spec Require Import Contract ChunkContract.
From Verif.Proofs Require Import StrFacts ChunkFacts.
Import ListNotations.
Set Implicit Arguments.

Lemma is_nil_app X (a b : list X) : is_nil (a ++ b) = is_nil a && is_nil b.
Proof. destruct a; reflexivity. Qed.

Lemma is_nil_false X (a : list X) : is_nil a = false <-> a <> [].
Proof. destruct a; cbn; split; congruence. Qed.

Lemma is_nil_true X (a : list X) : is_nil a = true -> a = [].
Proof. destruct a; cbn; congruence. Qed.

Section Texts.
Context {C CS Pos : Type} (k : chunk_ops C CS Pos).
Context (Rc : C -> list (item Pos) -> Prop) (Rcs : CS -> list (item Pos) -> list (item Pos) -> Prop).
Context (KC : chunk_contract k Rc Rcs).

Lemma all_empty_seq cs ls : Forall2 Rc cs ls ->
  all_empty k (seq_of cs) = Ok (is_nil (List.concat ls)).
Proof.
  induction 1 as [|c l cs ls H _ IH]; [reflexivity|].
  cbn [seq_of all_empty List.concat]. rewrite (kc_is_empty KC _ _ H). cbn. rewrite is_nil_app.
  destruct (is_nil l); cbn; auto.
Qed.

Section TVec.
Context {A W : Type} (F : Prop) (view : A -> W).
Local Notation Rt := (text_items (tvec_ops (A:=A) k) Rc).

Lemma seq_of_inj X (a b : list X) : seq_of a = seq_of b -> a = b.
Proof.
  revert b. induction a as [|x a IH]; intros [|y b]; cbn; try discriminate; auto.
  intros E. injection E as -> E. f_equal. auto.
Qed.

Lemma Rt_slice t l : Rt t l <-> exists ls, Forall2 Rc (tvec_slice t) ls /\ l = List.concat ls.
Proof.
  split.
  - intros (cs & ls & E & H & ->). cbn in E. apply seq_of_inj in E. subst. eauto.
  - intros (ls & H & ->). exists (tvec_slice t), ls. auto.
Qed.

Lemma tvec_is_empty_spec t l : Rt t l -> tvec_is_empty k t = Ok (is_nil l).
Proof.
  intros (cs & ls & E & H & ->). unfold tvec_is_empty. cbn in E. rewrite E. apply all_empty_seq, H.
Qed.

(** Concatenation: exact result. *)
Lemma tvec_concat_spec t1 t2 l1 l2 (a : A) : Rt t1 l1 -> Rt t2 l2 ->
  exists t, tvec_concat k t1 t2 a = (Ok t, a) /\ Rt t (l1 ++ l2).
Proof.
  intros H1 H2. unfold tvec_concat.
  rewrite (tvec_is_empty_spec H1), (tvec_is_empty_spec H2). cbn [no_err res_bind].
  destruct (is_nil l1) eqn:E1.
  { apply is_nil_true in E1. subst. eauto. }
  destruct (is_nil l2) eqn:E2.
  { apply is_nil_true in E2. subst. rewrite app_nil_r. eauto. }
  eexists. split; [reflexivity|].
  apply Rt_slice in H1, H2. destruct H1 as (ls1 & H1 & ->), H2 as (ls2 & H2 & ->).
  apply Rt_slice. exists (ls1 ++ ls2). rewrite concat_app. split; [|reflexivity].
  pose proof (Forall2_app H1 H2) as H. destruct t1, t2; exact H.
Qed.

Lemma tvec_contract : text_contract F view (tvec_ops k) Rc.
Proof.
  split.
  - intros c l H. exists [c], [l]. cbn. rewrite app_nil_r. auto.
  - split; cbn.
    + exists [], []. cbn. auto.
    + intros t1 t2 l1 l2 a H1 H2. left. destruct (tvec_concat_spec a H1 H2) as (t & -> & H). eauto.
Qed.

(** The chunks are those that [State::next] of slices yields. *)
Lemma tvec_chunks_unfold (l : list C) :
  seq_of l = match slice_state_next l with
             | None => SEnd
             | Some (c, None) => SCons c SEnd
             | Some (c, Some l') => SCons c (seq_of l')
             end.
Proof. destruct l as [|c [|c' l]]; reflexivity. Qed.
End TVec.

Section TDList.
Context {A W ET : Type} (F : Prop) (view : A -> W) (ao : alloc_ops A (tdl C ET) ET).
Context (AC : alloc_contract F view ao).
Local Notation Rt := (text_items (tdl_ops k ao) Rc).

Lemma tdl_chunks_unfold (t : tdl C ET) :
  tdl_chunks t = match tdl_state_next t with
                 | Ok (c, None) => SCons c SEnd
                 | Ok (c, Some t') => SCons c (tdl_chunks t')
                 | _ => SPanic
                 end.
Proof. destruct t as [c [[]|]]; reflexivity. Qed.

Lemma tdl_is_empty_spec t l : Rt t l -> tdl_is_empty k t = Ok (is_nil l).
Proof.
  intros (cs & ls & E & H & ->). unfold tdl_is_empty. cbn in E. rewrite E. apply all_empty_seq, H.
Qed.

(** Linking at the end: one allocation. *)
Lemma tdl_link_spec : forall cs (t : tdl C ET) other a, tdl_chunks t = seq_of cs ->
  match a_new_datum ao (DText other) a with
  | (Ok d, a') => exists t', tdl_link ao t other a = (Ok t', a') /\
       (d = DText other -> forall cs', tdl_chunks other = seq_of cs' -> tdl_chunks t' = seq_of (cs ++ cs'))
  | (Err e, a') => tdl_link ao t other a = (Err e, a')
  | (Panic, a') => tdl_link ao t other a = (Panic, a')
  | (OutOfFuel, a') => tdl_link ao t other a = (OutOfFuel, a')
  end.
Proof.
  induction cs as [|c cs IH]; intros t other a E.
  { destruct t as [c [[]|]]; discriminate. }
  destruct t as [c0 [[t'| | | | |]|]]; cbn [tdl_chunks seq_of] in E; try discriminate.
  - injection E as -> E. specialize (IH _ other a E). cbn [tdl_link].
    destruct (a_new_datum ao (DText other) a) as [[d|e| |] a'].
    + destruct IH as (t'' & -> & IH). eexists. split; [reflexivity|]. intros Ed cs' E'.
      cbn [tdl_chunks app seq_of]. f_equal. apply IH; auto.
    + rewrite IH. reflexivity.
    + rewrite IH. reflexivity.
    + rewrite IH. reflexivity.
  - injection E as -> E. destruct cs as [|? ?]; [|discriminate]. cbn [tdl_link].
    destruct (a_new_datum ao (DText other) a) as [[d|e| |] a']; try reflexivity.
    eexists. split; [reflexivity|]. intros -> cs' E'. cbn. rewrite E'. reflexivity.
Qed.

(** Concatenation: exactly when and what is allocated. *)
Lemma tdl_concat_spec t1 t2 l1 l2 a : Rt t1 l1 -> Rt t2 l2 ->
  if is_nil l1 then tdl_concat k ao t1 t2 a = (Ok t2, a)
  else if is_nil l2 then tdl_concat k ao t1 t2 a = (Ok t1, a)
  else match a_new_datum ao (DText t2) a with
       | (Ok d, a') => exists t, tdl_concat k ao t1 t2 a = (Ok t, a') /\ (d = DText t2 -> Rt t (l1 ++ l2))
       | (Err e, a') => tdl_concat k ao t1 t2 a = (Err e, a')
       | (Panic, a') => tdl_concat k ao t1 t2 a = (Panic, a')
       | (OutOfFuel, a') => tdl_concat k ao t1 t2 a = (OutOfFuel, a')
       end.
Proof.
  intros H1 H2. unfold tdl_concat.
  rewrite (tdl_is_empty_spec H1), (tdl_is_empty_spec H2).
  destruct (is_nil l1); [reflexivity|]. destruct (is_nil l2); [reflexivity|].
  destruct H1 as (cs1 & ls1 & E1 & H1 & ->), H2 as (cs2 & ls2 & E2 & H2 & ->).
  pose proof (tdl_link_spec _ _ t2 a E1) as G.
  destruct (a_new_datum ao (DText t2) a) as [[d|e| |] a']; auto.
  destruct G as (t & -> & G). exists t. split; [reflexivity|]. intros Ed.
  exists (cs1 ++ cs2), (ls1 ++ ls2). rewrite concat_app. split; [cbn; apply G; auto|].
  auto using Forall2_app.
Qed.

Lemma tdl_contract : text_contract F view (tdl_ops k ao) Rc.
Proof.
  split.
  - intros c l H. exists [c], [l]. cbn. rewrite app_nil_r. auto.
  - split; cbn.
    + exists [c_empty k], [[]]. cbn. repeat split; auto. constructor; [apply KC|constructor].
    + intros t1 t2 l1 l2 a H1 H2. pose proof (tdl_concat_spec a H1 H2) as G.
      destruct (is_nil l1) eqn:E1.
      { left. exists t2, a. apply is_nil_true in E1. subst. auto. }
      destruct (is_nil l2) eqn:E2.
      { left. exists t1, a. apply is_nil_true in E2. subst. rewrite app_nil_r. auto. }
      destruct (AC (DText t2) a) as [(a' & E & V)|(HF & a' & E & V)]; rewrite E in G.
      * destruct G as (t & E' & Ht). left. exists t, a'. auto.
      * right. split; [exact HF|]. exists a'. apply is_nil_false in E1, E2. auto.
Qed.
End TDList.

(** [text::Iter]. *)
Section TIter.
Context {TT A W : Type} (F : Prop) (view : A -> W) (x : text_ops TT C A).
Context (XC : text_contract F view x Rc).
Local Notation Rt := (text_items x Rc).
Local Notation titer := (titer (TT:=TT) (C:=C) (CS:=CS) (Pos:=Pos)).

Definition accum_items (o : option TT) (l : list (item Pos)) : Prop :=
  match o with Some t => Rt t l | None => l = [] end.

Definition titer_rep (s : titer) (rest pend : list (item Pos)) : Prop :=
  exists pa, accum_items (ti_accum s) pa /\
  match ti_cur s with
  | None => ti_next s = SEnd /\ rest = [] /\ pend = pa /\ ti_peeked s = None
  | Some cs => exists r1 p1 chunks ls, Rcs cs r1 p1 /\ ti_next s = seq_of chunks /\
      Forall2 Rc chunks ls /\ rest = r1 ++ List.concat ls /\ pend = pa ++ p1 /\
      match ti_peeked s with Some it => hd_error rest = Some it | None => True end
  end.

Lemma peek_ahead_spec chunks ls : Forall2 Rc chunks ls ->
  peek_ahead k (seq_of chunks) = Ok (hd_error (List.concat ls)).
Proof.
  induction 1 as [|c l cs ls H _ IH]; [reflexivity|]. cbn [seq_of peek_ahead List.concat].
  destruct (kc_peek KC _ _ _ (kc_src_strm KC _ _ H)) as (s' & -> & _). cbn [fst].
  destruct l; cbn; auto.
Qed.

Lemma titer_next_loop_spec : forall chunks ls cs r1 p1, Forall2 Rc chunks ls -> Rcs cs r1 p1 ->
  exists cur chunks', titer_next_loop k (seq_of chunks) cs =
    (Ok (hd_error (r1 ++ List.concat ls)), (cur, chunks')) /\
    titer_rep (TIter cur chunks' None None) (tl (r1 ++ List.concat ls)) [].
Proof.
  induction chunks as [|c chunks IH]; intros ls cs r1 p1 Hc H; cbn [titer_next_loop seq_of];
    destruct (kc_next KC _ _ _ H) as (cs' & -> & H'); destruct r1 as [|it r1]; cbn [hd_error app].
  - inversion Hc; subst. exists None, SEnd. split; [reflexivity|]. exists []. cbn. auto.
  - exists (Some cs'), SEnd. split; [reflexivity|]. exists []. split; [reflexivity|]. cbn.
    exists r1, [], [], ls. auto 10.
  - inversion Hc as [|c' l chunks' ls' Hl Hc' E1 E2]; subst.
    destruct (IH ls' (c_src_strm k c) l [] Hc' (kc_src_strm KC _ _ Hl)) as (cur & ch' & E & R).
    exists cur, ch'. split; [exact E|exact R].
  - exists (Some cs'), (SCons c (seq_of chunks)). split; [reflexivity|]. exists []. split; [reflexivity|].
    exists r1, [], (c :: chunks), ls. cbn. auto 10.
Qed.

Lemma accum_chunk_spec accum pa cs r1 p1 a : accum_items accum pa -> Rcs cs r1 p1 ->
  (exists t cs' a', accum_chunk k x accum cs a = (Ok t, (cs', a')) /\ view a' = view a /\
                    Rt t (pa ++ p1) /\ Rcs cs' r1 []) \/
  (F /\ exists cs' a', accum_chunk k x accum cs a = (Err AllocExhausted, (cs', a')) /\
                    view a' = view a /\ pa <> [] /\ p1 <> [] /\ Rcs cs' r1 []).
Proof.
  intros Ha H. unfold accum_chunk. destruct (kc_accum_done KC _ _ _ H) as (cs' & c & -> & Hc & H').
  assert (Ht : Rt (match accum with Some t => t | None => tx_empty x end) pa).
  { destruct accum; cbn in Ha; [exact Ha|]. subst. exact (tc_empty (xc_concat XC)). }
  destruct (tc_concat (xc_concat XC) _ _ _ _ a Ht (xc_from XC _ _ Hc))
    as [(t & a' & E & V & R)|(HF & a' & E & V & N1 & N2)]; cbn in E; rewrite E.
  - left. eauto 8.
  - right. split; [exact HF|]. eauto 10.
Qed.

Lemma titer_next_accum_loop_spec : forall chunks ls cs r1 p1 accum pa a,
  Forall2 Rc chunks ls -> Rcs cs r1 p1 -> accum_items accum pa ->
  let rest := r1 ++ List.concat ls in
  let pend := pa ++ p1 in
  (exists s' a', titer_next_accum_loop k x (seq_of chunks) cs accum a = (Ok (hd_error rest), (s', a')) /\
       view a' = view a /\ titer_rep s' (tl rest) (pend ++ firstn 1 rest)) \/
  (F /\ exists s' a', titer_next_accum_loop k x (seq_of chunks) cs accum a = (Err AllocExhausted, (s', a')) /\
       view a' = view a /\ pend <> [] /\ titer_rep s' rest []).
Proof.
  induction chunks as [|c chunks IH]; intros ls cs r1 p1 accum pa a Hc H Ha rest pend;
    cbn [titer_next_accum_loop seq_of];
    destruct (kc_next_accum KC _ _ _ H) as (cs' & -> & H'); destruct r1 as [|it r1]; cbn [hd_error].
  - inversion Hc; subst ls. subst rest. cbn [app List.concat] in *. rewrite app_nil_r in H'.
    destruct (accum_chunk_spec _ _ a Ha H') as [(t & cs'' & a' & -> & V & R & _)|(HF & cs'' & a' & -> & V & N1 & N2 & R)].
    + left. do 2 eexists. split; [reflexivity|]. split; [exact V|].
      exists (pa ++ p1). cbn. rewrite app_nil_r. auto.
    + right. split; [exact HF|]. do 2 eexists. split; [reflexivity|]. split; [exact V|].
      split. { unfold pend. destruct pa; [congruence|discriminate]. }
      exists []. split; [reflexivity|]. cbn. exists [], [], [], []. cbn. auto 10.
  - left. do 2 eexists. split; [reflexivity|]. split; [reflexivity|].
    exists pa. split; [exact Ha|]. cbn. exists r1, (p1 ++ [it]), [], ls. cbn in H'.
    unfold pend, rest. cbn. rewrite <- app_assoc. auto 10.
  - inversion Hc as [|c' l chunks' ls' Hl Hc' E1 E2]; subst. subst rest. cbn [app List.concat tl] in *.
    cbn [firstn] in H'. rewrite app_nil_r in H'.
    destruct (accum_chunk_spec _ _ a Ha H') as [(t & cs'' & a' & -> & V & R & _)|(HF & cs'' & a' & -> & V & N1 & N2 & R)].
    + subst pend. destruct (IH ls' (c_src_strm k c) l [] (Some t) (pa ++ p1) a' Hc' (kc_src_strm KC _ _ Hl) R)
        as [(s' & a'' & E & V' & R')|(HF & s' & a'' & E & V' & N & R')];
        rewrite app_nil_r in *.
      * left. exists s', a''. split; [exact E|]. split; [congruence|exact R'].
      * right. split; [exact HF|]. exists s', a''. split; [exact E|]. split; [congruence|]. auto.
    + right. split; [exact HF|]. do 2 eexists. split; [reflexivity|]. split; [exact V|].
      split. { unfold pend. destruct pa; [congruence|discriminate]. }
      exists []. split; [reflexivity|]. cbn. exists [], [], (c :: chunks), (l :: ls'). cbn. auto 10.
  - left. do 2 eexists. split; [reflexivity|]. split; [reflexivity|].
    exists pa. split; [exact Ha|]. cbn. exists r1, (p1 ++ [it]), (c :: chunks), ls. cbn in H'.
    unfold pend, rest. cbn. rewrite <- app_assoc. auto 10.
Qed.

Lemma titer_contract : stream_contract F view (titer_stream k x) titer_rep Rt.
Proof.
  split; cbn [titer_stream s_peek s_next s_next_accum s_accum_done].
  - intros s rest pend (pa & Ha & H). unfold titer_peek.
    destruct (ti_peeked s) as [it|] eqn:Hp.
    { exists s. destruct (ti_cur s) as [cs|] eqn:Hc.
      - destruct H as (r1 & p1 & chunks & ls & H1 & H2 & H3 & H4 & H5 & H6). rewrite H6. split; [reflexivity|].
        exists pa. split; [exact Ha|]. rewrite Hc. exists r1, p1, chunks, ls. rewrite Hp. auto 10.
      - destruct H as (_ & _ & _ & H). discriminate. }
    destruct (ti_cur s) as [cs|] eqn:Hc.
    + destruct H as (r1 & p1 & chunks & ls & H1 & H2 & H3 & -> & -> & _).
      destruct (kc_peek KC _ _ _ H1) as (cs' & -> & H1'). rewrite H2, (peek_ahead_spec H3).
      eexists. split.
      * destruct r1 as [|it r1]; reflexivity.
      * exists pa. cbn. split; [exact Ha|]. exists r1, p1, chunks, ls. repeat split; auto.
        destruct r1 as [|it r1]; cbn; auto. destruct (List.concat ls); cbn; auto.
    + destruct H as (H1 & -> & -> & _). exists s. split; [reflexivity|]. exists pa. rewrite Hc. auto.
  - intros s rest pend (pa & Ha & H). unfold titer_next. destruct (ti_cur s) as [cs|] eqn:Hc.
    + destruct H as (r1 & p1 & chunks & ls & H1 & H2 & H3 & -> & -> & _). rewrite H2.
      destruct (titer_next_loop_spec H3 H1) as (cur & ch' & -> & R). eauto.
    + destruct H as (H1 & -> & -> & _). eexists. split; [reflexivity|]. exists []. cbn. auto.
  - intros s a rest pend (pa & Ha & H). unfold titer_next_accum. destruct (ti_cur s) as [cs|] eqn:Hc.
    + destruct H as (r1 & p1 & chunks & ls & H1 & H2 & H3 & -> & -> & _). rewrite H2.
      destruct (titer_next_accum_loop_spec _ _ a H3 H1 Ha) as [(s' & a' & E & V & R)|(HF & s' & a' & E & V & N & R)];
        rewrite E.
      * left. eauto.
      * right. eauto 10.
    + destruct H as (H1 & -> & -> & _). left. do 2 eexists. split; [reflexivity|]. split; [reflexivity|].
      exists pa. cbn. rewrite app_nil_r. auto.
  - intros s a rest pend (pa & Ha & H). unfold titer_accum_done. destruct (ti_cur s) as [cs|] eqn:Hc.
    + destruct H as (r1 & p1 & chunks & ls & H1 & H2 & H3 & -> & -> & Hp).
      destruct (accum_chunk_spec _ _ a Ha H1) as [(t & cs' & a' & -> & V & R & R')|(HF & cs' & a' & -> & V & N1 & N2 & R')].
      * left. do 3 eexists. split; [reflexivity|]. split; [exact V|]. split; [exact R|].
        exists []. cbn. split; [reflexivity|]. exists r1, [], chunks, ls. auto 10.
      * right. split; [exact HF|]. do 2 eexists. split; [reflexivity|]. split; [exact V|].
        split. { destruct pa; [congruence|discriminate]. }
        exists []. cbn. split; [reflexivity|]. exists r1, [], chunks, ls. auto 10.
    + destruct H as (H1 & -> & -> & Hp). left. do 3 eexists. split; [reflexivity|]. split; [reflexivity|].
      split.
      * destruct (ti_accum s); cbn in Ha; [exact Ha|]. subst. exact (tc_empty (xc_concat XC)).
      * exists []. cbn. auto.
Qed.

Lemma titer_new_rep t l : Rt t l -> exists s, titer_new k x t = Ok s /\ titer_rep s l [].
Proof.
  intros (cs & ls & E & H & ->). unfold titer_new. rewrite E.
  destruct H as [|c l cs ls Hc H]; cbn.
  - eexists. split; [reflexivity|]. exists []. cbn. auto.
  - eexists. split; [reflexivity|]. exists []. cbn. split; [reflexivity|].
    exists l, [], cs, ls. repeat split; auto. apply (kc_src_strm KC _ _ Hc).
Qed.

(** Iterating yields exactly the items. *)
Lemma titer_collect_rep : forall l n s p, titer_rep s l p -> length l < n -> titer_collect k n s = Ok l.
Proof.
  induction l as [|it l IH]; intros n s p H Hn; destruct n as [|n]; cbn in Hn; try lia;
    cbn [titer_collect]; destruct (sc_next titer_contract _ _ _ H) as (s' & E & H'); cbn in E; rewrite E.
  - reflexivity.
  - rewrite (IH _ _ _ H') by lia. reflexivity.
Qed.
End TIter.
End Texts.

(** [CharIterSourceStream] over the characters [src]. *)
Section CharIterFacts.
Local Open Scope N_scope.
Context (ok : str -> N -> Prop).
Context {TT A W : Type} (F : Prop) (view : A -> W) (x : text_ops TT posstrish A).
Context (src : str).
Context (XC : text_contract F view x (posstrish_rep ok)).
(** A part of the characters may be the contents of a chunk. *)
Context (Hok : forall pre v post, src = pre ++ v ++ post -> ok v (N.of_nat (length pre))).
Local Notation Rt := (text_items x (posstrish_rep ok)).

(** What a [Peekable] will still yield. *)
Definition pk_items {X} (p : peekable X) (l : list X) : Prop :=
  match pk_peeked p with
  | None => pk_iter p = l
  | Some o => o = hd_error l /\ pk_iter p = tl l
  end.
Lemma pk_next_items {X} (p : peekable X) l : pk_items p l ->
  pk_next p = (hd_error l, Peekable (tl l) None).
Proof.
  unfold pk_items, pk_next. destruct (pk_peeked p); [intros [-> ->]|intros ->]; reflexivity.
Qed.
Lemma pk_peek_items {X} (p : peekable X) l : pk_items p l ->
  exists p', pk_peek p = (hd_error l, p') /\ pk_items p' l.
Proof.
  intros H. unfold pk_peek. pose proof H as H0. unfold pk_items in H.
  destruct (pk_peeked p) as [o|]; [destruct H as [-> H]|rewrite H]; eexists; split; try reflexivity; [exact H0|].
  cbn. auto.
Qed.

Definition chariter_rep (s : chariter) (rest pend : list (item charpos)) : Prop :=
  exists pre pv rv, src = pre ++ pv ++ rv /\
    rest = enumerate (N.of_nat (length (pre ++ pv))) rv /\ pend = enumerate (N.of_nat (length pre)) pv /\
    pk_items (ch_iter s) rest /\
    ch_accum s = match pv with [] => None | _ => Some (pv, N.of_nat (length pre)) end.

Lemma chariter_contract : stream_contract F view (chariter_stream x) chariter_rep Rt.
Proof.
  split; cbn [chariter_stream s_peek s_next s_next_accum s_accum_done].
  - intros s rest pend (pre & pv & rv & E & -> & -> & Ei & Ea). unfold chariter_peek.
    destruct (pk_peek_items _ _ Ei) as (p' & -> & Ei'). eexists. split; [reflexivity|]. exists pre, pv, rv. auto.
  - intros s rest pend (pre & pv & rv & E & -> & -> & Ei & Ea). unfold chariter_next.
    rewrite (pk_next_items _ _ Ei). eexists. split; [reflexivity|]. destruct rv as [|c rv].
    + exists src, [], []. rewrite !app_nil_r. unfold pk_items. cbn. auto.
    + exists ((pre ++ pv) ++ [c]), [], rv. cbn [tl enumerate ch_iter ch_accum app pk_items pk_iter pk_peeked].
      rewrite app_nil_r. rewrite (app_length (pre ++ pv) [c]). cbn [length].
      repeat split; auto.
      * rewrite E, <- !app_assoc. reflexivity.
      * f_equal. lia.
  - intros s a rest pend (pre & pv & rv & E & -> & -> & Ei & Ea). left.
    unfold chariter_next_accum. rewrite (pk_next_items _ _ Ei). destruct rv as [|c rv]; cbn [enumerate hd_error tl firstn].
    + do 2 eexists. split; [reflexivity|]. split; [reflexivity|].
      exists pre, pv, []. rewrite (app_nil_r (enumerate _ pv)). unfold pk_items. cbn. auto 10.
    + do 2 eexists. split; [reflexivity|]. split; [reflexivity|].
      exists pre, (pv ++ [c]), rv. cbn [ch_iter ch_accum it_ch it_pos].
      assert (L : N.of_nat (length (pre ++ pv ++ [c])) = N.of_nat (length (pre ++ pv)) + 1).
      { rewrite !app_length. cbn [length]. lia. }
      rewrite L, enumerate_app. cbn [length enumerate]. split; [|split; [reflexivity|split; [|split]]].
      * rewrite E, <- !app_assoc. reflexivity.
      * rewrite app_length. do 4 f_equal. lia.
      * reflexivity.
      * rewrite Ea. destruct pv as [|c0 pv]; cbn [app]; [rewrite app_nil_r|]; reflexivity.
  - intros s a rest pend (pre & pv & rv & E & -> & -> & Ei & Ea). left. unfold chariter_accum_done.
    do 3 eexists. split; [reflexivity|]. split; [reflexivity|]. split.
    + rewrite Ea. destruct pv as [|c pv].
      * apply (xc_from XC). exists [], [], []. cbn. auto 10.
      * apply (xc_from XC). apply posstrish_new_rep. eapply Hok. exact E.
    + exists (pre ++ pv), [], rv. rewrite app_nil_r. cbn. rewrite <- app_assoc. auto 10.
Qed.

Lemma chariter_new_rep : chariter_rep (chariter_new src) (enumerate 0 src) [].
Proof. exists [], [], src. unfold pk_items. cbn. auto 10. Qed.
End CharIterFacts.

(** [StrishIterSourceStream] over the strings [strs]. *)
Section StrishIterFacts.
Local Open Scope N_scope.
Local Notation N_len l := (N.of_nat (length l)).
Context (ok : str -> N -> Prop).
Context {TT A W : Type} (F : Prop) (view : A -> W) (x : text_ops TT posstrish A).
Context (strs : list str).
Context (XC : text_contract F view x (posstrish_rep ok)).
(** Each string starts where those before it end. *)
Context (Hok : forall l1 s l2, strs = l1 ++ s :: l2 -> ok s (N_len (List.concat l1))).
Local Notation Rc := (posstrish_rep ok).
Local Notation Rcs := (posstrish_state ok).
Local Notation Rt := (text_items x Rc).
Local Notation KC := (posstrish_contract ok).

(** The strings left [it] start at character [n]. *)
Definition strs_left (it : list str) (n : N) : Prop :=
  exists l1, strs = l1 ++ it /\ n = N_len (List.concat l1).

Definition strishiter_rep (s : strishiter TT) (rest pend : list (item charpos)) : Prop :=
  exists pa, accum_items Rc x (si_accum s) pa /\
  match si_cur s with
  | None => rest = [] /\ pend = pa
  | Some cs => exists r1 p1 r2, Rcs cs r1 p1 /\ pend = pa ++ p1 /\
      match si_peeked s with
      | None => r2 = []
      | Some p => r1 = [] /\ r2 <> [] /\ Rcs p r2 []
      end /\
      strs_left (si_iter s) (si_char s + N_len (r1 ++ r2)) /\
      rest = r1 ++ r2 ++ enumerate (si_char s + N_len (r1 ++ r2)) (List.concat (si_iter s))
  end.

Lemma next_posstrish_of_spec : forall it n, strs_left it n ->
  exists o it', next_posstrish_of it n = (Ok o, it') /\ (length it' <= length it)%nat /\
  match o with
  | None => List.concat it = [] /\ strs_left it' n /\ List.concat it' = []
  | Some p => exists r, r <> [] /\ Rcs p r [] /\ strs_left it' (n + N_len r) /\
      enumerate n (List.concat it) = r ++ enumerate (n + N_len r) (List.concat it') /\
      (length it' < length it)%nat
  end.
Proof.
  induction it as [|s it IH]; intros n (l1 & E & En); cbn [next_posstrish_of].
  { exists None, []. cbn. repeat split; auto. exists l1. auto. }
  assert (H : Rc (posstrish_new s n) (enumerate n s)).
  { apply posstrish_new_rep. subst n. eapply Hok. exact E. }
  unfold rc_as_str. cbn [posstrish_new px_val rs_str rs_start rs_end].
  pose proof (str_slice_mid [] s []) as Y. rewrite app_nil_r in Y.
  cbn [app byte_len] in Y. rewrite N.add_0_l in Y. rewrite Y.
  destruct s as [|c s].
  - cbn. destruct (IH n) as (o & it' & -> & L & G).
    { exists (l1 ++ [[]]). rewrite <- app_assoc. split; [exact E|]. rewrite concat_app. cbn.
      rewrite app_nil_r. exact En. }
    exists o, it'. split; [reflexivity|]. split; [lia|]. destruct o as [p|]; auto.
    destruct G as (r & ? & ? & ? & ? & ?). exists r. repeat split; auto; lia.
  - destruct (N.ltb_spec 0 (byte_len (c :: s))).
    2:{ pose proof (len_utf8_pos c). cbn [byte_len] in *. lia. }
    do 2 eexists. split; [reflexivity|]. split; [cbn; lia|].
    exists (enumerate n (c :: s)). rewrite enumerate_length. repeat split.
    + discriminate.
    + apply (kc_src_strm KC _ _ H).
    + exists (l1 ++ [c :: s]). rewrite <- app_assoc. split; [exact E|].
      rewrite concat_app, app_length, En. cbn. rewrite app_nil_r. lia.
    + cbn [List.concat]. rewrite enumerate_app. reflexivity.
    + cbn. lia.
Qed.

(** Going on to the next string. *)
Lemma next_posstrish_spec cs p1 n it peeked r2 : Rcs cs [] p1 ->
  match peeked with None => r2 = [] | Some p => r2 <> [] /\ Rcs p r2 [] end ->
  strs_left it (n + N_len r2) ->
  exists cur it', next_posstrish cs n it peeked = Ok (cur, it', None) /\
  (match peeked with None => 0 | Some _ => 1 end + length it >=
   match cur with None => 0 | Some _ => 1 end + length it')%nat /\
  match cur with
  | None => r2 ++ enumerate (n + N_len r2) (List.concat it) = []
  | Some cs' => exists r', Rcs cs' r' [] /\ strs_left it' (n + N_len r') /\
       r2 ++ enumerate (n + N_len r2) (List.concat it) = r' ++ enumerate (n + N_len r') (List.concat it')
  end.
Proof.
  intros H Hp Hl. unfold next_posstrish. destruct (kc_peek KC _ _ _ H) as (cs' & E & _). cbn in E.
  rewrite E. cbn [fst hd_error]. destruct peeked as [p|].
  - destruct Hp as [Hn Hp]. do 2 eexists. split; [reflexivity|]. split; [lia|]. eauto.
  - subst r2. cbn [length] in *. rewrite N.add_0_r in *.
    destruct (next_posstrish_of_spec Hl) as (o & it' & -> & L & G). cbn.
    exists o, it'. split; [reflexivity|]. destruct o as [p|]; cbn.
    + destruct G as (r & Hr & Hs & Hl' & Ee & Lt). split; [lia|]. exists r. auto.
    + destruct G as (G & _). rewrite G. split; [lia|reflexivity].
Qed.

Lemma strishiter_rep_no_accum s rest pend : strishiter_rep s rest pend ->
  exists pend', strishiter_rep (StrishIter (si_cur s) (si_char s) (si_iter s) (si_peeked s) None) rest pend'.
Proof.
  intros (pa & Ha & H). destruct (si_cur s) as [cs|] eqn:Hc.
  - destruct H as (r1 & p1 & r2 & H1 & -> & H2 & H3 & ->). exists p1, []. cbn. split; [reflexivity|].
    exists r1, p1, r2. auto 10.
  - destruct H as [-> ->]. exists [], []. cbn. auto.
Qed.

Definition work (s : strishiter TT) : nat :=
  (match si_cur s with None => 0 | Some _ => 1 end +
   match si_peeked s with None => 0 | Some _ => 1 end + length (si_iter s))%nat.

Lemma strishiter_next_loop_spec : forall f s rest pend, (work s < f)%nat -> si_accum s = None ->
  strishiter_rep s rest pend ->
  exists s', strishiter_next_loop f s = (Ok (hd_error rest), s') /\ strishiter_rep s' (tl rest) [].
Proof.
  induction f as [|f IH]; intros s rest pend Hf Ha0 (pa & Ha & H); [lia|].
  cbn [strishiter_next_loop]. unfold work in Hf.
  destruct (si_cur s) as [cs|] eqn:Hc.
  2:{ destruct H as [-> ->]. exists s. split; [reflexivity|]. exists []. rewrite Ha0, Hc.
      cbn. auto. }
  destruct H as (r1 & p1 & r2 & H1 & -> & H2 & H3 & ->).
  destruct (kc_next KC _ _ _ H1) as (cs' & E & H1'). cbn in E. rewrite E.
  destruct r1 as [|i r1]; cbn [hd_error tl app] in *.
  - assert (H2' : match si_peeked s with None => r2 = [] | Some p => r2 <> [] /\ Rcs p r2 [] end).
    { destruct (si_peeked s); tauto. }
    destruct (next_posstrish_spec (si_char s) _ _ H1' H2' H3) as (cur & it' & -> & L & G).
    edestruct (IH (StrishIter cur (si_char s) it' None (si_accum s))) as (s' & Es & Rs);
      [| exact Ha0 | | exists s'; split; [rewrite Es; reflexivity|exact Rs] ].
    + unfold work. cbn. lia.
    + exists []. cbn. rewrite Ha0. split; [reflexivity|].
      destruct cur as [cs2|].
      * destruct G as (r' & Hr & Hl & Ee). exists r', [], []. rewrite app_nil_r. auto.
      * auto.
  - destruct (si_peeked s) as [p|] eqn:Hp; [destruct H2; discriminate|]. subst r2.
    eexists. split; [reflexivity|]. exists []. rewrite Ha0.
    cbn [si_cur si_peeked si_char si_iter si_accum accum_items]. split; [reflexivity|].
    exists r1, [], []. cbn [app] in *. rewrite app_nil_r in *. cbn [length] in *.
    replace (si_char s + 1 + N_len r1) with (si_char s + N.of_nat (S (length r1))) by lia. auto.
Qed.

Lemma strishiter_next_accum_loop_spec : forall f s rest pend a, (work s < f)%nat ->
  strishiter_rep s rest pend ->
  (exists s' a', strishiter_next_accum_loop x f s a = (Ok (hd_error rest), (s', a')) /\
     view a' = view a /\ strishiter_rep s' (tl rest) (pend ++ firstn 1 rest)) \/
  (F /\ exists s' a', strishiter_next_accum_loop x f s a = (Err AllocExhausted, (s', a')) /\
     view a' = view a /\ pend <> [] /\ strishiter_rep s' rest []).
Proof.
  induction f as [|f IH]; intros s rest pend a Hf (pa & Ha & H); [lia|].
  cbn [strishiter_next_accum_loop]. unfold work in Hf.
  destruct (si_cur s) as [cs|] eqn:Hc.
  2:{ destruct H as [-> ->]. left. exists s, a. split; [reflexivity|]. split; [reflexivity|].
      exists pa. rewrite Hc. cbn. rewrite app_nil_r. auto. }
  destruct H as (r1 & p1 & r2 & H1 & -> & H2 & H3 & ->).
  destruct (kc_next_accum KC _ _ _ H1) as (cs' & E & H1'). cbn in E. rewrite E.
  destruct r1 as [|i r1]; cbn [hd_error tl app] in *.
  - cbn [firstn] in H1'. rewrite app_nil_r in H1'.
    destruct (accum_chunk_spec KC XC _ _ _ _ _ a Ha H1') as
      [(t & cs'' & a' & -> & V & R & H1'')|(HF & cs'' & a' & -> & V & N1 & N2 & R)].
    + assert (H2' : match si_peeked s with None => r2 = [] | Some p => r2 <> [] /\ Rcs p r2 [] end).
      { destruct (si_peeked s); tauto. }
      destruct (next_posstrish_spec (si_char s) _ _ H1'' H2' H3) as (cur & it' & -> & L & G).
      set (rest := r2 ++ enumerate (si_char s + N_len r2) (List.concat (si_iter s))) in *.
      destruct (IH (StrishIter cur (si_char s) it' None (Some t)) rest (pa ++ p1) a')
        as [(s' & a'' & Es & V' & R')|(HF & s' & a'' & Es & V' & N & R')].
      * unfold work. cbn. lia.
      * exists (pa ++ p1). cbn. split; [exact R|].
        destruct cur as [cs2|].
        -- destruct G as (r' & Hr & Hl & Ee). exists r', [], []. rewrite !app_nil_r. auto.
        -- auto.
      * left. rewrite Es. exists s', a''. split; [reflexivity|]. split; [congruence|exact R'].
      * right. split; [exact HF|]. rewrite Es. exists s', a''. split; [reflexivity|].
        split; [congruence|auto].
    + right. split; [exact HF|]. do 2 eexists. split; [reflexivity|]. split; [exact V|].
      split. { destruct pa; [congruence|discriminate]. }
      exists []. cbn. split; [reflexivity|]. exists [], [], r2. auto 10.
  - destruct (si_peeked s) as [p|] eqn:Hp; [destruct H2; discriminate|]. subst r2.
    left. do 2 eexists. split; [reflexivity|]. split; [reflexivity|].
    exists pa. split; [exact Ha|]. cbn [si_cur si_peeked si_char si_iter si_accum].
    exists r1, (p1 ++ [i]), []. cbn [app] in *. rewrite app_nil_r in *. cbn [length] in *.
    rewrite <- app_assoc.
    replace (si_char s + 1 + N_len r1) with (si_char s + N.of_nat (S (length r1))) by lia. auto 10.
Qed.

Lemma work_fuel (s : strishiter TT) : (work s < strishiter_fuel s)%nat.
Proof. unfold work, strishiter_fuel. destruct (si_cur s), (si_peeked s); lia. Qed.

Lemma strishiter_contract : stream_contract F view (strishiter_stream x) strishiter_rep Rt.
Proof.
  split; cbn [strishiter_stream s_peek s_next s_next_accum s_accum_done].
  - intros s rest pend (pa & Ha & H). unfold strishiter_peek.
    destruct (si_cur s) as [cs|] eqn:Hc.
    2:{ destruct H as [-> ->]. exists s. split; [reflexivity|]. exists pa. rewrite Hc. auto. }
    destruct H as (r1 & p1 & r2 & H1 & -> & H2 & H3 & ->).
    destruct (kc_peek KC _ _ _ H1) as (cs' & E & H1'). cbn in E. rewrite E.
    destruct r1 as [|i r1]; cbn [hd_error app] in *.
    + destruct (si_peeked s) as [p|] eqn:Hp.
      * destruct H2 as (_ & Hn & H2). destruct (kc_peek KC _ _ _ H2) as (p' & E2 & H2'). cbn in E2.
        rewrite E2. eexists. split; [destruct r2; [congruence|reflexivity]|].
        exists pa. split; [exact Ha|]. cbn. exists [], p1, r2. auto 10.
      * subst r2. cbn [length app] in *. rewrite N.add_0_r in *.
        destruct (next_posstrish_of_spec H3) as (o & it' & -> & L & G).
        destruct o as [p|].
        -- destruct G as (r & Hr & Hs & Hl' & Ee & Lt). destruct (kc_peek KC _ _ _ Hs) as (p' & E2 & H2').
           cbn in E2. rewrite E2. eexists. split; [rewrite Ee; destruct r; [congruence|reflexivity]|].
           exists pa. split; [exact Ha|]. cbn. exists [], p1, r. auto 10.
        -- destruct G as (G & G1 & G2). rewrite G. cbn. eexists. split; [reflexivity|].
           exists pa. split; [exact Ha|]. cbn. exists [], p1, []. cbn. rewrite N.add_0_r, G2. auto 10.
    + destruct (si_peeked s) as [p|] eqn:Hp; [destruct H2; discriminate|]. subst r2.
      eexists. split; [reflexivity|]. exists pa. split; [exact Ha|]. cbn [si_cur si_peeked si_char si_iter].
      exists (i :: r1), p1, []. auto 10.
  - intros s rest pend H. unfold strishiter_next.
    destruct (strishiter_rep_no_accum H) as (pend' & H'). eapply strishiter_next_loop_spec; [|reflexivity|exact H'].
    apply (work_fuel (StrishIter _ _ _ _ _)).
  - intros s a rest pend H. unfold strishiter_next_accum.
    apply strishiter_next_accum_loop_spec; [apply work_fuel|exact H].
  - intros s a rest pend (pa & Ha & H). unfold strishiter_accum_done. destruct (si_cur s) as [cs|] eqn:Hc.
    + destruct H as (r1 & p1 & r2 & H1 & -> & H2 & H3 & ->).
      destruct (accum_chunk_spec KC XC _ _ _ _ _ a Ha H1) as
        [(t & cs'' & a' & -> & V & R & H1'')|(HF & cs'' & a' & -> & V & N1 & N2 & R)].
      * left. do 3 eexists. split; [reflexivity|]. split; [exact V|]. split; [exact R|].
        exists []. cbn. split; [reflexivity|]. exists r1, [], r2. auto 10.
      * right. split; [exact HF|]. do 2 eexists. split; [reflexivity|]. split; [exact V|].
        split. { destruct pa; [congruence|discriminate]. }
        exists []. cbn. split; [reflexivity|]. exists r1, [], r2. auto 10.
    + destruct H as [-> ->]. left. do 3 eexists. split; [reflexivity|]. split; [reflexivity|]. split.
      * destruct (si_accum s); cbn in Ha; [exact Ha|]. subst. exact (tc_empty (xc_concat XC)).
      * exists []. cbn. auto.
Qed.

Lemma strishiter_new_rep : exists s, strishiter_new strs = Ok s /\
  strishiter_rep s (enumerate 0 (List.concat strs)) [].
Proof.
  unfold strishiter_new. destruct (@next_posstrish_of_spec strs 0) as (o & it' & -> & _ & G).
  { exists []. auto. }
  cbn. eexists. split; [reflexivity|]. exists []. cbn. split; [reflexivity|]. destruct o as [p|].
  - destruct G as (r & Hr & Hs & Hl & E & _). exists r, [], []. rewrite app_nil_r. auto.
  - destruct G as (-> & _). auto.
Qed.
End StrishIterFacts.
