(** Streams of texts and of strings return texts made of pieces. *)
From Coq Require Import List Arith NArith ZArith Bool Lia.
From Verif.Model Require Import Prelude Parser Utf8 Chunk TextIter PosStrish CharIter StrishIter.
From Verif.Spec Require Import Contract ChunkContract TextWork Pieces.
From Verif.Proofs Require Import StrFacts ChunkFacts TextFacts PiecesFacts ManyPieces.
Import ListNotations.
Set Implicit Arguments.

Section Chunks.
Context {C CS Pos TT A W : Type} (k : chunk_ops C CS Pos) (Rc : C -> list (item Pos) -> Prop)
        (Rcs : CS -> list (item Pos) -> list (item Pos) -> Prop) (KC : chunk_contract k Rc Rcs)
        (x : text_ops TT C A) (F : Prop) (view : A -> W) (XC : text_contract F view x Rc).
Context (FR : forall c, tx_chunks x (tx_from x c) = seq_of [c]) (EM : empty_few x Rc) (JO : joins x Rc).
Context (srcs : list (list (item Pos))) (ND : NoDup (List.concat srcs)).
Local Notation Rt := (pieced x Rc srcs).
Local Notation text := (list (item Pos)).

Lemma pieced_items t l : Rt t l -> text_items x Rc t l.
Proof. intros (cs & ls & H1 & H2 & _ & H3). exists cs, ls. auto. Qed.
Definition accum_pieced (o : option TT) (l : text) : Prop := match o with Some t => Rt t l | None => l = [] end.
Lemma accum_pieced_text o l : accum_pieced o l -> Rt (match o with Some t => t | None => tx_empty x end) l.
Proof. destruct o; cbn; [auto|]. intros ->. apply pieced_empty. exact EM. Qed.

Lemma accum_chunk_pieced accum pa cs r1 p1 a before d after : accum_pieced accum pa -> Rcs cs r1 p1 ->
  srcs = before ++ (d ++ p1 ++ r1) :: after -> incl pa (List.concat before) ->
  (exists t cs' a', accum_chunk k x accum cs a = (Ok t, (cs', a')) /\ view a' = view a /\
                    Rt t (pa ++ p1) /\ Rcs cs' r1 []) \/
  (F /\ exists cs' a', accum_chunk k x accum cs a = (Err AllocExhausted, (cs', a')) /\
                    view a' = view a /\ pa <> [] /\ p1 <> [] /\ Rcs cs' r1 []).
Proof.
  intros Ha H Es Hi. unfold accum_chunk. destruct (kc_accum_done KC _ _ _ H) as (cs' & c & -> & Hc & H').
  pose proof (@accum_pieced_text _ _ Ha) as Ht.
  assert (Hf : Rt (tx_from x c) p1).
  { exists [c], [p1]. split; [apply FR|]. split; [auto|]. split; [|cbn; rewrite app_nil_r; reflexivity].
    apply many_one. right. exists (d ++ p1 ++ r1). split; [rewrite Es; apply in_or_app; right; left; reflexivity|].
    exists d, r1. reflexivity. }
  destruct (tc_concat (xc_concat XC) _ _ _ _ a (pieced_items Ht) (pieced_items Hf))
    as [(t & a' & E & V & R)|(HF & a' & E & V & N1 & N2)]; cbn in E; rewrite E.
  - left. exists t, cs', a'. split; [reflexivity|]. split; [exact V|]. split; [|exact H'].
    eapply pieced_join; [exact JO|exact Ht|exact Hf|exact E|].
    intros N1 N2 ls lu P Q E1 E2. eapply many_next; [exact ND|exact Es| | |exact P|exact Q| |]; try congruence.
    + rewrite E2. apply incl_appr, incl_appl, incl_refl.
    + rewrite E1. exact Hi.
  - right. split; [exact HF|]. eauto 10.
Qed.

Arguments accum_chunk_pieced {accum pa cs r1 p1} a {before d after}.
Local Notation titer := (titer (TT:=TT) (C:=C) (CS:=CS) (Pos:=Pos)).
Definition titer_many (s : titer) (rest pend : text) : Prop :=
  exists pa, accum_pieced (ti_accum s) pa /\
  match ti_cur s with
  | None => ti_next s = SEnd /\ rest = [] /\ pend = pa /\ ti_peeked s = None
  | Some cs => exists before d r1 p1 chunks ls, Rcs cs r1 p1 /\ ti_next s = seq_of chunks /\
      Forall2 Rc chunks ls /\ srcs = before ++ (d ++ p1 ++ r1) :: ls /\ incl pa (List.concat before) /\
      rest = r1 ++ List.concat ls /\ pend = pa ++ p1 /\
      match ti_peeked s with Some it => hd_error rest = Some it | None => True end
  end.

Lemma many_step (before : list text) d p r it after : before ++ (d ++ p ++ it :: r) :: after = before ++ ((d ++ p ++ [it]) ++ [] ++ r) :: after.
Proof. rewrite <- !app_assoc. reflexivity. Qed.
Lemma many_go (before : list text) d p l after : before ++ (d ++ p ++ []) :: l :: after = (before ++ [d ++ p]) ++ ([] ++ [] ++ l) :: after.
Proof. rewrite <- !app_assoc, app_nil_r. reflexivity. Qed.
Lemma incl_before (before : list text) d p pa : incl pa (List.concat before) -> incl (pa ++ p) (List.concat (before ++ [d ++ p])).
Proof.
  intros H. rewrite concat_app. cbn. rewrite app_nil_r. apply incl_app; [apply incl_appl, H|]. apply incl_appr, incl_appr, incl_refl.
Qed.

Lemma titer_next_loop_many : forall chunks ls cs r1 p1 before d, Forall2 Rc chunks ls -> Rcs cs r1 p1 ->
  srcs = before ++ (d ++ p1 ++ r1) :: ls ->
  exists cur chunks', titer_next_loop k (seq_of chunks) cs =
    (Ok (hd_error (r1 ++ List.concat ls)), (cur, chunks')) /\
    titer_many (TIter cur chunks' None None) (tl (r1 ++ List.concat ls)) [].
Proof.
  induction chunks as [|c chunks IH]; intros ls cs r1 p1 before d Hc H Es; cbn [titer_next_loop seq_of];
    destruct (kc_next KC _ _ _ H) as (cs' & -> & H'); destruct r1 as [|it r1]; cbn [hd_error app].
  - inversion Hc; subst. exists None, SEnd. split; [reflexivity|]. exists []. cbn. auto.
  - exists (Some cs'), SEnd. split; [reflexivity|]. exists []. split; [reflexivity|]. cbn.
    rewrite many_step in Es. exists before, (d ++ p1 ++ [it]), r1, [], [], ls. repeat split; auto. intros y [].
  - inversion Hc as [|c' l chunks' ls' Hl Hc' E1 E2]; subst ls c' chunks'.
    rewrite many_go in Es.
    destruct (IH ls' (c_src_strm k c) l [] _ _ Hc' (kc_src_strm KC _ _ Hl) Es) as (cur & ch' & E & R).
    exists cur, ch'. split; [exact E|exact R].
  - exists (Some cs'), (SCons c (seq_of chunks)). split; [reflexivity|]. exists []. split; [reflexivity|].
    rewrite many_step in Es. exists before, (d ++ p1 ++ [it]), r1, [], (c :: chunks), ls. cbn. repeat split; auto. intros y [].
Qed.

Lemma titer_next_accum_loop_many : forall chunks ls cs r1 p1 accum pa a before d,
  Forall2 Rc chunks ls -> Rcs cs r1 p1 -> accum_pieced accum pa ->
  srcs = before ++ (d ++ p1 ++ r1) :: ls -> incl pa (List.concat before) ->
  let rest := r1 ++ List.concat ls in
  let pend := pa ++ p1 in
  (exists s' a', titer_next_accum_loop k x (seq_of chunks) cs accum a = (Ok (hd_error rest), (s', a')) /\
       view a' = view a /\ titer_many s' (tl rest) (pend ++ firstn 1 rest)) \/
  (F /\ exists s' a', titer_next_accum_loop k x (seq_of chunks) cs accum a = (Err AllocExhausted, (s', a')) /\
       view a' = view a /\ pend <> [] /\ titer_many s' rest []).
Proof.
  induction chunks as [|c chunks IH]; intros ls cs r1 p1 accum pa a before d Hc H Ha Es Hi rest pend;
    cbn [titer_next_accum_loop seq_of];
    destruct (kc_next_accum KC _ _ _ H) as (cs' & -> & H'); destruct r1 as [|it r1]; cbn [hd_error].
  - inversion Hc; subst ls. subst rest. cbn [app List.concat] in *. cbn [tl firstn] in H'. rewrite app_nil_r in H'.
    destruct (accum_chunk_pieced a Ha H' Es Hi) as [(t & cs'' & a' & -> & V & R & _)|(HF & cs'' & a' & -> & V & N1 & N2 & R)].
    + left. do 2 eexists. split; [reflexivity|]. split; [exact V|].
      exists (pa ++ p1). cbn. rewrite app_nil_r. auto.
    + right. split; [exact HF|]. do 2 eexists. split; [reflexivity|]. split; [exact V|].
      split. { unfold pend. destruct pa; [congruence|discriminate]. }
      exists []. split; [reflexivity|]. cbn. exists before, (d ++ p1), [], [], [], []. rewrite <- app_assoc. repeat split; auto. intros y [].
  - left. do 2 eexists. split; [reflexivity|]. split; [reflexivity|].
    exists pa. split; [exact Ha|]. cbn. exists before, d, r1, (p1 ++ [it]), [], ls. cbn in H'.
    unfold pend, rest. cbn. rewrite <- !app_assoc. auto 12.
  - inversion Hc as [|c' l chunks' ls' Hl Hc' E1 E2]; subst ls c' chunks'. subst rest. cbn [app List.concat tl] in *.
    cbn [firstn] in H'. rewrite app_nil_r in H'.
    destruct (accum_chunk_pieced a Ha H' Es Hi) as [(t & cs'' & a' & -> & V & R & _)|(HF & cs'' & a' & -> & V & N1 & N2 & R)].
    + subst pend. rewrite many_go in Es.
      destruct (IH ls' (c_src_strm k c) l [] (Some t) (pa ++ p1) a' _ _ Hc' (kc_src_strm KC _ _ Hl) R Es (incl_before _ _ _ Hi))
        as [(s' & a'' & E & V' & R')|(HF & s' & a'' & E & V' & N & R')];
        rewrite app_nil_r in *.
      * left. exists s', a''. split; [exact E|]. split; [congruence|exact R'].
      * right. split; [exact HF|]. exists s', a''. split; [exact E|]. split; [congruence|]. auto.
    + right. split; [exact HF|]. do 2 eexists. split; [reflexivity|]. split; [exact V|].
      split. { unfold pend. destruct pa; [congruence|discriminate]. }
      exists []. split; [reflexivity|]. cbn. exists before, (d ++ p1), [], [], (c :: chunks), (l :: ls'). rewrite <- app_assoc.
      repeat split; auto. intros y [].
  - left. do 2 eexists. split; [reflexivity|]. split; [reflexivity|].
    exists pa. split; [exact Ha|]. cbn. exists before, d, r1, (p1 ++ [it]), (c :: chunks), ls. cbn in H'.
    unfold pend, rest. cbn. rewrite <- !app_assoc. auto 12.
Qed.

Lemma titer_many_contract : stream_contract F view (titer_stream k x) titer_many Rt.
Proof.
  split; cbn [titer_stream s_peek s_next s_next_accum s_accum_done].
  - intros s rest pend (pa & Ha & H). unfold titer_peek.
    destruct (ti_peeked s) as [it|] eqn:Hp.
    { exists s. destruct (ti_cur s) as [cs|] eqn:Hc.
      - destruct H as (before & d & r1 & p1 & chunks & ls & H1 & H2 & H3 & H4 & H5 & H6 & H7 & H8). rewrite H8. split; [reflexivity|].
        exists pa. split; [exact Ha|]. rewrite Hc. exists before, d, r1, p1, chunks, ls. rewrite Hp. auto 12.
      - destruct H as (_ & _ & _ & H). discriminate. }
    destruct (ti_cur s) as [cs|] eqn:Hc.
    + destruct H as (before & d & r1 & p1 & chunks & ls & H1 & H2 & H3 & H4 & H5 & -> & -> & _).
      destruct (kc_peek KC _ _ _ H1) as (cs' & -> & H1'). rewrite H2, (peek_ahead_spec KC H3).
      eexists. split.
      * destruct r1 as [|it r1]; reflexivity.
      * exists pa. cbn. split; [exact Ha|]. exists before, d, r1, p1, chunks, ls. repeat split; auto.
        destruct r1 as [|it r1]; cbn; auto. destruct (List.concat ls); cbn; auto.
    + destruct H as (H1 & -> & -> & _). exists s. split; [reflexivity|]. exists pa. rewrite Hc. auto.
  - intros s rest pend (pa & Ha & H). unfold titer_next. destruct (ti_cur s) as [cs|] eqn:Hc.
    + destruct H as (before & d & r1 & p1 & chunks & ls & H1 & H2 & H3 & H4 & H5 & -> & -> & _). rewrite H2.
      destruct (titer_next_loop_many _ _ H3 H1 H4) as (cur & ch' & -> & R). eauto.
    + destruct H as (H1 & -> & -> & _). eexists. split; [reflexivity|]. exists []. cbn. auto.
  - intros s a rest pend (pa & Ha & H). unfold titer_next_accum. destruct (ti_cur s) as [cs|] eqn:Hc.
    + destruct H as (before & d & r1 & p1 & chunks & ls & H1 & H2 & H3 & H4 & H5 & -> & -> & _). rewrite H2.
      destruct (titer_next_accum_loop_many _ a _ _ H3 H1 Ha H4 H5) as [(s' & a' & E & V & R)|(HF & s' & a' & E & V & N & R)];
        rewrite E.
      * left. eauto.
      * right. eauto 10.
    + destruct H as (H1 & -> & -> & _). left. do 2 eexists. split; [reflexivity|]. split; [reflexivity|].
      exists pa. cbn. rewrite app_nil_r. auto.
  - intros s a rest pend (pa & Ha & H). unfold titer_accum_done. destruct (ti_cur s) as [cs|] eqn:Hc.
    + destruct H as (before & d & r1 & p1 & chunks & ls & H1 & H2 & H3 & H4 & H5 & -> & -> & Hp).
      assert (Es : srcs = before ++ ((d ++ p1) ++ [] ++ r1) :: ls) by (rewrite <- app_assoc; exact H4).
      destruct (accum_chunk_pieced a Ha H1 H4 H5) as [(t & cs' & a' & -> & V & R & R')|(HF & cs' & a' & -> & V & N1 & N2 & R')].
      * left. do 3 eexists. split; [reflexivity|]. split; [exact V|]. split; [exact R|].
        exists []. cbn. split; [reflexivity|]. exists before, (d ++ p1), r1, [], chunks, ls. repeat split; auto. intros y [].
      * right. split; [exact HF|]. do 2 eexists. split; [reflexivity|]. split; [exact V|].
        split. { destruct pa; [congruence|discriminate]. }
        exists []. cbn. split; [reflexivity|]. exists before, (d ++ p1), r1, [], chunks, ls. repeat split; auto. intros y [].
    + destruct H as (H1 & -> & -> & Hp). left. do 3 eexists. split; [reflexivity|]. split; [reflexivity|].
      split; [apply accum_pieced_text, Ha|]. exists []. cbn. auto.
Qed.

Lemma titer_new_many t cs s : tx_chunks x t = seq_of cs -> Forall2 Rc cs srcs -> titer_new k x t = Ok s ->
  titer_many s (List.concat srcs) [].
Proof.
  intros E H. unfold titer_new. rewrite E. destruct cs as [|c cs']; cbn; intros [= <-].
  - inversion H as [E2|]. exists []. cbn. auto.
  - inversion H as [|c0 l cs0 ls Hc Hr E1 E2]. exists []. cbn. split; [reflexivity|]. exists [], [], l, [], cs', ls.
    split; [apply (kc_src_strm KC _ _ Hc)|]. split; [reflexivity|]. split; [exact Hr|]. split; [symmetry; exact E2|].
    split; [intros y []|]. auto.
Qed.
End Chunks.
Arguments accum_chunk_pieced {C CS Pos TT A W k Rc Rcs} KC {x F view} XC FR EM JO {srcs} ND {accum pa cs r1 p1} a {before d after}.

(** [StrishIterSourceStream] over the strings [strs]. *)
Fixpoint parts (n : N) (strs : list str) : list (list (item charpos)) :=
  match strs with
  | [] => []
  | s :: strs' => enumerate n s :: parts (n + N.of_nat (length s)) strs'
  end.
Lemma concat_parts : forall strs n, List.concat (parts n strs) = enumerate n (List.concat strs).
Proof. induction strs as [|s strs IH]; intros n; [reflexivity|]. cbn. rewrite enumerate_app, IH. reflexivity. Qed.

(** Chunks that refer to a string only if they have characters of it. *)
Definition tight_rep (ok : str -> N -> Prop) (c : posstrish) (l : list (item charpos)) : Prop :=
  posstrish_rep ok c l /\ (l = [] -> c = posstrish_empty).
Lemma tight_contract ok : chunk_contract posstrish_ops (tight_rep ok) (posstrish_state ok).
Proof.
  pose proof (posstrish_contract ok) as K. split.
  - split; [apply (kc_empty K)|reflexivity].
  - intros c l [H _]. apply (kc_is_empty K _ _ H).
  - intros c l [H _]. apply (kc_src_strm K _ _ H).
  - apply (kc_peek K).
  - apply (kc_next K).
  - apply (kc_next_accum K).
  - intros s rest pend H. destruct (kc_accum_done K _ _ _ H) as (s' & c & E & Hc & Hs). exists s', c.
    split; [exact E|]. split; [|exact Hs]. split; [exact Hc|]. intros ->.
    destruct H as (pre & d0 & pv & rv & post & _ & _ & _ & Ep & Ha & _).
    destruct pv as [|ch pv]; [|discriminate]. cbn in E. unfold posstrish_accum_done in E. rewrite Ha in E.
    injection E as <- _. reflexivity.
Qed.

Section Strings.
Local Open Scope N_scope.
Local Notation N_len l := (N.of_nat (length l)).
Context (ok : str -> N -> Prop).
Context {TT A W : Type} (F : Prop) (view : A -> W) (x : text_ops TT posstrish A).
Context (strs : list str).
Context (Rc : posstrish -> list (item charpos) -> Prop) (KC : chunk_contract posstrish_ops Rc (posstrish_state ok)).
Context (XC : text_contract F view x Rc).
Context (Hok : forall l1 s l2, strs = l1 ++ s :: l2 -> ok s (N_len (List.concat l1))).
Local Notation Rcs := (posstrish_state ok).
Local Notation srcs := (parts 0 strs).
Context (FR : forall c, tx_chunks x (tx_from x c) = seq_of [c]) (EM : empty_few x Rc) (JO : joins x Rc).
Context (ND : NoDup (List.concat srcs)).
Local Notation Rt := (pieced x Rc srcs).
Local Notation text := (list (item charpos)).

(** The strings still to be taken start at character [n]; those before are [l1]. *)
Definition left_at (it : list str) (n : N) : Prop := exists l1, strs = l1 ++ it /\ n = N_len (List.concat l1).

Lemma next_of_many : forall it n, left_at it n ->
  exists o it' mid, next_posstrish_of it n = (Ok o, it') /\ (length it' <= length it)%nat /\
  match o with
  | None => parts n it = mid ++ parts n it' /\ List.concat mid = [] /\ left_at it' n /\ List.concat it' = []
  | Some p => exists r, r <> [] /\ Rcs p r [] /\ left_at it' (n + N_len r) /\ List.concat mid = [] /\
      parts n it = mid ++ r :: parts (n + N_len r) it' /\ (length it' < length it)%nat
  end.
Proof.
  induction it as [|s it IH]; intros n (l1 & E & En); cbn [next_posstrish_of].
  { exists None, [], []. cbn. repeat split; auto. exists l1. auto. }
  assert (H : posstrish_rep ok (posstrish_new s n) (enumerate n s)).
  { apply posstrish_new_rep. subst n. eapply Hok. exact E. }
  unfold rc_as_str. cbn [posstrish_new px_val rs_str rs_start rs_end].
  pose proof (str_slice_mid [] s []) as Y. rewrite app_nil_r in Y.
  cbn [app byte_len] in Y. rewrite N.add_0_l in Y. rewrite Y.
  destruct s as [|c s].
  - cbn. destruct (IH n) as (o & it' & mid & -> & L & G).
    { exists (l1 ++ [[]]). rewrite <- app_assoc. split; [exact E|]. rewrite concat_app. cbn.
      rewrite app_nil_r. exact En. }
    exists o, it', ([] :: mid). split; [reflexivity|]. split; [lia|]. rewrite N.add_0_r. destruct o as [p|].
    + destruct G as (r & ? & ? & ? & ? & -> & ?). exists r. repeat split; auto; lia.
    + destruct G as (-> & ? & ? & ?). auto.
  - destruct (N.ltb_spec 0 (byte_len (c :: s))).
    2:{ pose proof (len_utf8_pos c). cbn [byte_len] in *. lia. }
    do 2 eexists. exists []. split; [reflexivity|]. split; [cbn; lia|].
    exists (enumerate n (c :: s)). rewrite enumerate_length. repeat split.
    + discriminate.
    + apply (kc_src_strm (posstrish_contract ok) _ _ H).
    + exists (l1 ++ [c :: s]). rewrite <- app_assoc. split; [exact E|].
      rewrite concat_app, app_length, En. cbn. rewrite app_nil_r. lia.
    + cbn. lia.
Qed.

(** What a peeked stream is: the next string that is not empty, after the empty ones [mid]. *)
Definition peeked_many (peeked : option posstrish_iter) (mid : list text) (r2 : text) : Prop :=
  match peeked with
  | None => r2 = [] /\ List.concat mid = []
  | Some p => r2 <> [] /\ Rcs p r2 [] /\ exists mid0, mid = mid0 ++ [r2] /\ List.concat mid0 = []
  end.
Lemma next_many cs p1 n it peeked mid r2 : Rcs cs [] p1 -> peeked_many peeked mid r2 ->
  left_at it (n + N_len r2) ->
  exists cur it', next_posstrish cs n it peeked = Ok (cur, it', None) /\
  (match peeked with None => 0 | Some _ => 1 end + length it >=
   match cur with None => 0 | Some _ => 1 end + length it')%nat /\
  match cur with
  | None => r2 ++ enumerate (n + N_len r2) (List.concat it) = []
  | Some cs' => exists skip r', Rcs cs' r' [] /\ left_at it' (n + N_len r') /\
       mid ++ parts (n + N_len r2) it = skip ++ r' :: parts (n + N_len r') it' /\
       r2 ++ enumerate (n + N_len r2) (List.concat it) = r' ++ enumerate (n + N_len r') (List.concat it')
  end.
Proof.
  intros H Hp Hl. unfold next_posstrish. destruct (kc_peek KC _ _ _ H) as (cs' & E & _). cbn in E.
  rewrite E. cbn [fst hd_error]. destruct peeked as [p|].
  - destruct Hp as (Hn & Hp & mid0 & -> & Hm). do 2 eexists. split; [reflexivity|]. split; [lia|]. exists mid0, r2.
    rewrite <- app_assoc. auto.
  - destruct Hp as [-> Hm]. cbn [length] in *. rewrite N.add_0_r in *.
    destruct (next_of_many Hl) as (o & it' & mid' & -> & L & G). cbn.
    exists o, it'. split; [reflexivity|]. destruct o as [p|]; cbn.
    + destruct G as (r & Hr & Hs & Hl' & Em & Ee & Lt). split; [lia|]. exists (mid ++ mid'), r.
      split; [exact Hs|]. split; [exact Hl'|]. split; [rewrite Ee, <- app_assoc; reflexivity|].
      rewrite <- concat_parts, Ee, concat_app, Em. cbn. rewrite concat_parts. reflexivity.
    + destruct G as (E1 & E2 & _ & E3). split; [lia|]. rewrite <- concat_parts, E1, concat_app, E2, concat_parts, E3. reflexivity.
Qed.

Arguments next_many {cs p1 n it peeked mid r2}.
Definition strish_many (s : strishiter TT) (rest pend : text) : Prop :=
  exists pa, accum_pieced Rc x srcs (si_accum s) pa /\
  match si_cur s with
  | None => rest = [] /\ pend = pa
  | Some cs => exists before d r1 p1 mid r2, Rcs cs r1 p1 /\ pend = pa ++ p1 /\ incl pa (List.concat before) /\
      (si_peeked s <> None -> r1 = []) /\ peeked_many (si_peeked s) mid r2 /\
      srcs = before ++ (d ++ p1 ++ r1) :: mid ++ parts (si_char s + N_len (r1 ++ r2)) (si_iter s) /\
      left_at (si_iter s) (si_char s + N_len (r1 ++ r2)) /\
      rest = r1 ++ r2 ++ enumerate (si_char s + N_len (r1 ++ r2)) (List.concat (si_iter s))
  end.

Lemma strish_many_no_accum s rest pend : strish_many s rest pend ->
  exists pend', strish_many (StrishIter (si_cur s) (si_char s) (si_iter s) (si_peeked s) None) rest pend'.
Proof.
  intros (pa & Ha & H). destruct (si_cur s) as [cs|] eqn:Hc.
  - destruct H as (before & d & r1 & p1 & mid & r2 & H1 & -> & H2 & H3 & H4 & H5 & H6 & ->). exists p1, []. cbn. split; [reflexivity|].
    exists before, d, r1, p1, mid, r2. repeat split; auto. intros y [].
  - destruct H as [-> ->]. exists [], []. cbn. auto.
Qed.
Lemma go_on (before : list text) d p1 mid rest1 skip r' tail :
  srcs = before ++ (d ++ p1 ++ []) :: mid ++ rest1 -> mid ++ rest1 = skip ++ r' :: tail ->
  srcs = ((before ++ [d ++ p1]) ++ skip) ++ ([] ++ [] ++ r') :: [] ++ tail.
Proof. intros -> ->. rewrite <- !app_assoc, app_nil_r. reflexivity. Qed.
Lemma incl_skip (l : list text) skip pa : incl pa (List.concat l) -> incl pa (List.concat (l ++ skip)).
Proof. intros H. rewrite concat_app. apply incl_appl, H. Qed.

Lemma strish_next_loop_many : forall f s rest pend, (work s < f)%nat -> si_accum s = None ->
  strish_many s rest pend ->
  exists s', strishiter_next_loop f s = (Ok (hd_error rest), s') /\ strish_many s' (tl rest) [].
Proof.
  induction f as [|f IH]; intros s rest pend Hf Ha0 (pa & Ha & H); [lia|].
  cbn [strishiter_next_loop]. unfold work in Hf.
  destruct (si_cur s) as [cs|] eqn:Hc.
  2:{ destruct H as [-> ->]. exists s. split; [reflexivity|]. exists []. rewrite Ha0, Hc.
      cbn. auto. }
  destruct H as (before & d & r1 & p1 & mid & r2 & H1 & -> & H2 & H3 & H4 & H5 & H6 & ->).
  destruct (kc_next KC _ _ _ H1) as (cs' & E & H1'). cbn in E. rewrite E.
  destruct r1 as [|i r1]; cbn [hd_error tl] in *; cbn [app] in *.
  - destruct (next_many H1' H4 H6) as (cur & it' & -> & L & G).
    edestruct (IH (StrishIter cur (si_char s) it' None (si_accum s))) as (s' & Es & Rs);
      [| exact Ha0 | | exists s'; split; [rewrite Es; reflexivity|exact Rs] ].
    + unfold work. cbn. lia.
    + exists []. cbn. rewrite Ha0. split; [reflexivity|].
      destruct cur as [cs2|].
      * destruct G as (skip & r' & Hr & Hl & Em & Ee).
        exists ((before ++ [d ++ p1]) ++ skip), [], r', [], [], []. rewrite !app_nil_r in *.
        split; [exact Hr|]. split; [reflexivity|]. split; [intros y []|]. split; [congruence|]. split; [split; reflexivity|].
        split; [|split; [exact Hl|exact Ee]].
        pose proof (@go_on before d p1 mid _ _ _ _ ltac:(rewrite app_nil_r; exact H5) Em) as G. cbn in G. exact G.
      * auto.
  - destruct (si_peeked s) as [p|] eqn:Hp; [discriminate H3; discriminate|]. destruct H4 as [-> Hm].
    eexists. split; [reflexivity|]. exists []. rewrite Ha0.
    cbn [si_cur si_peeked si_char si_iter si_accum accum_pieced]. split; [reflexivity|].
    exists before, (d ++ p1 ++ [i]), r1, [], mid, []. rewrite !app_nil_r in *. cbn [length] in *.
    replace (si_char s + 1 + N_len r1) with (si_char s + N.of_nat (S (length r1))) by lia.
    split; [exact H1'|]. split; [reflexivity|]. split; [intros y []|]. split; [congruence|]. split; [split; auto|].
    split; [|auto]. rewrite H5 at 1. rewrite <- !app_assoc. reflexivity.
Qed.

Lemma strish_next_accum_loop_many : forall f s rest pend a, (work s < f)%nat ->
  strish_many s rest pend ->
  (exists s' a', strishiter_next_accum_loop x f s a = (Ok (hd_error rest), (s', a')) /\
     view a' = view a /\ strish_many s' (tl rest) (pend ++ firstn 1 rest)) \/
  (F /\ exists s' a', strishiter_next_accum_loop x f s a = (Err AllocExhausted, (s', a')) /\
     view a' = view a /\ pend <> [] /\ strish_many s' rest []).
Proof.
  induction f as [|f IH]; intros s rest pend a Hf (pa & Ha & H); [lia|].
  cbn [strishiter_next_accum_loop]. unfold work in Hf.
  destruct (si_cur s) as [cs|] eqn:Hc.
  2:{ destruct H as [-> ->]. left. exists s, a. split; [reflexivity|]. split; [reflexivity|].
      exists pa. rewrite Hc. cbn. rewrite app_nil_r. auto. }
  destruct H as (before & d & r1 & p1 & mid & r2 & H1 & -> & H2 & H3 & H4 & H5 & H6 & ->).
  destruct (kc_next_accum KC _ _ _ H1) as (cs' & E & H1'). cbn in E. rewrite E.
  destruct r1 as [|i r1]; cbn [hd_error tl] in *; cbn [app] in *.
  - cbn [firstn] in H1'. rewrite app_nil_r in H1'.
    assert (H5' : srcs = before ++ (d ++ p1 ++ []) :: mid ++ parts (si_char s + N_len r2) (si_iter s)) by (rewrite app_nil_r in *; exact H5).
    destruct (accum_chunk_pieced KC XC FR EM JO ND a Ha H1' H5' H2) as
      [(t & cs'' & a' & -> & V & R & H1'')|(HF & cs'' & a' & -> & V & N1 & N2 & R)].
    + destruct (next_many H1'' H4 H6) as (cur & it' & -> & L & G).
      set (rest := r2 ++ enumerate (si_char s + N_len r2) (List.concat (si_iter s))) in *.
      destruct (IH (StrishIter cur (si_char s) it' None (Some t)) rest (pa ++ p1) a')
        as [(s' & a'' & Es & V' & R')|(HF & s' & a'' & Es & V' & N & R')].
      * unfold work. cbn. lia.
      * exists (pa ++ p1). cbn. split; [exact R|].
        destruct cur as [cs2|].
        -- destruct G as (skip & r' & Hr & Hl & Em & Ee).
           exists ((before ++ [d ++ p1]) ++ skip), [], r', [], [], []. rewrite (app_nil_r r'), (app_nil_r (pa ++ p1)).
           split; [exact Hr|]. split; [reflexivity|]. split; [apply incl_skip, incl_before, H2|]. split; [congruence|]. split; [split; reflexivity|].
           split; [|split; [exact Hl|exact Ee]].
           pose proof (@go_on before d p1 mid _ _ _ _ H5' Em) as G. cbn in G. exact G.
        -- auto.
      * left. rewrite Es. exists s', a''. split; [reflexivity|]. split; [congruence|exact R'].
      * right. split; [exact HF|]. rewrite Es. exists s', a''. split; [reflexivity|].
        split; [congruence|auto].
    + right. split; [exact HF|]. do 2 eexists. split; [reflexivity|]. split; [exact V|].
      split. { destruct pa; [congruence|discriminate]. }
      exists []. cbn. split; [reflexivity|]. exists before, (d ++ p1), [], [], mid, r2. cbn [app].
      split; [exact R|]. split; [reflexivity|]. split; [intros y []|]. split; [auto|]. split; [auto|].
      split; [rewrite H5' at 1; rewrite !app_nil_r; reflexivity|auto].
  - destruct (si_peeked s) as [p|] eqn:Hp; [discriminate H3; discriminate|]. destruct H4 as [-> Hm].
    left. do 2 eexists. split; [reflexivity|]. split; [reflexivity|].
    exists pa. split; [exact Ha|]. cbn [si_cur si_peeked si_char si_iter si_accum].
    exists before, d, r1, (p1 ++ [i]), mid, []. rewrite !app_nil_r in *. cbn [length] in *.
    replace (si_char s + 1 + N_len r1) with (si_char s + N.of_nat (S (length r1))) by lia.
    split; [exact H1'|]. split; [rewrite <- app_assoc; reflexivity|]. split; [auto|]. split; [congruence|]. split; [split; auto|].
    split; [|auto]. rewrite H5 at 1. rewrite <- !app_assoc. reflexivity.
Qed.

Lemma strish_many_contract : stream_contract F view (strishiter_stream x) strish_many Rt.
Proof.
  split; cbn [strishiter_stream s_peek s_next s_next_accum s_accum_done].
  - intros s rest pend (pa & Ha & H). unfold strishiter_peek.
    destruct (si_cur s) as [cs|] eqn:Hc.
    2:{ destruct H as [-> ->]. exists s. split; [reflexivity|]. exists pa. rewrite Hc. auto. }
    destruct H as (before & d & r1 & p1 & mid & r2 & H1 & -> & H2 & H3 & H4 & H5 & H6 & ->).
    destruct (kc_peek KC _ _ _ H1) as (cs' & E & H1'). cbn in E. rewrite E.
    destruct r1 as [|i r1]; cbn [hd_error app] in *.
    + destruct (si_peeked s) as [p|] eqn:Hp.
      * destruct H4 as (Hn & H4 & Hm). destruct (kc_peek KC _ _ _ H4) as (p' & E2 & H4'). cbn in E2.
        rewrite E2. eexists. split; [destruct r2; [congruence|reflexivity]|].
        exists pa. split; [exact Ha|]. cbn. exists before, d, [], p1, mid, r2. repeat split; auto.
      * destruct H4 as [-> Hm]. cbn [length app] in *. rewrite N.add_0_r in *.
        destruct (next_of_many H6) as (o & it' & mid' & -> & L & G).
        destruct o as [p|].
        -- destruct G as (r & Hr & Hs & Hl' & Em & Ee & Lt). destruct (kc_peek KC _ _ _ Hs) as (p' & E2 & H2').
           assert (Er : enumerate (si_char s) (List.concat (si_iter s)) = r ++ enumerate (si_char s + N_len r) (List.concat it')).
           { rewrite <- concat_parts, Ee, concat_app, Em. cbn. rewrite concat_parts. reflexivity. }
           cbn in E2. rewrite E2. eexists. split; [rewrite Er; destruct r; [congruence|reflexivity]|].
           exists pa. split; [exact Ha|]. cbn. exists before, d, [], p1, ((mid ++ mid') ++ [r]), r. cbn [app].
           split; [exact H1'|]. split; [reflexivity|]. split; [exact H2|]. split; [auto|].
           split; [split; [exact Hr|]; split; [exact H2'|]; exists (mid ++ mid'); split; [reflexivity|]; rewrite concat_app, Hm, Em; reflexivity|].
           split; [rewrite H5 at 1; rewrite Ee, <- !app_assoc; reflexivity|auto].
        -- destruct G as (G & G1 & G2 & G3). rewrite <- concat_parts, G, concat_app, G1, concat_parts, G3. cbn. eexists. split; [reflexivity|].
           exists pa. split; [exact Ha|]. cbn. exists before, d, [], p1, (mid ++ mid'), []. cbn [app length]. rewrite N.add_0_r, G3.
           split; [exact H1'|]. split; [reflexivity|]. split; [exact H2|]. split; [auto|]. split; [split; [reflexivity|rewrite concat_app, Hm, G1; reflexivity]|].
           split; [rewrite H5 at 1; rewrite G, <- !app_assoc; reflexivity|auto].
    + destruct (si_peeked s) as [p|] eqn:Hp; [discriminate H3; discriminate|]. destruct H4 as [-> Hm].
      eexists. split; [reflexivity|]. exists pa. split; [exact Ha|]. cbn [si_cur si_peeked si_char si_iter].
      exists before, d, (i :: r1), p1, mid, []. cbn [app] in *. repeat split; auto.
  - intros s rest pend H. unfold strishiter_next.
    destruct (strish_many_no_accum H) as (pend' & H'). eapply strish_next_loop_many; [|reflexivity|exact H'].
    apply (work_fuel (StrishIter _ _ _ _ _)).
  - intros s a rest pend H. unfold strishiter_next_accum.
    apply strish_next_accum_loop_many; [apply work_fuel|exact H].
  - intros s a rest pend (pa & Ha & H). unfold strishiter_accum_done. destruct (si_cur s) as [cs|] eqn:Hc.
    + destruct H as (before & d & r1 & p1 & mid & r2 & H1 & -> & H2 & H3 & H4 & H5 & H6 & ->).
      assert (Es : srcs = before ++ ((d ++ p1) ++ [] ++ r1) :: mid ++ parts (si_char s + N_len (r1 ++ r2)) (si_iter s)) by (rewrite <- app_assoc; exact H5).
      destruct (accum_chunk_pieced KC XC FR EM JO ND a Ha H1 H5 H2) as
        [(t & cs'' & a' & -> & V & R & H1'')|(HF & cs'' & a' & -> & V & N1 & N2 & R)].
      * left. do 3 eexists. split; [reflexivity|]. split; [exact V|]. split; [exact R|].
        exists []. cbn. split; [reflexivity|]. exists before, (d ++ p1), r1, [], mid, r2. repeat split; auto. intros y [].
      * right. split; [exact HF|]. do 2 eexists. split; [reflexivity|]. split; [exact V|].
        split. { destruct pa; [congruence|discriminate]. }
        exists []. cbn. split; [reflexivity|]. exists before, (d ++ p1), r1, [], mid, r2. repeat split; auto. intros y [].
    + destruct H as [-> ->]. left. do 3 eexists. split; [reflexivity|]. split; [reflexivity|]. split.
      * apply accum_pieced_text; auto.
      * exists []. cbn. auto.
Qed.

Lemma strish_new_many : exists s, strishiter_new strs = Ok s /\ strish_many s (List.concat srcs) [].
Proof.
  unfold strishiter_new. destruct (@next_of_many strs 0) as (o & it' & mid & -> & _ & G).
  { exists []. auto. }
  cbn. eexists. split; [reflexivity|]. exists []. cbn. split; [reflexivity|]. destruct o as [p|].
  - destruct G as (r & Hr & Hs & Hl & Em & E & _). exists mid, [], r, [], [], []. cbn. rewrite app_nil_r.
    split; [exact Hs|]. split; [reflexivity|]. split; [intros y []|]. split; [congruence|]. split; [split; reflexivity|].
    split; [exact E|]. split; [exact Hl|]. rewrite E, concat_app, Em. cbn. rewrite concat_parts. reflexivity.
  - destruct G as (E & E1 & _ & E3). rewrite E, concat_app, E1, concat_parts, E3. auto.
Qed.
End Strings.
