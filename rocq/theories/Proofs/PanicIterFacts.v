(** The iterator-backed streams over an iterator that can panic obey their contract. *)
From Coq Require Import List NArith Bool Lia.
From Verif.Model Require Import Prelude Parser Utf8 Chunk TextIter PosStrish CharIter PanicIter.
From Verif.Spec Require Import Contract ChunkContract Interrupt.
From Verif.Proofs Require Import StrFacts ChunkFacts TextFacts.
Import ListNotations.
Set Implicit Arguments.
Local Open Scope N_scope.
Local Notation N_len l := (N.of_nat (length l)).

Lemma values_numbered evs : forall n, values (numbered n evs) = enumerate n (values evs).
Proof.
  induction evs as [|[c|] evs IH]; intros n; cbn [values numbered enumerate]; rewrite ?IH; reflexivity.
Qed.
Lemma values_app X (a b : list (option X)) : values (a ++ b) = values a ++ values b.
Proof. induction a as [|[c|] a IH]; cbn [values app]; rewrite ?IH; reflexivity. Qed.
Lemma values_map X (a : list X) : values (map Some a) = a.
Proof. induction a as [|c a IH]; cbn [values map]; rewrite ?IH; reflexivity. Qed.
Lemma values_pieces evs : forall n, values (pieces n evs) = enumerate n (List.concat (values evs)).
Proof.
  induction evs as [|[s|] evs IH]; intros n; cbn [values pieces List.concat]; rewrite ?IH; auto.
  rewrite values_app, values_map, IH, enumerate_app. reflexivity.
Qed.

Section Chars.
Context (ok : str -> N -> Prop).
Context {TT A W : Type} (view : A -> W) (x : text_ops TT posstrish A).
Context (src : str).
Context (XC : text_contract False view x (posstrish_rep ok)).
Context (Hok : forall pre v post, src = pre ++ v ++ post -> ok v (N.of_nat (length pre))).
Local Notation Rt := (text_items x (posstrish_rep ok)).

Definition pchars_rep (s : pchars) (evs : list (option (item charpos))) (pend : list (item charpos)) : Prop :=
  exists pre pv evc, src = pre ++ pv ++ values evc /\
    evs = numbered (N_len (pre ++ pv)) evc /\ pend = enumerate (N_len pre) pv /\
    match pc_peeked s with
    | None => pc_iter s = evc /\ pc_index s = N_len (pre ++ pv)
    | Some o =>
        match evc with
        | [] => o = None /\ pc_iter s = [] /\ pc_index s = N_len (pre ++ pv)
        | Some c :: r => o = Some (Item c (N_len (pre ++ pv))) /\ pc_iter s = r /\ pc_index s = N_len (pre ++ pv) + 1
        | None :: _ => False
        end
    end /\
    pc_accum s = match pv with [] => None | _ => Some (pv, N_len pre) end.

Lemma pchars_pull_spec s evs pend acc : pchars_rep s evs pend ->
  exists pre pv evc, src = pre ++ pv ++ values evc /\
    evs = numbered (N_len (pre ++ pv)) evc /\ pend = enumerate (N_len pre) pv /\
    pc_accum s = match pv with [] => None | _ => Some (pv, N_len pre) end /\
    pchars_pull s acc = (answer evs, PChars (tl evc)
      (match evc with Some _ :: _ => N_len (pre ++ pv) + 1 | _ => N_len (pre ++ pv) end) None acc).
Proof.
  intros (pre & pv & evc & E & -> & -> & Ei & Ea). exists pre, pv, evc. split; [exact E|]. do 3 (split; [auto|]).
  unfold pchars_pull. destruct (pc_peeked s) as [o|].
  - destruct evc as [|[c|] r]; [| |contradiction]; destruct Ei as (-> & -> & ->); reflexivity.
  - destruct Ei as [-> ->]. destruct evc as [|[c|] r]; reflexivity.
Qed.

Lemma pchars_contract : panic_contract view (pchars_stream x) pchars_rep Rt.
Proof.
  split; cbn [pchars_stream s_peek s_next s_next_accum s_accum_done].
  - intros s evs pend (pre & pv & evc & E & -> & -> & Ei & Ea). unfold pchars_peek.
    destruct (pc_peeked s) as [o|] eqn:Hp.
    + eexists. split.
      * destruct evc as [|[c|] r]; [| |contradiction]; destruct Ei as (-> & _); reflexivity.
      * exists pre, pv, evc. rewrite Hp. repeat split; auto. destruct evc as [|[c|] r]; [| |contradiction]; reflexivity.
    + destruct Ei as [-> ->]. destruct evc as [|[c|] r]; cbn [penum_next numbered answer]; eexists; (split; [reflexivity|]).
      * exists pre, pv, []. cbn. auto 10.
      * exists pre, pv, (Some c :: r). cbn. auto 10.
      * exists pre, pv, r. cbn. auto 10.
  - intros s evs pend H. unfold pchars_next.
    destruct (pchars_pull_spec None H) as (pre & pv & evc & E & -> & -> & Ea & ->).
    eexists. split; [reflexivity|]. destruct evc as [|[c|] r]; cbn [numbered tl].
    + exists src, [], []. rewrite !app_nil_r. cbn. cbn in E. rewrite app_nil_r in E. rewrite E. auto 10.
    + exists ((pre ++ pv) ++ [c]), [], r. cbn [app pc_iter pc_index pc_peeked pc_accum enumerate].
      rewrite app_nil_r. rewrite (app_length (pre ++ pv) [c]). cbn [length].
      replace (N.of_nat (length (pre ++ pv) + 1)) with (N_len (pre ++ pv) + 1) by lia.
      repeat split; auto. rewrite E. cbn [values]. rewrite <- !app_assoc. reflexivity.
    + exists (pre ++ pv), [], r. cbn [app pc_iter pc_index pc_peeked pc_accum enumerate]. rewrite app_nil_r.
      repeat split; auto. rewrite E. cbn [values]. rewrite <- !app_assoc. reflexivity.
  - intros s a evs pend H. unfold pchars_next_accum.
    destruct (pchars_pull_spec (pc_accum s) H) as (pre & pv & evc & E & -> & -> & Ea & ->).
    destruct evc as [|[c|] r]; cbn [answer numbered tl firstn values no_err].
    + do 2 eexists. split; [reflexivity|]. split; [reflexivity|].
      exists pre, pv, []. rewrite (app_nil_r (enumerate _ pv)). cbn. auto 10.
    + do 2 eexists. split; [reflexivity|]. split; [reflexivity|].
      exists pre, (pv ++ [c]), r. cbn [pc_iter pc_index pc_peeked pc_accum it_ch it_pos].
      assert (L : N_len (pre ++ pv ++ [c]) = N_len (pre ++ pv) + 1).
      { rewrite !app_length. cbn [length]. lia. }
      rewrite L, enumerate_app. cbn [length enumerate]. split; [|split; [reflexivity|split; [|split]]].
      * rewrite E, <- !app_assoc. reflexivity.
      * rewrite app_length. do 4 f_equal. lia.
      * auto.
      * rewrite Ea. destruct pv as [|c0 pv]; cbn [app]; [rewrite app_nil_r|]; reflexivity.
    + do 2 eexists. split; [reflexivity|]. split; [reflexivity|].
      exists pre, pv, r. rewrite app_nil_r. cbn. auto 10.
  - intros s a evs pend (pre & pv & evc & E & -> & -> & Ei & Ea). unfold pchars_accum_done.
    do 3 eexists. split; [reflexivity|]. split; [reflexivity|]. split.
    + rewrite Ea. destruct pv as [|c pv].
      * apply (xc_from XC). exists [], [], []. cbn. auto 10.
      * apply (xc_from XC). apply posstrish_new_rep. eapply Hok. exact E.
    + exists (pre ++ pv), [], evc. rewrite app_nil_r. cbn [pc_iter pc_index pc_peeked pc_accum app].
      rewrite <- app_assoc. auto 10.
Qed.
End Chars.

Lemma pchars_new_rep evs : pchars_rep (values evs) (pchars_new evs) (numbered 0 evs) [].
Proof. exists [], [], evs. cbn. auto 10. Qed.

Section Strings.
Context (ok : str -> N -> Prop).
Context {TT A W : Type} (view : A -> W) (x : text_ops TT posstrish A).
Context (strs : list str).
Context (XC : text_contract False view x (posstrish_rep ok)).
Context (Hok : forall l1 s l2, strs = l1 ++ s :: l2 -> ok s (N_len (List.concat l1))).
Local Notation Rc := (posstrish_rep ok).
Local Notation Rcs := (posstrish_state ok).
Local Notation Rt := (text_items x Rc).
Local Notation KC := (posstrish_contract ok).
Local Notation left it n := (strs_left strs (values it) n).

Definition pstrs_rep (s : pstrs TT) (evs : list (option (item charpos))) (pend : list (item charpos)) : Prop :=
  exists pa, accum_items Rc x (pt_accum s) pa /\
  match pt_cur s with
  | None => evs = [] /\ pend = pa
  | Some cs => exists r1 p1 r2, Rcs cs r1 p1 /\ pend = pa ++ p1 /\
      match pt_peeked s with
      | None => r2 = []
      | Some p => r1 = [] /\ r2 <> [] /\ Rcs p r2 []
      end /\
      left (pt_iter s) (pt_char s + N_len (r1 ++ r2)) /\
      evs = map Some (r1 ++ r2) ++ pieces (pt_char s + N_len (r1 ++ r2)) (pt_iter s)
  end.

Lemma pnext_posstrish_of_spec : forall it n, left it n ->
  exists o it', pnext_posstrish_of it n = (o, it') /\ (length it' <= length it)%nat /\
  match o with
  | Ok None => pieces n it = [] /\ it' = []
  | Ok (Some p) => exists r, r <> [] /\ Rcs p r [] /\ left it' (n + N_len r) /\
      pieces n it = map Some r ++ pieces (n + N_len r) it' /\ (length it' < length it)%nat
  | Panic => left it' n /\ pieces n it = None :: pieces n it'
  | _ => False
  end.
Proof.
  induction it as [|[s|] it IH]; intros n (l1 & E & En); cbn [pnext_posstrish_of].
  { exists (Ok None), []. cbn. auto. }
  2:{ exists Panic, it. split; [reflexivity|]. split; [cbn; lia|]. cbn. split; auto. exists l1. auto. }
  cbn [values] in E.
  assert (H : Rc (posstrish_new s n) (enumerate n s)).
  { apply posstrish_new_rep. subst n. eapply Hok. exact E. }
  unfold rc_as_str. cbn [posstrish_new px_val rs_str rs_start rs_end].
  pose proof (str_slice_mid [] s []) as Y. rewrite app_nil_r in Y.
  cbn [app byte_len] in Y. rewrite N.add_0_l in Y. rewrite Y.
  destruct s as [|c s].
  - cbn. destruct (IH n) as (o & it' & -> & L & G).
    { exists (l1 ++ [[]]). rewrite <- app_assoc. split; [exact E|]. rewrite concat_app. cbn.
      rewrite app_nil_r. exact En. }
    exists o, it'. split; [reflexivity|]. split; [lia|]. rewrite N.add_0_r. destruct o as [[p|]|e| |]; auto.
    destruct G as (r & ? & ? & ? & ? & ?). exists r. repeat split; auto; lia.
  - destruct (N.ltb_spec 0 (byte_len (c :: s))).
    2:{ pose proof (len_utf8_pos c). cbn [byte_len] in *. lia. }
    do 2 eexists. split; [reflexivity|]. split; [cbn; lia|].
    exists (enumerate n (c :: s)). rewrite enumerate_length. repeat split.
    + discriminate.
    + apply (kc_src_strm KC _ _ H).
    + exists (l1 ++ [c :: s]). rewrite <- app_assoc. split; [exact E|].
      rewrite concat_app, app_length, En. cbn. rewrite app_nil_r. lia.
    + cbn. lia.
Qed.

(** Going on to the next string. *)
Lemma pnext_posstrish_spec cs p1 n it peeked r2 (acc : option TT) : Rcs cs [] p1 ->
  match peeked with None => r2 = [] | Some p => r2 <> [] /\ Rcs p r2 [] end ->
  left it (n + N_len r2) ->
  exists o cur it', pnext_posstrish cs n it peeked acc = (o, PStrs cur n it' None acc) /\
  match o with
  | Ok _ =>
    (match peeked with None => 0 | Some _ => 1 end + length it >=
     match cur with None => 0 | Some _ => 1 end + length it')%nat /\
    match cur with
    | None => map Some r2 ++ pieces (n + N_len r2) it = []
    | Some cs' => exists r', Rcs cs' r' [] /\ left it' (n + N_len r') /\
         map Some r2 ++ pieces (n + N_len r2) it = map Some r' ++ pieces (n + N_len r') it'
    end
  | Panic => exists cs', cur = Some cs' /\ Rcs cs' [] p1 /\ left it' n /\ r2 = [] /\
      pieces (n + N_len r2) it = None :: pieces n it'
  | _ => False
  end.
Proof.
  intros H Hp Hl. unfold pnext_posstrish. destruct (kc_peek KC _ _ _ H) as (cs' & E & Hcs). cbn in E.
  rewrite E. cbn [hd_error]. destruct peeked as [p|].
  - destruct Hp as [Hn Hp]. do 3 eexists. split; [reflexivity|]. split; [lia|]. eauto.
  - subst r2. cbn [length N.of_nat map app] in *. rewrite N.add_0_r in *.
    destruct (pnext_posstrish_of_spec _ Hl) as (o & it' & -> & L & G). destruct o as [[p|]|e| |]; try contradiction.
    + do 3 eexists. split; [reflexivity|]. cbn. destruct G as (r & Hr & Hs & Hl' & Ee & Lt). split; [lia|]. exists r. auto.
    + do 3 eexists. split; [reflexivity|]. cbn. destruct G as (G & _). rewrite G. split; [lia|reflexivity].
    + do 3 eexists. split; [reflexivity|]. cbn. destruct G as (G1 & G2). exists cs'. auto.
Qed.

Lemma pstrs_rep_no_accum s evs pend : pstrs_rep s evs pend ->
  exists pend', pstrs_rep (PStrs (pt_cur s) (pt_char s) (pt_iter s) (pt_peeked s) None) evs pend'.
Proof.
  intros (pa & Ha & H). destruct (pt_cur s) as [cs|] eqn:Hc.
  - destruct H as (r1 & p1 & r2 & H1 & -> & H2 & H3 & ->). exists p1, []. cbn. split; [reflexivity|].
    exists r1, p1, r2. auto 10.
  - destruct H as [-> ->]. exists [], []. cbn. auto.
Qed.

Definition pwork (s : pstrs TT) : nat :=
  (match pt_cur s with None => 0 | Some _ => 1 end +
   match pt_peeked s with None => 0 | Some _ => 1 end + length (pt_iter s))%nat.

Lemma pstrs_next_loop_spec : forall f s evs pend, (pwork s < f)%nat -> pt_accum s = None ->
  pstrs_rep s evs pend ->
  exists s', pstrs_next_loop f s = (answer evs, s') /\ pstrs_rep s' (tl evs) [].
Proof.
  induction f as [|f IH]; intros s evs pend Hf Ha0 (pa & Ha & H); [lia|].
  cbn [pstrs_next_loop]. unfold pwork in Hf.
  destruct (pt_cur s) as [cs|] eqn:Hc.
  2:{ destruct H as [-> ->]. exists s. split; [reflexivity|]. exists []. rewrite Ha0, Hc.
      cbn. auto. }
  destruct H as (r1 & p1 & r2 & H1 & -> & H2 & H3 & ->).
  destruct (kc_next KC _ _ _ H1) as (cs' & E & H1'). cbn in E. rewrite E.
  destruct r1 as [|i r1]; cbn [hd_error tl app] in *.
  - assert (H2' : match pt_peeked s with None => r2 = [] | Some p => r2 <> [] /\ Rcs p r2 [] end).
    { destruct (pt_peeked s); tauto. }
    destruct (pnext_posstrish_spec (pt_char s) _ _ _ (pt_accum s) H1' H2' H3) as (o & cur & it' & -> & G).
    destruct o as [u|e| |]; try contradiction.
    + destruct G as (L & G). eapply (IH (PStrs cur (pt_char s) it' None (pt_accum s))); [|exact Ha0|].
      * unfold pwork. cbn. lia.
      * exists []. cbn. rewrite Ha0. split; [reflexivity|].
        destruct cur as [cs2|].
        -- destruct G as (r' & Hr & Hl & Ee). exists r', [], []. rewrite !app_nil_r. auto.
        -- auto.
    + destruct G as (cs2 & -> & G1 & G2 & -> & ->). eexists. split; [reflexivity|].
      exists []. rewrite Ha0. split; [reflexivity|]. cbn [pt_cur pt_peeked pt_iter pt_char].
      exists [], [], []. cbn. rewrite N.add_0_r. auto.
  - destruct (pt_peeked s) as [p|] eqn:Hp; [destruct H2; discriminate|]. subst r2.
    eexists. split; [reflexivity|]. exists []. rewrite Ha0.
    cbn [pt_cur pt_peeked pt_char pt_iter pt_accum accum_items]. split; [reflexivity|].
    exists r1, [], []. cbn [app map] in *. rewrite app_nil_r in *. cbn [length tl] in *.
    replace (pt_char s + 1 + N_len r1) with (pt_char s + N.of_nat (S (length r1))) by lia. auto.
Qed.

Lemma pstrs_next_accum_loop_spec : forall f s evs pend a, (pwork s < f)%nat ->
  pstrs_rep s evs pend ->
  exists s' a', pstrs_next_accum_loop x f s a = (answer evs, (s', a')) /\
     view a' = view a /\ pstrs_rep s' (tl evs) (pend ++ values (firstn 1 evs)).
Proof.
  induction f as [|f IH]; intros s evs pend a Hf (pa & Ha & H); [lia|].
  cbn [pstrs_next_accum_loop]. unfold pwork in Hf.
  destruct (pt_cur s) as [cs|] eqn:Hc.
  2:{ destruct H as [-> ->]. exists s, a. split; [reflexivity|]. split; [reflexivity|].
      exists pa. rewrite Hc. cbn. rewrite app_nil_r. auto. }
  destruct H as (r1 & p1 & r2 & H1 & -> & H2 & H3 & ->).
  destruct (kc_next_accum KC _ _ _ H1) as (cs' & E & H1'). cbn in E. rewrite E.
  destruct r1 as [|i r1]; cbn [hd_error tl app] in *.
  - cbn [firstn] in H1'. rewrite app_nil_r in H1'.
    destruct (accum_chunk_spec KC XC _ _ _ _ _ a Ha H1') as
      [(t & cs'' & a' & -> & V & R & H1'')|(HF & _)]; [|contradiction].
    assert (H2' : match pt_peeked s with None => r2 = [] | Some p => r2 <> [] /\ Rcs p r2 [] end).
    { destruct (pt_peeked s); tauto. }
    destruct (pnext_posstrish_spec (pt_char s) _ _ _ (Some t) H1'' H2' H3) as (o & cur & it' & -> & G).
    destruct o as [u|e| |]; try contradiction.
    + destruct G as (L & G).
      set (evs := map Some r2 ++ pieces (pt_char s + N_len r2) (pt_iter s)) in *.
      destruct (IH (PStrs cur (pt_char s) it' None (Some t)) evs (pa ++ p1) a') as (s' & a'' & Es & V' & R').
      * unfold pwork. cbn. lia.
      * exists (pa ++ p1). cbn. split; [exact R|].
        destruct cur as [cs2|].
        -- destruct G as (r' & Hr & Hl & Ee). exists r', [], []. rewrite !app_nil_r. auto.
        -- auto.
      * exists s', a''. split; [exact Es|]. split; [congruence|exact R'].
    + destruct G as (cs2 & -> & G1 & G2 & -> & ->). do 2 eexists. split; [reflexivity|]. split; [exact V|].
      exists (pa ++ p1). split; [exact R|]. cbn [pt_cur pt_peeked pt_iter pt_char].
      exists [], [], []. cbn. rewrite N.add_0_r, !app_nil_r. auto.
  - destruct (pt_peeked s) as [p|] eqn:Hp; [destruct H2; discriminate|]. subst r2.
    do 2 eexists. split; [reflexivity|]. split; [reflexivity|].
    exists pa. split; [exact Ha|]. cbn [pt_cur pt_peeked pt_char pt_iter pt_accum].
    exists r1, (p1 ++ [i]), []. cbn [app map tl firstn values] in *. rewrite app_nil_r in *. cbn [length] in *.
    rewrite <- app_assoc.
    replace (pt_char s + 1 + N_len r1) with (pt_char s + N.of_nat (S (length r1))) by lia. auto 10.
Qed.

Lemma pwork_fuel (s : pstrs TT) : (pwork s < pstrs_fuel s)%nat.
Proof. unfold pwork, pstrs_fuel. destruct (pt_cur s), (pt_peeked s); lia. Qed.

Lemma pstrs_contract : panic_contract view (pstrs_stream x) pstrs_rep Rt.
Proof.
  split; cbn [pstrs_stream s_peek s_next s_next_accum s_accum_done].
  - intros s evs pend (pa & Ha & H). unfold pstrs_peek.
    destruct (pt_cur s) as [cs|] eqn:Hc.
    2:{ destruct H as [-> ->]. exists s. split; [reflexivity|]. exists pa. rewrite Hc. auto. }
    destruct H as (r1 & p1 & r2 & H1 & -> & H2 & H3 & ->).
    destruct (kc_peek KC _ _ _ H1) as (cs' & E & H1'). cbn in E. rewrite E.
    destruct r1 as [|i r1]; cbn [hd_error app] in *.
    + destruct (pt_peeked s) as [p|] eqn:Hp.
      * destruct H2 as (_ & Hn & H2). destruct (kc_peek KC _ _ _ H2) as (p' & E2 & H2'). cbn in E2.
        rewrite E2. destruct r2 as [|i r2]; [congruence|]. eexists. split; [reflexivity|].
        exists pa. split; [exact Ha|]. cbn [pt_cur pt_peeked pt_iter pt_char]. exists [], p1, (i :: r2). auto 10.
      * subst r2. cbn [length app map N.of_nat] in *. rewrite N.add_0_r in *.
        destruct (pnext_posstrish_of_spec _ H3) as (o & it' & -> & L & G).
        destruct o as [[p|]|e| |]; try contradiction.
        -- destruct G as (r & Hr & Hs & Hl' & Ee & Lt). destruct (kc_peek KC _ _ _ Hs) as (p' & E2 & H2').
           cbn in E2. rewrite E2, Ee. destruct r as [|i r]; [congruence|]. eexists. split; [reflexivity|].
           exists pa. split; [exact Ha|]. cbn [pt_cur pt_peeked pt_iter pt_char]. exists [], p1, (i :: r). auto 10.
        -- destruct G as (G & ->). rewrite G. cbn. eexists. split; [reflexivity|].
           exists pa. split; [exact Ha|]. cbn. exists [], p1, []. cbn. rewrite N.add_0_r.
           repeat split; auto. destruct H3 as (l1 & Hl & Hn).
           assert (Z : forall l n, pieces n l = [] -> List.concat (values l) = []).
           { clear. induction l as [|[s|] l IH]; intros n; cbn; auto; [|discriminate].
             intros Z. apply app_eq_nil in Z. destruct s; [apply (IH _ (proj2 Z))|destruct Z; discriminate]. }
           exists strs. split; [symmetry; apply app_nil_r|].
           rewrite Hl, concat_app, (Z _ _ G), app_nil_r. exact Hn.
        -- destruct G as (G1 & G2). rewrite G2. eexists. split; [reflexivity|].
           exists pa. split; [exact Ha|]. cbn [pt_cur pt_peeked pt_iter pt_char]. exists [], p1, [].
           cbn. rewrite N.add_0_r. auto 10.
    + destruct (pt_peeked s) as [p|] eqn:Hp; [destruct H2; discriminate|]. subst r2.
      eexists. split; [reflexivity|]. exists pa. split; [exact Ha|]. cbn [pt_cur pt_peeked pt_char pt_iter].
      exists (i :: r1), p1, []. cbn [app map] in *. rewrite app_nil_r in *. auto 10.
  - intros s evs pend H. unfold pstrs_next.
    destruct (pstrs_rep_no_accum H) as (pend' & H'). eapply pstrs_next_loop_spec; [|reflexivity|exact H'].
    apply (pwork_fuel (PStrs _ _ _ _ _)).
  - intros s a evs pend H. unfold pstrs_next_accum.
    apply pstrs_next_accum_loop_spec; [apply pwork_fuel|exact H].
  - intros s a evs pend (pa & Ha & H). unfold pstrs_accum_done. destruct (pt_cur s) as [cs|] eqn:Hc.
    + destruct H as (r1 & p1 & r2 & H1 & -> & H2 & H3 & ->).
      destruct (accum_chunk_spec KC XC _ _ _ _ _ a Ha H1) as
        [(t & cs'' & a' & -> & V & R & H1'')|(HF & _)]; [|contradiction].
      do 3 eexists. split; [reflexivity|]. split; [exact V|]. split; [exact R|].
      exists []. cbn. split; [reflexivity|]. exists r1, [], r2. auto 10.
    + destruct H as [-> ->]. do 3 eexists. split; [reflexivity|]. split; [reflexivity|]. split.
      * destruct (pt_accum s); cbn in Ha; [exact Ha|]. subst. exact (tc_empty (xc_concat XC)).
      * exists []. cbn. auto.
Qed.
End Strings.

Lemma pstrs_new_rep (ok : str -> N -> Prop) TT A (x : text_ops TT posstrish A) (it : list (option str)) (s : pstrs TT) :
  (forall l1 v l2, values it = l1 ++ v :: l2 -> ok v (N_len (List.concat l1))) ->
  pstrs_new it = Ok s -> pstrs_rep ok x (values it) s (pieces 0 it) [].
Proof.
  intros Hok. unfold pstrs_new. destruct (@pnext_posstrish_of_spec ok (values it) Hok it 0) as (o & it' & -> & _ & G).
  { exists []. auto. }
  destruct o as [o|e| |]; cbn; try discriminate. intros E. injection E as <-.
  exists []. cbn. split; [reflexivity|]. destruct o as [p|].
  - destruct G as (r & Hr & Hs & Hl & E & _). exists r, [], []. rewrite !app_nil_r. auto.
  - destruct G as (-> & _). auto.
Qed.
