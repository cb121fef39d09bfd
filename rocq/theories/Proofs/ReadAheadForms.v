(** Nest forms are given back without reading ahead; the streams of characters and of
    strings. *)
From Coq Require Import List NArith Arith Bool Lia.
From Verif.Model Require Import Prelude Parser Iter Utf8 Chunk TextIter PosStrish CharIter StrishIter.
From Verif.Spec Require Import Contract ChunkContract Grammar AbsStream Run Lawful Outcome ReadAhead.
From Verif.Proofs Require Import Wp FuelMono Sim Refine GrammarFacts AbsParse AbsIter Complete StrFacts ChunkFacts TextFacts Transfer
  NextFacts FormFacts PrefixFacts FormRuns ReadAheadFacts.
Import ListNotations.
Set Implicit Arguments.
Local Notation N_len r := (N.of_nat (length r)).

(** Any configuration. *)
Section Any.
Context {S A TT ET Pos CE : Type}.
Context (umax : N) (cc : classifier) (so : stream_ops S A TT Pos) (co : concat_ops A TT)
        (ao : alloc_ops A TT ET) (bnd : bindings A TT ET Pos CE).
Context (Rd : S -> bool -> Prop) (RA : reads_ahead so Rd).
Local Notation nexts := (nexts umax cc so co ao bnd).

Lemma ra_iter_next fuel st o st' b : Rd (ps_strm st) b -> iter_next umax cc so co ao bnd fuel st = (Ok o, st') ->
  Rd (ps_strm st') true /\ match o with Some (inr e) => at_a_character e -> Rd (ps_strm st') false | _ => True end.
Proof.
  intros H. pose proof (proj1 (ra_parser umax cc co ao bnd RA fuel) Base b st H) as G. unfold wp in G.
  unfold iter_next, do_next. destruct (parse_next umax cc so co ao bnd fuel Base st) as [[[d|]|e| |] st1]; cbn in G;
    intros [= <- <-]; auto.
Qed.
Lemma ra_nexts st os st' b : Rd (ps_strm st) b -> nexts st os st' -> exists b', Rd (ps_strm st') b'.
Proof.
  intros H N. revert b H. induction N as [st|f st o st1 os st2 E N IH]; intros b H; [eauto|].
  exact (IH _ (proj1 (ra_iter_next _ _ H E))).
Qed.
Lemma ra_nexts_true st os st' b : Rd (ps_strm st) b -> nexts st os st' -> Rd (ps_strm st') true.
Proof. intros H N. destruct (ra_nexts H N) as (b' & H'). eapply rd_any; eauto. Qed.
Lemma ra_nexts_error st os e st' b : Rd (ps_strm st) b -> nexts st (os ++ [Some (inr e)]) st' ->
  at_a_character e -> Rd (ps_strm st') false.
Proof.
  intros H N He. destruct (nexts_app_inv _ _ N) as (st1 & N1 & N2). destruct (ra_nexts H N1) as (b' & H').
  inversion N2 as [|f ? o st2 ? ? E N3]; subst. inversion N3; subst. exact (proj2 (ra_iter_next _ _ H' E) He).
Qed.
End Any.

Section Forms.
Context {S A TT ET Pos CE W AE AC : Type}.
Context (umax : N) (cc : classifier) (so : stream_ops S A TT Pos) (co : concat_ops A TT)
        (ao : alloc_ops A TT ET) (bnd : bindings A TT ET Pos CE).
Local Notation text := (list (item Pos)).
Context (view : A -> W) (abnd : bindings W text AE Pos AC).
Context (Rs : S -> text -> text -> Prop) (Rt : TT -> text -> Prop)
        (Rx : ET -> AE -> Prop) (Rc : CE -> AC -> Prop).
Local Notation nexts := (nexts umax cc so co ao bnd).
Local Notation anexts := (Run.nexts umax cc (@abs_stream W Pos) abs_concat abs_alloc abnd).
Local Notation strel := (st_rel (Rs_abs Rs) (Ra_view view)).
Local Notation starts_on := (starts_on Rs view).
Context (LW : lawful False view so co ao bnd abnd Rs Rt Rx Rc) (DC : disjoint_classes cc).
Context (Rd : S -> bool -> Prop) (RA : reads_ahead so Rd).
Local Notation p_next := (parse_next umax cc so co ao bnd).
Local Notation p_nested := (parse_nested umax cc so co ao bnd).
Local Notation a_nested := (parse_nested umax cc (@abs_stream W Pos) abs_concat abs_alloc abnd).

Lemma lw_nested fuel st a : strel st a ->
  out_rel False (Rs_abs Rs) (Ra_view view) eq Rc (option_rel (datum_rel Rt Rx)) (p_nested fuel st) (a_nested fuel a).
Proof.
  intros H. exact (proj1 (proj2 (sim_parser umax cc (lw_sim_stream LW) (lw_sim_concat LW) (lw_sim_alloc LW) (lw_bnd LW) fuel)) _ _ H).
Qed.

(** At a nest form whose combiner does not return an error. *)
Lemma ra_nest_step st s rest w o w' b : starts_on st (s ++ rest) w -> (N_len s <= umax)%N ->
  nest cc abnd w s (inl o) w' -> Rd (ps_strm st) b ->
  exists f0, forall f, f0 <= f -> exists st', starts_on st' rest w' /\ Rd (ps_strm st') false /\
    match o with
    | None => p_next (Datatypes.S f) Base st = p_next f Base st'
    | Some _ => exists d, p_next (Datatypes.S f) Base st = (Ok (Some d), st')
    end.
Proof.
  intros (D & Hs & V) Hl Hn Hb. destruct (nest_cons Hn) as (x & s0 & Es & Hx).
  destruct (proj1 (proj2 (grammar_parses umax abnd DC)) _ _ _ _ Hn 0%N rest) as [f0 Hp]; [lia|].
  exists f0. intros f Hf. specialize (Hp f Hf).
  destruct st as [strm dep al]. cbn in D, Hs, V, Hb. subst dep.
  destruct (sc_peek (lw_stream LW) _ _ _ Hs) as (strm1 & Ep & Hs1).
  pose proof (rd_peek RA _ _ Hb Ep) as Hb1.
  assert (U : (0 <? umax)%N = true). { apply N.ltb_lt. subst s. cbn in Hl. lia. }
  assert (Hr : strel (PState strm1 1%N al) (ast (s ++ rest) [] (0 + 1) w)) by (repeat split; auto).
  pose proof (lw_nested f Hr) as G. rewrite Hp in G. unfold out_rel in G. cbn [fst snd] in G.
  pose proof (proj1 (proj2 (ra_parser umax cc co ao bnd RA f)) _ (PState strm1 1%N al) Hb1) as Gd. unfold wp in Gd.
  destruct (p_nested f (PState strm1 1%N al)) as [[d|e| |] st2] eqn:En; cbn [fst snd] in G; try tauto.
  destruct G as (Ho & Hs2 & D2 & V2). cbn in D2, V2. cbn in Gd. destruct st2 as [strm2 dep2 al2].
  cbn in Hs2, D2, V2, Gd. subst dep2. exists (PState strm2 0%N al2).
  split; [repeat split; auto|]. split; [exact Gd|].
  assert (E : p_next (Datatypes.S f) Base (PState strm 0%N al) =
    match d with None => p_next f Base (PState strm2 0%N al2) | Some d => (Ok (Some d), PState strm2 0%N al2) end).
  { subst s. unfold starts in Hx.
    transitivity (bind (incr_depth umax) (fun _ => bind (finally (p_nested f) decr_depth)
      (fun r => match r with None => p_next f Base | Some d => ret (Some d) end)) (PState strm1 0%N al)).
    - transitivity (bind (peek so) (fun o => match o with
        | None => bind get_depth (fun d => if (d =? 0)%N then ret None else raise MissingEndChar)
        | Some it => if is_nest_start cc (it_ch it) then
            bind (incr_depth umax) (fun _ => bind (finally (p_nested f) decr_depth)
              (fun r => match r with None => p_next f Base | Some d => ret (Some d) end))
          else if is_nest_end cc (it_ch it) then
            bind get_depth (fun d => bind (check_end_char cc so d) (fun _ => ret None))
          else bind (parse_text umax cc so co f Base) (fun t => ret (Some (DText t))) end) (PState strm 0%N al));
        [reflexivity|].
      unfold bind at 1, peek. cbn [ps_strm]. rewrite Ep. cbn [hd_error app no_err]. rewrite Hx. reflexivity.
    - unfold bind at 1, incr_depth. cbn [ps_depth ps_strm ps_alloc]. rewrite U.
      unfold bind at 1, finally. cbn [N.add]. rewrite En. unfold bind, decr_depth, ret. cbn.
      destruct d; reflexivity. }
  rewrite E. destruct o as [ad|], d as [d|]; cbn in Ho; try contradiction; eauto.
Qed.

Lemma ra_forms b0 w u ds w1 b1 : forms cc abnd false b0 w u ds w1 b1 ->
  forall st s rest ad w2 b os st', starts_on st (u ++ s ++ rest) w -> (N_len (u ++ s) <= umax)%N ->
  nest cc abnd w1 s (inl (Some ad)) w2 -> Rd (ps_strm st) b ->
  nexts st os st' -> length os = Datatypes.S (length ds) -> Rd (ps_strm st') false /\ starts_on st' rest w2.
Proof.
  remember false as eof eqn:Eeof. intros H. revert Eeof.
  induction H as [eof b0 w|eof w s0 t s' ds w' b' Hn Hr Hf IH|w s0 t x0 Hr0 He0|eof b0 w s0 x w1 s' ds w' b' Hns Hf IH
                 |eof b0 w s0 w1 s' ds w' b' Hns Hf IH]; intros Eeof st s rest ad w2 b os st' Hs Hl Hnest Hb N L;
    try discriminate.
  - destruct os as [|o [|? ?]]; try discriminate. inversion N as [|f ? o' st1 ? ? E N']; subst. inversion N'; subst.
    cbn [app] in *. destruct (ra_nest_step _ Hs Hl Hnest Hb) as (f0 & G).
    destruct (G f0 (le_n _)) as (st1 & Hs1 & Hd1 & d & E1).
    assert (E2 : iter_next umax cc so co ao bnd (Datatypes.S f0) st = (Ok (Some (inl d)), st1)).
    { unfold iter_next, do_next. rewrite E1. reflexivity. }
    destruct (i_next_det _ _ _ _ _ _ _ _ _ E E2) as [X1 X2]; subst. auto.
  - rewrite <- app_assoc in Hs, Hl. rewrite app_length, Nat2N.inj_add in Hl.
    destruct os as [|o os]; [discriminate|]. injection L as L.
    inversion N as [|f ? o' st1 ? ? E N']; subst.
    assert (Hst : text_stop cc Base 0 (s' ++ s ++ rest)).
    { refine (proj1 (forms_prefix (umax:=umax) DC Hf 0%N (s ++ rest) _ _) eq_refl).
      - rewrite app_length, Nat2N.inj_add in Hl. lia.
      - intros _. destruct (nest_cons Hnest) as (z & z' & -> & Hz). destruct (starts_facts DC Hz) as (E1 & E2 & _).
        cbn. unfold delimiter, ends. rewrite E1, E2. split; [reflexivity|discriminate]. }
    assert (Ha : anexts (ast (s0 ++ s' ++ s ++ rest) [] 0 w) [Some (inl (DText t))] (ast (s' ++ s ++ rest) [] 0 w)).
    { eapply nexts_ev; [|constructor]. apply next_item. apply next_base. apply body_text; auto. discriminate. }
    pose proof (proj2 (strel_starts view Rs _ _ _) Hs) as Hsa. destruct (nexts_concrete LW Ha Hsa) as (os' & st2 & N2 & Hf2 & Hs2).
    inversion Hf2 as [|o2 ? ? ? Ho2 Ho2']; subst. inversion Ho2'; subst.
    inversion N2 as [|f' ? ? st3 ? ? E' N3]; subst. inversion N3; subst.
    destruct (i_next_det _ _ _ _ _ _ _ _ _ E E') as [X1 X2]; subst. pose proof (proj1 (strel_starts view Rs _ _ _) Hs2) as Hs3.
    eapply (IH eq_refl); [exact Hs3| |exact Hnest|exact (proj1 (ra_iter_next _ _ _ _ _ RA _ _ _ Hb E))|exact N'|exact L].
    lia.
  - rewrite <- app_assoc in Hs, Hl. rewrite app_length, Nat2N.inj_add in Hl.
    destruct os as [|o os]; [discriminate|]. injection L as L.
    inversion N as [|f ? o' st1 ? ? E N']; subst.
    destruct (ra_nest_step _ Hs ltac:(lia) Hns Hb) as (f0 & G).
    destruct (G f0 (le_n _)) as (st2 & Hs2 & Hd2 & d & E1).
    assert (E2 : iter_next umax cc so co ao bnd (Datatypes.S f0) st = (Ok (Some (inl d)), st2)).
    { unfold iter_next, do_next. rewrite E1. reflexivity. }
    destruct (i_next_det _ _ _ _ _ _ _ _ _ E E2) as [X1 X2]; subst.
    eapply (IH eq_refl); [exact Hs2| |exact Hnest|exact Hd2|exact N'|exact L]. lia.
  - rewrite <- app_assoc in Hs, Hl. rewrite app_length, Nat2N.inj_add in Hl.
    destruct os as [|o os]; [discriminate|].
    inversion N as [|f ? o' st1 ? ? E N']; subst.
    destruct (ra_nest_step _ Hs ltac:(lia) Hns Hb) as (f0 & G).
    destruct (G (f0 + f) ltac:(lia)) as (st2 & Hs2 & Hd2 & E1).
    pose proof (iter_next_fuel umax cc so co ao bnd st (ltac:(lia) : f <= Datatypes.S (f0 + f))) as G2.
    rewrite E in G2. specialize (G2 ltac:(discriminate)).
    assert (E2 : iter_next umax cc so co ao bnd (f0 + f) st2 = (Ok o, st1)).
    { etransitivity; [|exact G2]. unfold iter_next, do_next. rewrite E1. reflexivity. }
    eapply (IH eq_refl); [exact Hs2| |exact Hnest|exact Hd2|econstructor; [exact E2|exact N']|exact L]. lia.
Qed.
End Forms.

(** [CharIterSourceStream]. *)
Definition chariter_ahead (s : chariter) (b : bool) : Prop := b = true \/ pk_peeked (ch_iter s) = None.
Lemma chariter_reads_ahead {TT A} (x : text_ops TT posstrish A) : reads_ahead (chariter_stream x) chariter_ahead.
Proof.
  split; cbn; unfold chariter_ahead; auto.
  - intros s b o s' _. unfold chariter_next, pk_next. destruct (pk_peeked (ch_iter s)); intros [= _ <-]; auto.
  - intros s a b o s' a' _. unfold chariter_next_accum, pk_next.
    destruct (pk_peeked (ch_iter s)) as [o0|]; [destruct o0|destruct (hd_error (pk_iter (ch_iter s)))]; intros [= _ <- _]; auto.
  - intros s a b t s' a' H [= _ <- _]. exact H.
  - intros s a b t s' a' H [=].
Qed.

(** [StrishIterSourceStream] over the strings [strs]. *)
Section Strish.
Context (ok : str -> N -> Prop).
Context {TT A : Type} (x : text_ops TT posstrish A).
Context (strs : list str).
Context (Hok : forall l1 s l2, strs = l1 ++ s :: l2 -> ok s (N_len (List.concat l1))).
Local Notation Rcs := (posstrish_state ok).
Local Notation KC := (posstrish_contract ok).

(** The characters of all strings taken but the last have been given out; with
    [b = false] so has the first of the last. *)
Definition enough (b : bool) (taken : list str) (n : N) : Prop :=
  if b then (N_len (List.concat (removelast taken)) <= n)%N else (N_len (List.concat (removelast taken)) < n)%N.

(** With [taken] the strings taken. *)
Definition taken_ok (s : strishiter TT) (b : bool) (taken : list str) : Prop :=
  strs = taken ++ si_iter s /\ enough b taken (si_char s) /\
  match si_cur s with
  | None => si_iter s = [] /\ si_char s = N_len (List.concat taken)
  | Some cs => exists r1 p1, Rcs cs r1 p1 /\
      match si_peeked s with
      | None => N_len (List.concat taken) = (si_char s + N_len r1)%N
      | Some q => r1 = [] /\ exists r2, r2 <> [] /\ Rcs q r2 [] /\ N_len (List.concat taken) = (si_char s + N_len r2)%N
      end
  end.
Definition strish_ahead (s : strishiter TT) (b : bool) : Prop := exists taken, taken_ok s b taken.

Lemma enough_weaken taken n : enough false taken n -> enough true taken n.
Proof. cbn. lia. Qed.

Lemma next_posstrish_of_ahead : forall it n taken, strs = taken ++ it -> n = N_len (List.concat taken) ->
  exists o it' taken', next_posstrish_of it n = (Ok o, it') /\ strs = taken' ++ it' /\
  (it <> [] -> N_len (List.concat (removelast taken')) = n) /\
  match o with
  | None => it' = [] /\ N_len (List.concat taken') = n /\ (it = [] -> taken' = taken)
  | Some q => it <> [] /\ exists r, r <> [] /\ Rcs q r [] /\ N_len (List.concat taken') = (n + N_len r)%N
  end.
Proof.
  induction it as [|s it IH]; intros n taken E En; cbn [next_posstrish_of].
  { exists None, [], taken. repeat split; auto. congruence. }
  assert (H : posstrish_rep ok (posstrish_new s n) (enumerate n s)).
  { apply posstrish_new_rep. subst n. eapply Hok. exact E. }
  unfold rc_as_str. cbn [posstrish_new px_val rs_str rs_start rs_end].
  pose proof (str_slice_mid [] s []) as Y. rewrite app_nil_r in Y.
  cbn [app byte_len] in Y. rewrite N.add_0_l in Y. rewrite Y.
  assert (E' : strs = (taken ++ [s]) ++ it) by (rewrite <- app_assoc; exact E).
  destruct s as [|c s].
  - cbn [byte_len]. cbn [N.ltb N.compare]. destruct (IH n (taken ++ [[]]) E') as (o & it' & taken' & -> & E1 & E2 & G).
    { rewrite concat_app. cbn. rewrite app_nil_r. exact En. }
    exists o, it', taken'. split; [reflexivity|]. split; [exact E1|].
    assert (E3 : N_len (List.concat (removelast taken')) = n).
    { destruct it as [|s0 it0]; [|apply E2; discriminate]. destruct o as [q|]; [destruct G as [[] _]; reflexivity|].
      destruct G as (_ & _ & G). rewrite (G eq_refl), removelast_last. auto. }
    split; [auto|]. destruct o as [q|].
    + destruct G as (_ & G). split; [discriminate|exact G].
    + destruct G as (G1 & G2 & _). repeat split; auto. discriminate.
  - destruct (N.ltb_spec 0 (byte_len (c :: s))).
    2:{ pose proof (len_utf8_pos c). cbn [byte_len] in *. lia. }
    do 2 eexists. exists (taken ++ [c :: s]). split; [reflexivity|]. split; [exact E'|].
    rewrite removelast_last. split; [auto|]. split; [discriminate|].
    exists (enumerate n (c :: s)). rewrite enumerate_length. split; [discriminate|]. split; [apply (kc_src_strm KC _ _ H)|].
    rewrite concat_app, app_length. cbn [List.concat]. rewrite app_nil_r. lia.
Qed.

(** Going on to the next string from one used up. *)
Lemma next_posstrish_ahead cs p1 taken n it peeked : Rcs cs [] p1 -> strs = taken ++ it -> enough true taken n ->
  match peeked with
  | None => N_len (List.concat taken) = n
  | Some q => exists r2, r2 <> [] /\ Rcs q r2 [] /\ N_len (List.concat taken) = (n + N_len r2)%N
  end ->
  exists cur it', next_posstrish cs n it peeked = Ok (cur, it', None) /\
    forall acc, strish_ahead (StrishIter cur n it' None acc) true.
Proof.
  intros Hcs E En H. unfold next_posstrish.
  destruct (kc_peek KC _ _ _ Hcs) as (cs' & Ep & _). cbn in Ep. rewrite Ep. cbn [fst hd_error].
  destruct peeked as [q|].
  - destruct H as (r2 & Hr & Hq & El). do 2 eexists. split; [reflexivity|]. intros acc. exists taken.
    repeat split; auto. cbn. exists r2, []. auto.
  - destruct (@next_posstrish_of_ahead it n taken E (eq_sym H)) as (o & it' & taken' & -> & E1 & E2 & G).
    cbn. exists o, it'. split; [reflexivity|]. intros acc. exists taken'. split; [exact E1|]. cbn.
    assert (E3 : (N_len (List.concat (removelast taken')) <= n)%N).
    { destruct it as [|s0 l]; [|rewrite E2 by discriminate; lia].
      destruct o as [q|]; [destruct G as [[] _]; reflexivity|]. destruct G as (_ & _ & G). rewrite (G eq_refl). exact En. }
    split; [exact E3|]. destruct o as [q|].
    + destruct G as (_ & r & Hr & Hq & El). exists r, []. auto.
    + destruct G as (G1 & G2 & _). auto.
Qed.

Definition ahead_after (o : option (item charpos)) (s : strishiter TT) : Prop :=
  strish_ahead s match o with Some _ => false | None => true end.

Lemma enough_any b taken n : enough b taken n -> enough true taken n.
Proof. destruct b; auto using enough_weaken. Qed.

Lemma strish_next_loop_ahead : forall f s b o s', strish_ahead s b -> strishiter_next_loop f s = (Ok o, s') -> ahead_after o s'.
Proof.
  induction f as [|f IH]; intros s b o s' (taken & E & En & H); cbn [strishiter_next_loop]; [discriminate|].
  apply enough_any in En. destruct (si_cur s) as [cs|] eqn:Hc.
  2:{ intros [= <- <-]. exists taken. unfold taken_ok. rewrite Hc. auto. }
  destruct H as (r1 & p1 & H1 & H2). destruct (kc_next KC _ _ _ H1) as (cs' & Ek & H1'). cbn in Ek. rewrite Ek.
  destruct r1 as [|i r1]; cbn [hd_error tl] in *.
  - destruct (@next_posstrish_ahead cs' [] taken (si_char s) (si_iter s) (si_peeked s) H1' E En) as (cur & it' & -> & Ha).
    { destruct (si_peeked s); [tauto|]. rewrite H2. cbn. lia. }
    intros Eo. eapply IH; [apply Ha|exact Eo].
  - intros [= <- <-]. exists taken. split; [exact E|]. cbn. cbn in En. split; [lia|]. exists r1, [].
    split; [exact H1'|]. destruct (si_peeked s); [destruct H2; discriminate|]. rewrite H2. cbn [length]. lia.
Qed.

Lemma accum_chunk_left acc cs r p a : Rcs cs r p ->
  forall o cs' a', accum_chunk posstrish_ops x acc cs a = (o, (cs', a')) -> exists c, cs_accum_done posstrish_ops cs = (Ok c, cs') /\ Rcs cs' r [].
Proof.
  intros H o cs' a'. unfold accum_chunk. destruct (kc_accum_done KC _ _ _ H) as (cs1 & c & Ec & _ & H'). rewrite Ec.
  destruct (tx_concat x _ _ a) as [r0 a1]. intros [= _ <- _]. eauto.
Qed.

Lemma strish_next_accum_loop_ahead : forall f s a b r s' a', strish_ahead s b ->
  strishiter_next_accum_loop x f s a = (r, (s', a')) ->
  match r with Ok o => ahead_after o s' | Err _ => strish_ahead s' true | _ => True end.
Proof.
  induction f as [|f IH]; intros s a b r s' a' (taken & E & En & H); cbn [strishiter_next_accum_loop].
  { intros [= <- _ _]. exact I. }
  apply enough_any in En. destruct (si_cur s) as [cs|] eqn:Hc.
  2:{ intros [= <- <- _]. exists taken. unfold taken_ok. rewrite Hc. auto. }
  destruct H as (r1 & p1 & H1 & H2). destruct (kc_next_accum KC _ _ _ H1) as (cs' & Ek & H1'). cbn in Ek. rewrite Ek.
  destruct r1 as [|i r1]; cbn [hd_error tl] in *.
  - destruct (accum_chunk posstrish_ops x (si_accum s) cs' a) as [rr [cs'' a1]] eqn:Ea.
    destruct (accum_chunk_left _ _ H1' Ea) as (c & _ & H1'').
    assert (Hp : match si_peeked s with
      | None => N_len (List.concat taken) = si_char s
      | Some q => exists r2, r2 <> [] /\ Rcs q r2 [] /\ N_len (List.concat taken) = (si_char s + N_len r2)%N end).
    { destruct (si_peeked s); [tauto|]. rewrite H2. cbn. lia. }
    destruct rr as [t|e| |].
    + destruct (@next_posstrish_ahead _ _ _ _ _ _ H1'' E En Hp) as (cur & it' & -> & Ha).
      intros Eo. eapply IH; [apply Ha|exact Eo].
    + intros [= <- <- _]. exists taken. split; [exact E|]. cbn. split; [exact En|]. exists [], []. split; [exact H1''|].
      destruct (si_peeked s); [tauto|]. exact H2.
    + intros [= <- _ _]. exact I.
    + intros [= <- _ _]. exact I.
  - intros [= <- <- _]. exists taken. split; [exact E|]. cbn. cbn in En. split; [lia|]. do 2 eexists.
    split; [exact H1'|]. destruct (si_peeked s); [destruct H2; discriminate|]. rewrite H2. cbn [length]. lia.
Qed.

Lemma strish_peek_ahead s b o s' : strish_ahead s b -> strishiter_peek s = (Ok o, s') -> strish_ahead s' true.
Proof.
  intros (taken & E & En & H). unfold strishiter_peek.
  apply enough_any in En. destruct (si_cur s) as [cs|] eqn:Hc.
  2:{ intros [= <- <-]. exists taken. unfold taken_ok. rewrite Hc. auto. }
  destruct H as (r1 & p1 & H1 & H2). destruct (kc_peek KC _ _ _ H1) as (cs' & Ek & H1'). cbn in Ek. rewrite Ek.
  destruct r1 as [|i r1]; cbn [hd_error] in *.
  - destruct (si_peeked s) as [q|] eqn:Hp.
    + destruct H2 as (_ & r2 & Hr & Hq & El). destruct (kc_peek KC _ _ _ Hq) as (q' & E2 & Hq'). cbn in E2. rewrite E2.
      intros [= _ <-]. exists taken. split; [exact E|]. split; [exact En|]. cbn. exists [], p1. split; [exact H1'|]. eauto 10.
    + cbn in H2. destruct (@next_posstrish_of_ahead (si_iter s) (si_char s) taken E) as (o' & it' & taken' & -> & E1 & E2 & G).
      { lia. }
      assert (E3 : enough true taken' (si_char s)).
      { cbn. destruct (si_iter s) as [|s0 l]; [|rewrite E2 by discriminate; lia].
        destruct o' as [q|]; [destruct G as [[] _]; reflexivity|]. destruct G as (_ & _ & G). rewrite (G eq_refl). exact En. }
      destruct o' as [q|].
      * destruct G as (_ & r & Hr & Hq & El). destruct (kc_peek KC _ _ _ Hq) as (q' & E4 & Hq'). cbn in E4. rewrite E4.
        intros [= _ <-]. exists taken'. split; [exact E1|]. split; [exact E3|]. cbn. exists [], p1. split; [exact H1'|]. eauto 10.
      * destruct G as (G1 & G2 & _). intros [= _ <-]. exists taken'. split; [exact E1|]. split; [exact E3|]. cbn.
        exists [], p1. split; [exact H1'|]. cbn. lia.
  - intros [= _ <-]. exists taken. split; [exact E|]. split; [exact En|]. cbn. exists (i :: r1), p1. split; [exact H1'|].
    destruct (si_peeked s); [destruct H2; discriminate|exact H2].
Qed.

Lemma strish_accum_done_ahead s a b r s' a' : strish_ahead s b -> strishiter_accum_done x s a = (r, (s', a')) -> strish_ahead s' b.
Proof.
  intros (taken & E & En & H). unfold strishiter_accum_done. destruct (si_cur s) as [cs|] eqn:Hc.
  2:{ intros [= _ <- _]. exists taken. split; [exact E|]. split; [exact En|]. exact H. }
  destruct H as (r1 & p1 & H1 & H2). destruct (accum_chunk posstrish_ops x (si_accum s) cs a) as [rr [cs'' a1]] eqn:Ea.
  destruct (accum_chunk_left _ _ H1 Ea) as (c & _ & H1'').
  intros [= _ <- _]. exists taken. split; [exact E|]. split; [exact En|]. cbn. exists r1, []. auto.
Qed.

Lemma strish_reads_ahead : reads_ahead (strishiter_stream x) strish_ahead.
Proof.
  split; cbn [strishiter_stream s_peek s_next s_next_accum s_accum_done].
  - intros s (taken & E & En & H). exists taken. split; [exact E|]. split; [exact (enough_weaken En)|exact H].
  - intros s b o s'. apply strish_peek_ahead.
  - intros s b o s' (taken & E & En & H) Hn. eapply strish_next_loop_ahead; [|unfold strishiter_next in Hn; exact Hn]. exists taken. exact (conj E (conj En H)).
  - intros s a b o s' a' H Hn. exact (strish_next_accum_loop_ahead _ _ H Hn).
  - intros s a b o s' a' H Hn. exact (strish_next_accum_loop_ahead _ _ H Hn).
  - intros s a b t s' a'. apply strish_accum_done_ahead.
  - intros s a b t s' a'. apply strish_accum_done_ahead.
Qed.

Lemma strishiter_new_ahead s : strishiter_new strs = Ok s -> strish_ahead s true.
Proof.
  unfold strishiter_new. destruct (@next_posstrish_of_ahead strs 0%N [] eq_refl eq_refl) as (o & it' & taken & -> & E1 & E2 & G).
  cbn. intros [= <-]. exists taken. split; [exact E1|]. cbn. split.
  - assert (T : strs = [] \/ strs <> []) by (destruct strs; [left; reflexivity|right; discriminate]).
    destruct T as [T|T]; [|rewrite E2 by exact T; lia].
    destruct o as [q|]; [destruct G as [G _]; congruence|]. destruct G as (_ & _ & G). rewrite (G T). cbn. lia.
  - destruct o as [q|]; [|destruct G as (G1 & G2 & _); auto].
    destruct G as (_ & r & Hr & Hq & El). exists r, []. split; [exact Hq|]. lia.
Qed.
End Strish.

(** A text form after others. *)
Section Texts.
Context {S A TT ET Pos CE W AE AC : Type}.
Context (umax : N) (cc : classifier) (so : stream_ops S A TT Pos) (co : concat_ops A TT)
        (ao : alloc_ops A TT ET) (bnd : bindings A TT ET Pos CE).
Local Notation text := (list (item Pos)).
Context (view : A -> W) (abnd : bindings W text AE Pos AC).
Context (Rs : S -> text -> text -> Prop) (Rt : TT -> text -> Prop)
        (Rx : ET -> AE -> Prop) (Rc : CE -> AC -> Prop).
Context (LW : lawful False view so co ao bnd abnd Rs Rt Rx Rc) (DC : disjoint_classes cc).
Local Notation anexts := (Run.nexts umax cc (@abs_stream W Pos) abs_concat abs_alloc abnd).

Lemma text_after_forms st w u ds w1 s t rest os st' : starts_on Rs view st (u ++ s ++ rest) w -> (N_len u <= umax)%N ->
  forms cc abnd false false w u ds w1 false -> s <> [] -> raw cc (delimiter cc) s t ->
  match rest with [] => True | x :: _ => starts cc x end ->
  nexts umax cc so co ao bnd st os st' -> length os = length ds + 1 -> starts_on Rs view st' rest w1.
Proof.
  intros Hs Hl Hf Hn Hr Hst N L.
  assert (Hst' : text_stop cc Base 0 rest).
  { destruct rest as [|z r]; [exact I|]. destruct (starts_facts DC Hst) as (E1 & E2 & _).
    cbn. unfold delimiter, ends. rewrite E1, E2. split; [reflexivity|discriminate]. }
  assert (Ha : anexts (ast (s ++ rest) [] 0 w1) [Some (inl (DText t))] (ast rest [] 0 w1)).
  { eapply nexts_ev; [|constructor]. apply next_item. apply next_base. apply body_text; auto. discriminate. }
  destruct (forms_prefix (umax:=umax) DC Hf 0%N (s ++ rest)) as (_ & _ & G); [lia|discriminate|].
  specialize (G eq_refl _ _ _ Ha). pose proof (proj2 (strel_starts view Rs _ _ _) Hs) as Hsa.
  destruct (nexts_concrete LW G Hsa) as (os' & st2 & N2 & Hf2 & Hs2).
  assert (L2 : length os = length os').
  { rewrite L. assert (X : length os' = length (map (fun d => Some (inl d)) ds ++ [Some (inl (DText (ET:=AE) t))] : list (option (datum text AE + error Pos AC)))).
    { clear -Hf2. induction Hf2; cbn; auto. }
    rewrite X, app_length, map_length. reflexivity. }
  destruct (nexts_det N N2 L2) as [_ ->]. exact (proj1 (strel_starts view Rs _ _ _) Hs2).
Qed.
End Texts.
