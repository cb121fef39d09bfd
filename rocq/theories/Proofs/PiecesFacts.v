(** Chunks of texts are parts of the source. *)
From Coq Require Import List Arith NArith ZArith Bool Lia.
From Verif.Model Require Import Prelude Parser Iter Chunk.
From Verif.Spec Require Import Contract ChunkContract TextWork Pieces.
From Verif.Proofs Require Import Amortize TextFacts.
Import ListNotations.
Set Implicit Arguments.

Lemma part_refl_sub X (src l : list X) p q : src = p ++ l ++ q -> part_of src l.
Proof. intros ->. exists p, q. reflexivity. Qed.
Lemma nodup_split X (y : X) : forall a b a' b', NoDup (a ++ y :: b) -> a ++ y :: b = a' ++ y :: b' -> a = a'.
Proof.
  induction a as [|u a IH]; intros b a' b' N E.
  - destruct a' as [|v a']; [reflexivity|]. cbn in *. injection E as <- E. inversion N as [|? ? K _]; subst.
    destruct K. apply in_or_app. right. left. reflexivity.
  - destruct a' as [|v a']; cbn in *.
    + injection E as -> E. inversion N as [|? ? K _]; subst. destruct K. apply in_or_app. right. left. reflexivity.
    + injection E as -> E. inversion N; subst. f_equal. eauto.
Qed.
Lemma pieces_nonempty X (src : list X) ls : pieces src ls -> List.concat ls <> [] -> Forall (fun l => l <> []) ls.
Proof.
  intros [P1 P2] Hc. apply Forall_forall. intros l Hl ->. apply in_split in Hl. destruct Hl as (a & b & ->).
  destruct b as [|l2 b].
  - destruct a as [|l0 a] using rev_ind; [cbn in Hc; congruence|].
    apply (P2 a l0 [] []); [rewrite <- app_assoc; reflexivity|]. rewrite app_nil_r.
    rewrite <- app_assoc in P1. apply Forall_app in P1. destruct P1 as [_ P1]. inversion P1; assumption.
  - apply (P2 a [] l2 b eq_refl). cbn. apply Forall_app in P1. destruct P1 as [_ P1]. inversion P1 as [|? ? _ P3]; inversion P3; assumption.
Qed.
(** A dropped item separates what comes before from what comes after. *)
Lemma pieces_snoc X (src q : list X) e pend rest ls : NoDup src -> src = q ++ e :: pend ++ rest -> pend <> [] ->
  pieces src ls -> List.concat ls <> [] -> incl (List.concat ls) q -> pieces src (ls ++ [pend]).
Proof.
  intros N E Hp P Hc Hq. pose proof (pieces_nonempty P Hc) as Ne. destruct P as [P1 P2]. split.
  - apply Forall_app. split; [exact P1|]. constructor; [|constructor]. exists (q ++ [e]), rest. rewrite <- app_assoc. exact E.
  - intros a l1 l2 b Es. destruct b as [|l3 b] using rev_ind.
    + assert (Es' : ls ++ [pend] = (a ++ [l1]) ++ [l2]) by (rewrite <- app_assoc; exact Es).
      apply app_inj_tail in Es'. destruct Es' as [-> <-]. intros (u & v & K).
      apply Forall_app in Ne. destruct Ne as [_ Ne]. inversion Ne as [|? ? Ne1 _]; subst x l.
      destruct (exists_last Ne1) as (l1' & z & ->). destruct pend as [|y pend]; [congruence|].
      assert (G : q ++ [e] = u ++ l1' ++ [z]).
      { apply (@nodup_split X y _ (pend ++ rest) _ (pend ++ v)).
        - rewrite <- app_assoc. cbn. cbn in E. rewrite <- E. exact N.
        - rewrite <- !app_assoc in *. cbn in *. congruence. }
      rewrite app_assoc in G. apply app_inj_tail in G. destruct G as [_ <-].
      assert (In e q).
      { apply Hq. rewrite concat_app. apply in_or_app. right. cbn. rewrite app_nil_r. apply in_or_app. right. left. reflexivity. }
      rewrite E in N. apply NoDup_remove_2 in N. apply N. apply in_or_app. auto.
    + clear IHb. assert (Es' : ls ++ [pend] = (a ++ l1 :: l2 :: b) ++ [l3]) by (rewrite <- app_assoc; exact Es).
      apply app_inj_tail in Es'. destruct Es' as [-> _]. exact (P2 _ _ _ _ eq_refl).
Qed.
Lemma pieces_one X (src l : list X) : part_of src l -> pieces src [l].
Proof.
  intros H. split; [repeat constructor; exact H|]. intros a l1 l2 b E. apply (f_equal (@length _)) in E.
  rewrite app_length in E. cbn in E. lia.
Qed.

(** The pieces are determined by the items. *)
Lemma app_split X : forall a b c d : list X, a ++ b = c ++ d -> (exists m, a = c ++ m /\ d = m ++ b) \/ (exists m, c = a ++ m /\ b = m ++ d).
Proof.
  induction a as [|x a IH]; intros b c d E; cbn in E.
  - right. exists c. auto.
  - destruct c as [|y c]; cbn in E; [left; exists (x :: a); auto|]. injection E as -> E.
    destruct (IH _ _ _ E) as [(m & -> & ->)|(m & -> & ->)]; [left|right]; exists m; auto.
Qed.
Lemma part_join X (src l m m' : list X) : NoDup src -> m <> [] -> part_of src (l ++ m) -> part_of src (m ++ m') -> part_of src (l ++ m ++ m').
Proof.
  intros N Hm (p & q & E) (p' & q' & E'). destruct m as [|y m]; [congruence|]. cbn in *.
  assert (G : p ++ l = p').
  { apply (@nodup_split X y _ (m ++ q) _ (m ++ m' ++ q')).
    - rewrite <- app_assoc. cbn. rewrite <- app_assoc in E. cbn in E. rewrite <- E. exact N.
    - rewrite <- !app_assoc in *. cbn in *. congruence. }
  exists p, q'. rewrite E', <- G, <- !app_assoc. cbn. rewrite <- !app_assoc. reflexivity.
Qed.
Lemma pieces_tail X (src : list X) l ls : pieces src (l :: ls) -> pieces src ls.
Proof.
  intros [P1 P2]. inversion P1; subst. split; [assumption|]. intros a l1 l2 b ->. exact (P2 (l :: a) l1 l2 b eq_refl).
Qed.
Lemma pieces_shorter X (src l l1 r1 : list X) ls : NoDup src -> pieces src (l :: ls) -> part_of src l1 ->
  Forall (fun l => l <> []) (l :: ls) -> l ++ List.concat ls = l1 ++ r1 -> exists m, l = l1 ++ m.
Proof.
  intros N P Q Ne E. destruct (app_split _ _ _ _ E) as [(m & -> & _)|(m & -> & Ec)]; [eauto|].
  destruct ls as [|l2 ls].
  { cbn in Ec. symmetry in Ec. apply app_eq_nil in Ec. destruct Ec as [-> _]. exists []. rewrite !app_nil_r. reflexivity. }
  destruct m as [|y m]; [exists []; rewrite !app_nil_r; reflexivity|]. destruct (proj2 P [] l l2 ls eq_refl).
  cbn in Ec. destruct (app_split _ _ (y :: m) r1 Ec) as [(m2 & -> & _)|(m2 & K & _)].
  - apply part_join; auto; [discriminate|]. destruct P as [P1 _]. inversion P1 as [|? ? _ P3]. inversion P3. assumption.
  - rewrite K in Q. destruct Q as (p & q & ->). exists p, (m2 ++ q). rewrite <- !app_assoc. reflexivity.
Qed.
Lemma pieces_unique X (src : list X) : NoDup src -> forall ls ls', Forall (fun l => l <> []) ls -> Forall (fun l => l <> []) ls' ->
  pieces src ls -> pieces src ls' -> List.concat ls = List.concat ls' -> ls = ls'.
Proof.
  intros N. induction ls as [|l ls IH]; intros ls' Ne Ne' P P' E.
  - destruct ls' as [|l' ls']; [reflexivity|]. cbn in E. symmetry in E. apply app_eq_nil in E. destruct E as [-> _]. inversion Ne'. congruence.
  - destruct ls' as [|l' ls']; [cbn in E; apply app_eq_nil in E; destruct E as [-> _]; inversion Ne; congruence|]. cbn in E.
    assert (K : part_of src l /\ part_of src l') by (split; [destruct P as [P _]; inversion P|destruct P' as [P' _]; inversion P']; assumption).
    destruct K as [K K']. destruct (pieces_shorter _ N P K' Ne E) as [m ->].
    destruct (pieces_shorter _ N P' K Ne' (eq_sym E)) as [m' Em]. rewrite <- app_assoc in Em.
    rewrite <- (app_nil_r l') in Em at 1. apply app_inv_head in Em. symmetry in Em. apply app_eq_nil in Em. destruct Em as [-> _].
    rewrite app_nil_r in *. apply app_inv_head in E. f_equal. inversion Ne; inversion Ne'; subst.
    apply IH; auto; eapply pieces_tail; eauto.
Qed.

(** No way of cutting the items into parts of the source has fewer parts. *)
Lemma pieces_cut X (src l m : list X) ls : NoDup src -> m <> [] -> pieces src ((l ++ m) :: ls) -> pieces src (m :: ls).
Proof.
  intros N Hm P. pose proof P as [P1 P2]. inversion P1 as [|? ? (p & q & Q) P3]; subst. split.
  - constructor; [|exact P3]. exists (p ++ l), q. rewrite <- !app_assoc. reflexivity.
  - intros a l1 l2 b E. destruct a as [|a0 a]; cbn in E; injection E as <- ->.
    + intros K. apply (P2 [] (l ++ m) l2 b eq_refl). rewrite <- (app_assoc l m l2). apply part_join; auto. exists p, q. reflexivity.
    + exact (P2 ((l ++ m) :: a) l1 l2 b eq_refl).
Qed.
Lemma pieces_fewest X (src : list X) : NoDup src -> forall ls' ls, Forall (fun l => l <> []) ls ->
  pieces src ls -> Forall (part_of src) ls' -> List.concat ls = List.concat ls' -> length ls <= length ls'.
Proof.
  intros N. induction ls' as [|l' ls' IH]; intros ls Ne P Q E.
  - destruct ls as [|l ls]; [auto|]. cbn in E. apply app_eq_nil in E. destruct E as [-> _]. inversion Ne. congruence.
  - destruct ls as [|l ls]; [cbn; lia|]. inversion Q; subst. inversion Ne; subst. cbn in E.
    destruct (pieces_shorter _ N P H1 Ne E) as [m ->]. rewrite <- app_assoc in E. apply app_inv_head in E.
    cbn [length]. destruct m as [|y m].
    + apply le_n_S. apply IH; auto. eapply pieces_tail; eauto.
    + apply (IH ((y :: m) :: ls)) in H2; [cbn in H2; lia| |eapply pieces_cut; eauto; discriminate|exact E].
      constructor; [discriminate|assumption].
Qed.

Section Text.
Context {S A TT C ET Pos CE W : Type} (umax : N) (cc : classifier) (so : stream_ops S A TT Pos) (x : text_ops TT C A)
        (ao : alloc_ops A TT ET) (bnd : bindings A TT ET Pos CE).
Local Notation co := (text_concat_ops x).
Local Notation text := (list (item Pos)).
Context (F : Prop) (view : A -> W) (Rs : S -> text -> text -> Prop) (Rc : C -> text -> Prop).
Context (SC : stream_contract F view so Rs (text_items x Rc)).
(** Accumulated texts have one chunk or none. *)
Context (pok : S -> Prop).
Context (O_peek : forall s v s', pok s -> s_peek so s = (Ok v, s') -> pok s').
Context (O_next : forall s v s', pok s -> s_next so s = (Ok v, s') -> pok s').
Context (O_next_accum : forall s a v s' a', pok s -> s_next_accum so s a = (Ok v, (s', a')) -> pok s').
Context (O_accum_done : forall s a t s' a', pok s -> s_accum_done so s a = (Ok t, (s', a')) ->
  pok s' /\ exists cu, tx_chunks x t = seq_of cu /\ length cu <= 1).
Context (O_empty : exists cs, tx_chunks x (tx_empty x) = seq_of cs /\ length cs <= 1 /\ Forall (fun c => Rc c []) cs).
Context (O_concat : forall t u a t' a' cs ls cu lu, tx_chunks x t = seq_of cs -> Forall2 Rc cs ls ->
  tx_chunks x u = seq_of cu -> Forall2 Rc cu lu -> tx_concat x t u a = (Ok t', a') ->
  tx_chunks x t' = seq_of (if is_nil (List.concat ls) then cu else if is_nil (List.concat lu) then cs else cs ++ cu)).
Context (src : text) (ND : NoDup src).

Definition at_pos (s : S) (pre pend : text) : Prop :=
  exists rest, src = pre ++ pend ++ rest /\ Rs s rest pend /\ pok s.
(** The text put together so far has its items from [q]. *)
Definition inside (t : TT) (q : text) : Prop :=
  exists cs ls, tx_chunks x t = seq_of cs /\ Forall2 Rc cs ls /\ pieces src ls /\ incl (List.concat ls) q.
Definition text_inv (t : TT) (pre : text) : Prop :=
  exists cs ls, tx_chunks x t = seq_of cs /\ Forall2 Rc cs ls /\ pieces src ls /\
    (List.concat ls = [] \/ exists q e, pre = q ++ [e] /\ incl (List.concat ls) q).

Lemma inside_dropped t q e : inside t q -> text_inv t (q ++ [e]).
Proof. intros (cs & ls & H1 & H2 & H3 & H4). exists cs, ls. repeat split; auto; try apply H3. right. exists q, e. auto. Qed.
Lemma empty_inv pre : text_inv (tx_empty x) pre.
Proof.
  destruct O_empty as (cs & H1 & H2 & H3). exists cs, (map (fun _ => []) cs). split; [exact H1|]. split.
  { clear - H3. induction H3; cbn; constructor; auto. }
  destruct cs as [|c [|? ?]]; [| |cbn in H2; lia].
  - split; [|auto]. split; [constructor|]. intros a l1 l2 b E. destruct a; discriminate.
  - split; [|auto]. apply pieces_one. exists src, []. rewrite !app_nil_r. reflexivity.
Qed.

Local Notation pst := (pstate S A).
Lemma peek_pos (st : pst) v st' pre pend : at_pos (ps_strm st) pre pend -> peek (CE:=CE) so st = (Ok v, st') ->
  at_pos (ps_strm st') pre pend /\ v = hd_error (skipn (length (pre ++ pend)) src).
Proof.
  intros (rest & E & HR & HP) Ep. unfold peek in Ep. destruct (sc_peek SC _ _ _ HR) as (s' & Es & HR'). rewrite Es in Ep. injection Ep as <- <-.
  split; [exists rest; cbn; eauto|]. rewrite E, app_assoc, skipn_app, skipn_all, Nat.sub_diag. reflexivity.
Qed.
Lemma next_accum_pos (st : pst) v st' pre pend : at_pos (ps_strm st) pre pend -> next_accum (CE:=CE) so st = (Ok v, st') ->
  exists pend', at_pos (ps_strm st') pre pend'.
Proof.
  intros (rest & E & HR & HP) En. unfold next_accum in En.
  destruct (sc_next_accum SC _ (ps_alloc st) _ _ HR) as [(s' & a' & Es & _ & HR')|(_ & s' & a' & Es & _)]; rewrite Es in En; [|discriminate].
  injection En as <- <-. exists (pend ++ firstn 1 rest), (tl rest). split; [|split; [exact HR'|exact (O_next_accum _ HP Es)]].
  rewrite E, <- app_assoc. destruct rest; reflexivity.
Qed.
Lemma next_pos (st : pst) v st' pre : at_pos (ps_strm st) pre [] -> next (CE:=CE) so st = (Ok (Some v), st') ->
  at_pos (ps_strm st') (pre ++ [v]) [].
Proof.
  intros (rest & E & HR & HP) En. unfold next in En. destruct (sc_next SC _ _ _ HR) as (s' & Es & HR'). rewrite Es in En.
  destruct rest as [|y rest]; [discriminate|]. injection En as <- <-. exists rest. cbn in *. split; [rewrite <- app_assoc; exact E|].
  split; [exact HR'|exact (O_next HP Es)].
Qed.
Lemma concat_accum_pos t (st : pst) v st' pre pend : text_inv t pre -> at_pos (ps_strm st) pre pend ->
  concat_accum (CE:=CE) so co t st = (Ok v, st') -> inside v (pre ++ pend) /\ at_pos (ps_strm st') (pre ++ pend) [].
Proof.
  intros (cs & ls & H1 & H2 & H3 & H4) (rest & E & HR & HP) Ec. unfold concat_accum, bind, accum_done in Ec.
  destruct (sc_accum_done SC _ (ps_alloc st) _ _ HR) as [(s' & a' & u & Es & _ & Ru & HR')|(_ & s' & a' & Es & _)]; rewrite Es in Ec; [|discriminate].
  destruct (O_accum_done _ HP Es) as [HP' (cu & Hc & Lc)]. cbn in Ec. unfold concat in Ec. cbn [ps_alloc ps_strm ps_depth t_concat text_concat_ops] in Ec.
  destruct (tx_concat x t u a') as [[v'|e| |] a2] eqn:E2; try discriminate. injection Ec as <- <-.
  destruct Ru as (cu' & lu & K1 & K2 & Hl). rewrite Hc in K1. apply seq_of_inj in K1. subst cu'.
  pose proof (O_concat _ _ _ H1 H2 Hc K2 E2) as Hv. rewrite <- Hl in Hv. split.
  2:{ exists rest. cbn. split; [rewrite <- app_assoc; exact E|]. auto. }
  assert (PP : part_of src pend) by exact (part_refl_sub _ _ _ E).
  assert (PU : pieces src lu /\ (pend <> [] -> lu = [pend])).
  { destruct K2 as [|c l cu lu K2 K3].
    - cbn in Hl. split; [|congruence]. split; [constructor|]. intros a l1 l2 b Ea. destruct a; discriminate.
    - destruct K3; [|cbn in Lc; lia]. cbn in Hl. rewrite app_nil_r in Hl. subst l. split; [apply pieces_one; exact PP|reflexivity]. }
  destruct PU as [PU PE].
  destruct (List.concat ls) as [|i0 ii] eqn:El; cbn [is_nil] in Hv.
  { exists cu, lu. split; [exact Hv|]. split; [exact K2|]. split; [exact PU|].
    rewrite <- Hl. apply incl_appr, incl_refl. }
  destruct H4 as [H4|(q & e & -> & H4)]; [discriminate|].
  assert (I1 : incl (List.concat ls) ((q ++ [e]) ++ pend)) by (rewrite El; apply incl_appl, incl_appl; exact H4).
  destruct (is_nil pend) eqn:Ep; cbn [is_nil] in Hv.
  { exists cs, ls. auto. }
  assert (Np : pend <> []) by (destruct pend; discriminate). specialize (PE Np). subst lu.
  exists (cs ++ cu), (ls ++ [pend]). split; [exact Hv|]. split; [apply Forall2_app; auto|]. split.
  - apply pieces_snoc with (q:=q) (e:=e) (rest:=rest); auto.
    + rewrite E, <- app_assoc. reflexivity.
    + rewrite El. discriminate.
    + rewrite El. exact H4.
  - rewrite concat_app. apply incl_app; [exact I1|]. cbn. rewrite app_nil_r. apply incl_appr, incl_refl.
Qed.

Definition text_ends (v : TT) (st' : pst) : Prop := exists q, inside v q /\ at_pos (ps_strm st') q [].
Lemma loop_pieces m : forall fuel t nl (st : pst) v st' pre pend, text_inv t pre -> at_pos (ps_strm st) pre pend ->
  parse_text_loop (CE:=CE) umax cc so co fuel m t nl st = (Ok v, st') -> text_ends v st'.
Proof.
  induction fuel as [|f IH]; intros t nl st v st' pre pend Ht Hp E; cbn [parse_text_loop] in E; [discriminate|].
  unfold bind at 1 in E. destruct (peek so st) as [[o|e| |] s1] eqn:Ep; try discriminate.
  destruct (peek_pos _ Hp Ep) as [P1 P2].
  assert (DN : forall s2, at_pos (ps_strm s2) pre pend -> parse_text_done (CE:=CE) so co t nl s2 = (Ok v, st') -> text_ends v st').
  { intros s2 Q1 E2. unfold parse_text_done in E2. destruct (nl =? 0)%N; [|discriminate].
    destruct (concat_accum_pos _ Ht Q1 E2). exists (pre ++ pend). auto. }
  destruct o as [it|]; [|eauto].
  cbv zeta in E. destruct ((nl =? 0)%N && is_end_char cc (it_ch it) m)%bool; [eauto|].
  assert (AC : forall t' nl' s0 pre0 pend0 v0 s0', text_inv t' pre0 -> at_pos (ps_strm s0) pre0 pend0 ->
     bind (next_accum (CE:=CE) so) (fun _ => parse_text_loop umax cc so co f m t' nl') s0 = (Ok v0, s0') -> text_ends v0 s0').
  { intros t' nl' s0 pre0 pend0 v0 s0' Ht' Hp' E'. unfold bind in E'. destruct (next_accum so s0) as [[o2|e| |] s2] eqn:E2; try discriminate.
    destruct (next_accum_pos _ Hp' E2) as [pend' H1]. eauto. }
  destruct (is_nest_escape cc (it_ch it)).
  { unfold bind at 1 in E. destruct (concat_accum so co t s1) as [[t'|e| |] s2] eqn:E2; try discriminate.
    destruct (concat_accum_pos _ Ht P1 E2) as [H1 H2].
    unfold bind at 1 in E. destruct (next so s2) as [[o2|e| |] s3] eqn:E3; try discriminate.
    assert (K : exists y, o2 = Some y).
    { destruct P1 as (rest & Er & _). destruct H2 as (rest2 & Er2 & HR2 & _). rewrite app_nil_l in Er2. rewrite Er, app_assoc in Er2. apply app_inv_head in Er2. subst rest2.
      rewrite Er, app_assoc, skipn_app, skipn_all, Nat.sub_diag in P2. unfold next in E3. destruct (sc_next SC _ _ _ HR2) as (s' & Es & _).
      rewrite Es in E3. injection E3 as <- _. cbn in P2. rewrite <- P2. eauto. }
    destruct K as [y ->]. exact (AC _ _ _ _ _ _ _ (inside_dropped y H1) (next_pos _ H2 E3) E). }
  destruct (is_nest_start cc (it_ch it)).
  { unfold bind in E. destruct (next_accum so s1) as [[o2|e| |] s2] eqn:E2; try discriminate.
    destruct (nl <? umax)%N; [|discriminate].
    destruct (next_accum_pos _ P1 E2) as [pend' H1]. eauto. }
  destruct (is_nest_end cc (it_ch it)).
  { destruct (0 <? nl)%N; [eauto|].
    unfold bind at 1, get_depth in E. unfold bind in E.
    destruct (check_end_char cc so (ps_depth s1) s1) as [[o2|e| |] s2] eqn:E2; try discriminate.
    assert (Q : at_pos (ps_strm s2) pre pend); [|eauto].
    unfold check_end_char, bind in E2. destruct (peek so s1) as [[o|e| |] s1'] eqn:Ep'; try discriminate.
    destruct (peek_pos _ P1 Ep') as [G _]. unfold assert in E2. destruct (match o with Some it => _ | None => _ end); [|discriminate].
    cbn [ret] in E2. destruct (0 <? ps_depth s1)%N; [injection E2 as <- <-; exact G|].
    destruct (next so s1') as [[[it'|]|e| |] s2']; discriminate. }
  eauto.
Qed.

Definition started (s : S) : Prop := exists pre, at_pos s pre [].
Definition text_good (t : TT) : Prop := exists ls, chunks_are_pieces x Rc src t ls.
Lemma parse_text_pieces fuel m (st : pst) v st' : started (ps_strm st) ->
  parse_text (CE:=CE) umax cc so co fuel m st = (Ok v, st') -> started (ps_strm st') /\ text_good v.
Proof.
  intros (pre & Hp) E. destruct (loop_pieces _ _ _ _ (empty_inv pre) Hp E) as (q & (cs & ls & H1 & H2 & H3 & _) & H4).
  split; [exists q; exact H4|]. exists ls, cs. auto.
Qed.

Context (H_new : forall d a d' a', a_new_datum ao d a = (Ok d', a') -> d' = d).
Context (H_bnd : forall d, dok text_good d -> match bnd d with
  | Some (Operative f) => forall t a o a', text_good t -> f d t a = (inl (Some o), a') -> dok text_good o
  | Some (Applicative f) => forall l a o a', dok text_good l -> f d l a = (inl (Some o), a') -> dok text_good o
  | None => True
  end).
Lemma collect_pieces fuel n st ds more st' : started (ps_strm st) ->
  iter_collect umax cc so co ao bnd n fuel st = (Ok (map inl ds ++ more), st') -> Forall (dok text_good) ds.
Proof.
  intros H1. apply texts_collect with (used := fun _ => 0%Z) (tc := fun _ => 0%Z) (pfine := started).
  - intros s v s' (pre & rest & E & HR & HP) Es. exists pre, rest. destruct (sc_peek SC _ _ _ HR) as (s2 & Es2 & HR2).
    pose proof (O_peek HP Es). rewrite Es2 in Es. injection Es as _ <-. auto.
  - intros s v s' (pre & rest & E & HR & HP) Es. destruct (sc_next SC _ _ _ HR) as (s2 & Es2 & HR2).
    pose proof (O_next HP Es). rewrite Es2 in Es. injection Es as _ <-. exists (pre ++ firstn 1 rest), (tl rest). split; auto.
    rewrite E, <- app_assoc. destruct rest; reflexivity.
  - intros f m s v s' Hs E. destruct (parse_text_pieces _ _ _ Hs E). split; [auto|]. split; [auto|]. unfold usedp. lia.
  - intros d a d' a' E. split; [exact (H_new _ _ E)|reflexivity].
  - assert (Z0 : forall d : datum TT ET, dcost (fun _ => 0%Z) d = 0%Z).
    { intros d. unfold dcost. induction (texts_in d) as [|u us IH]; [reflexivity|]. exact IH. }
    assert (Z1 : forall o : option (datum TT ET), ocost (fun _ => 0%Z) o = 0%Z) by (intros [d|]; cbn; auto).
    intros d Hd. pose proof (H_bnd Hd) as HB. destruct (bnd d) as [[f|f]|]; [| |exact I].
    + intros t a o a' Ht E. split; [destruct o; [eapply HB; eauto|exact I]|]. rewrite Z0, Z1. lia.
    + intros t a o a' Ht E. split; [destruct o; [eapply HB; eauto|exact I]|]. rewrite !Z0, Z1. lia.
  - exact H1.
Qed.
End Text.
