(** Chunks of texts are parts of the chunks of the source. *)
From Coq Require Import List Arith NArith ZArith Bool Lia.
From Verif.Model Require Import Prelude Parser Iter Chunk.
From Verif.Spec Require Import Contract ChunkContract Run TextWork Pieces.
From Verif.Proofs Require Import Amortize TextFacts PiecesFacts.
Import ListNotations.
Set Implicit Arguments.

Lemma nodup_apart X : forall (a b : list X), NoDup (a ++ b) -> forall y, In y a -> ~ In y b.
Proof.
  induction a as [|u a IH]; intros b N y H K; [exact H|]. cbn in N. inversion N as [|? ? N1 N2]; subst.
  destruct H as [->|H]; [apply N1, in_or_app; auto|exact (IH _ N2 _ H K)].
Qed.
Lemma in_concat_of X (srcs : list (list X)) s y : In s srcs -> In y s -> In y (List.concat srcs).
Proof. intros H K. apply in_concat. eauto. Qed.
Lemma same_part X (srcs : list (list X)) s s' y : NoDup (List.concat srcs) -> In s srcs -> In s' srcs -> In y s -> In y s' -> s = s'.
Proof.
  intros N H H' K K'. apply in_split in H. destruct H as (a & b & ->). rewrite concat_app in N. cbn in N.
  apply in_app_or in H'. destruct H' as [H'|[H'|H']]; [exfalso| |exfalso]; auto.
  - apply (nodup_apart _ _ N y); [eapply in_concat_of; eauto|apply in_or_app; auto].
  - assert (N2 : NoDup (s ++ List.concat b)).
    { clear - N. induction (List.concat a) as [|u l IH]; [exact N|]. inversion N; auto. }
    apply (nodup_apart _ _ N2 y K). eapply in_concat_of; eauto.
Qed.
Lemma part_of_whole X (srcs : list (list X)) s l : In s srcs -> part_of s l -> part_of (List.concat srcs) l.
Proof.
  intros H (p & q & ->). apply in_split in H. destruct H as (a & b & ->). rewrite concat_app. cbn.
  exists (List.concat a ++ p), (q ++ List.concat b). rewrite <- !app_assoc. reflexivity.
Qed.
Lemma one_whole X (srcs : list (list X)) l : part_of_one srcs l -> part_of (List.concat srcs) l.
Proof.
  intros [->|(s & H & K)]; [exists [], (List.concat srcs); reflexivity|]. eapply part_of_whole; eauto.
Qed.
Lemma part_nodup X (src l : list X) : NoDup src -> part_of src l -> NoDup l.
Proof.
  intros N (p & q & ->). induction p as [|u p IH]; cbn in *; [|inversion N; auto].
  clear -N. induction l as [|y l IH]; [constructor|]. cbn in N. inversion N as [|? ? N1 N2]; subst. constructor; [|auto].
  intros K. apply N1, in_or_app. auto.
Qed.

Lemma many_nonempty X (srcs : list (list X)) ls : pieces_of srcs ls -> List.concat ls <> [] -> Forall (fun l => l <> []) ls.
Proof.
  intros [P1 P2] Hc. apply Forall_forall. intros l Hl ->. apply in_split in Hl. destruct Hl as (a & b & ->).
  destruct b as [|l2 b].
  - destruct a as [|l0 a] using rev_ind; [cbn in Hc; congruence|].
    apply (P2 a l0 [] []); [rewrite <- app_assoc; reflexivity|]. rewrite app_nil_r.
    rewrite <- app_assoc in P1. apply Forall_app in P1. destruct P1 as [_ P1]. inversion P1; assumption.
  - apply (P2 a [] l2 b eq_refl). cbn. apply Forall_app in P1. destruct P1 as [_ P1]. inversion P1 as [|? ? _ P3]; inversion P3; assumption.
Qed.
Lemma many_nil X (srcs : list (list X)) : pieces_of srcs [].
Proof. split; [constructor|]. intros a l1 l2 b E. destruct a; discriminate. Qed.
Lemma many_one X (srcs : list (list X)) l : part_of_one srcs l -> pieces_of srcs [l].
Proof.
  intros H. split; [constructor; [exact H|constructor]|]. intros a l1 l2 b E. apply (f_equal (@length _)) in E.
  rewrite app_length in E. cbn in E. lia.
Qed.
(** Two lists of pieces that cannot be joined. *)
Lemma many_app X (srcs : list (list X)) ls lu : pieces_of srcs ls -> pieces_of srcs lu ->
  (forall a l1 l2 b, ls = a ++ [l1] -> lu = l2 :: b -> ~ part_of_one srcs (l1 ++ l2)) -> pieces_of srcs (ls ++ lu).
Proof.
  intros [P1 P2] [Q1 Q2] J. split; [apply Forall_app; auto|]. intros a l1 l2 b E.
  destruct (app_split ls lu a (l1 :: l2 :: b) E) as [(m & -> & Em)|(m & -> & Em)].
  - destruct m as [|m1 [|m2 m]]; cbn in Em.
    + exact (Q2 [] l1 l2 b (eq_sym Em)).
    + injection Em as -> Em. apply (J a m1 l2 b); auto.
    + injection Em as -> -> Em. exact (P2 a m1 m2 m eq_refl).
  - exact (Q2 m l1 l2 b Em).
Qed.
(** Separated by an item that is dropped. *)
Lemma many_dropped X (srcs : list (list X)) q e pend rest ls lu : NoDup (List.concat srcs) ->
  List.concat srcs = q ++ e :: pend ++ rest -> List.concat lu = pend -> pend <> [] ->
  pieces_of srcs ls -> pieces_of srcs lu -> List.concat ls <> [] -> incl (List.concat ls) q -> pieces_of srcs (ls ++ lu).
Proof.
  intros N E Hu Hp P PU Hc Hq. apply many_app; auto. intros a l1 l2 b Ea Eb K. apply one_whole in K. destruct K as (u & v & K).
  pose proof (many_nonempty P Hc) as Ne. rewrite <- Hu in Hp. pose proof (many_nonempty PU Hp) as Nu.
  subst ls lu. apply Forall_app in Ne. destruct Ne as [_ Ne]. inversion Ne as [|? ? Ne1 _]; subst x l.
  inversion Nu as [|? ? Nu1 _]; subst x l.
  destruct (exists_last Ne1) as (l1' & z & ->). destruct l2 as [|y l2]; [congruence|]. cbn in Hu. subst pend.
  assert (G : q ++ [e] = u ++ l1' ++ [z]).
  { apply (@nodup_split X y _ (l2 ++ List.concat b ++ rest) _ (l2 ++ v)).
    - rewrite <- app_assoc. cbn. cbn in E. rewrite <- app_assoc in E. rewrite <- E. exact N.
    - rewrite <- !app_assoc in *. cbn in *. rewrite <- !app_assoc in *. congruence. }
  rewrite app_assoc in G. apply app_inj_tail in G. destruct G as [_ <-].
  assert (In e q).
  { apply Hq. rewrite concat_app. apply in_or_app. right. cbn. rewrite app_nil_r. apply in_or_app. right. left. reflexivity. }
  rewrite E in N. apply NoDup_remove_2 in N. apply N. apply in_or_app. auto.
Qed.
(** Separated by the end of a part of the source. *)
Lemma many_next X (srcs : list (list X)) before s after ls lu : NoDup (List.concat srcs) ->
  srcs = before ++ s :: after -> incl (List.concat lu) s -> List.concat lu <> [] ->
  pieces_of srcs ls -> pieces_of srcs lu -> List.concat ls <> [] -> incl (List.concat ls) (List.concat before) -> pieces_of srcs (ls ++ lu).
Proof.
  intros N E Hp Np P PU Hc Hi. apply many_app; auto.
  intros a l1 l2 b Ea Eb K. pose proof (many_nonempty P Hc) as Ne. pose proof (many_nonempty PU Np) as Nu. subst ls lu.
  apply Forall_app in Ne. destruct Ne as [_ Ne]. inversion Ne as [|? ? Ne1 _]; subst x l. inversion Nu as [|? ? Nu1 _]; subst x l.
  destruct K as [K|(s' & Hs & K)]; [apply app_eq_nil in K; tauto|].
  destruct l1 as [|z l1]; [congruence|]. destruct l2 as [|y p]; [congruence|].
  assert (Hz : In z s') by (destruct K as (u & v & ->); apply in_or_app; right; left; reflexivity).
  assert (Hy : In y s') by (destruct K as (u & v & ->); apply in_or_app; right; apply in_or_app; left; apply in_or_app; right; left; reflexivity).
  assert (Hy' : In y s) by (apply Hp; left; reflexivity).
  assert (Es : s' = s) by (eapply same_part; eauto; rewrite E; apply in_or_app; right; left; reflexivity).
  subst s'. rewrite E, concat_app in N. apply (nodup_apart _ _ N z).
  - apply Hi. rewrite concat_app. apply in_or_app. right. cbn. left. reflexivity.
  - cbn. apply in_or_app. auto.
Qed.

(** The pieces are determined by the items, and as few as possible. *)
Lemma many_join X (srcs : list (list X)) l m m' : NoDup (List.concat srcs) -> m <> [] ->
  part_of_one srcs (l ++ m) -> part_of_one srcs (m ++ m') -> part_of_one srcs (l ++ m ++ m').
Proof.
  intros N Hm [K|(s & Hs & K)] [K'|(s' & Hs' & K')].
  1,2: apply app_eq_nil in K; tauto. 1: apply app_eq_nil in K'; tauto.
  destruct m as [|y m]; [congruence|].
  assert (E : s' = s).
  { eapply same_part with (y:=y); eauto.
    - destruct K' as (u & v & ->). apply in_or_app. right. left. reflexivity.
    - destruct K as (u & v & ->). apply in_or_app. right. apply in_or_app. left. apply in_or_app. right. left. reflexivity. }
  subst s'. right. exists s. split; [exact Hs|]. apply part_join; auto.
  apply part_nodup with (src:=List.concat srcs); [exact N|].
  eapply part_of_whole; eauto. exists [], []. rewrite app_nil_r. reflexivity.
Qed.
Lemma one_prefix X (srcs : list (list X)) l m : part_of_one srcs (l ++ m) -> part_of_one srcs l.
Proof.
  intros [K|(s & Hs & p & q & ->)]; [apply app_eq_nil in K; left; tauto|]. right. eexists. split; [exact Hs|].
  exists p, (m ++ q). rewrite <- !app_assoc. reflexivity.
Qed.
Lemma one_suffix X (srcs : list (list X)) l m : part_of_one srcs (l ++ m) -> part_of_one srcs m.
Proof.
  intros [K|(s & Hs & p & q & ->)]; [apply app_eq_nil in K; left; tauto|]. right. eexists. split; [exact Hs|].
  exists (p ++ l), q. rewrite <- !app_assoc. reflexivity.
Qed.
Lemma many_tail X (srcs : list (list X)) l ls : pieces_of srcs (l :: ls) -> pieces_of srcs ls.
Proof.
  intros [P1 P2]. inversion P1; subst. split; [assumption|]. intros a l1 l2 b ->. exact (P2 (l :: a) l1 l2 b eq_refl).
Qed.
Lemma many_shorter X (srcs : list (list X)) l l1 r1 ls : NoDup (List.concat srcs) -> pieces_of srcs (l :: ls) -> part_of_one srcs l1 ->
  Forall (fun l => l <> []) (l :: ls) -> l ++ List.concat ls = l1 ++ r1 -> exists m, l = l1 ++ m.
Proof.
  intros N P Q Ne E. destruct (app_split _ _ _ _ E) as [(m & -> & _)|(m & -> & Ec)]; [eauto|].
  destruct ls as [|l2 ls].
  { cbn in Ec. symmetry in Ec. apply app_eq_nil in Ec. destruct Ec as [-> _]. exists []. rewrite !app_nil_r. reflexivity. }
  destruct m as [|y m]; [exists []; rewrite !app_nil_r; reflexivity|]. destruct (proj2 P [] l l2 ls eq_refl).
  cbn in Ec. destruct (app_split _ _ (y :: m) r1 Ec) as [(m2 & -> & _)|(m2 & K & _)].
  - apply many_join; auto; [discriminate|]. destruct P as [P1 _]. inversion P1 as [|? ? _ P3]. inversion P3. assumption.
  - rewrite K, app_assoc in Q. exact (one_prefix _ _ Q).
Qed.
Lemma many_unique X (srcs : list (list X)) : NoDup (List.concat srcs) -> forall ls ls', Forall (fun l => l <> []) ls -> Forall (fun l => l <> []) ls' ->
  pieces_of srcs ls -> pieces_of srcs ls' -> List.concat ls = List.concat ls' -> ls = ls'.
Proof.
  intros N. induction ls as [|l ls IH]; intros ls' Ne Ne' P P' E.
  - destruct ls' as [|l' ls']; [reflexivity|]. cbn in E. symmetry in E. apply app_eq_nil in E. destruct E as [-> _]. inversion Ne'. congruence.
  - destruct ls' as [|l' ls']; [cbn in E; apply app_eq_nil in E; destruct E as [-> _]; inversion Ne; congruence|]. cbn in E.
    assert (K : part_of_one srcs l /\ part_of_one srcs l') by (split; [destruct P as [P _]; inversion P|destruct P' as [P' _]; inversion P']; assumption).
    destruct K as [K K']. destruct (many_shorter _ N P K' Ne E) as [m ->].
    destruct (many_shorter _ N P' K Ne' (eq_sym E)) as [m' Em]. rewrite <- app_assoc in Em.
    rewrite <- (app_nil_r l') in Em at 1. apply app_inv_head in Em. symmetry in Em. apply app_eq_nil in Em. destruct Em as [-> _].
    rewrite app_nil_r in *. apply app_inv_head in E. f_equal. inversion Ne; inversion Ne'; subst.
    apply IH; auto; eapply many_tail; eauto.
Qed.
Lemma many_cut X (srcs : list (list X)) l m ls : NoDup (List.concat srcs) -> m <> [] -> pieces_of srcs ((l ++ m) :: ls) -> pieces_of srcs (m :: ls).
Proof.
  intros N Hm P. pose proof P as [P1 P2]. inversion P1 as [|? ? Q P3]; subst. split.
  - constructor; [|exact P3]. exact (one_suffix _ _ Q).
  - intros a l1 l2 b E. destruct a as [|a0 a]; cbn in E; injection E as <- ->.
    + intros K. apply (P2 [] (l ++ m) l2 b eq_refl). rewrite <- (app_assoc l m l2). apply many_join; auto.
    + exact (P2 ((l ++ m) :: a) l1 l2 b eq_refl).
Qed.
Lemma many_fewest X (srcs : list (list X)) : NoDup (List.concat srcs) -> forall ls' ls, Forall (fun l => l <> []) ls ->
  pieces_of srcs ls -> Forall (part_of_one srcs) ls' -> List.concat ls = List.concat ls' -> length ls <= length ls'.
Proof.
  intros N. induction ls' as [|l' ls' IH]; intros ls Ne P Q E.
  - destruct ls as [|l ls]; [auto|]. cbn in E. apply app_eq_nil in E. destruct E as [-> _]. inversion Ne. congruence.
  - destruct ls as [|l ls]; [cbn; lia|]. inversion Q; subst. inversion Ne; subst. cbn in E.
    destruct (many_shorter _ N P H1 Ne E) as [m ->]. rewrite <- app_assoc in E. apply app_inv_head in E.
    cbn [length]. destruct m as [|y m].
    + apply le_n_S. apply IH; auto. eapply many_tail; eauto.
    + apply (IH ((y :: m) :: ls)) in H2; [cbn in H2; lia| |eapply many_cut; eauto; discriminate|exact E].
      constructor; [discriminate|assumption].
Qed.

(** A text whose chunks are pieces and have the items [l]. *)
Definition pieced {TT C A Pos} (x : text_ops TT C A) (Rc : C -> list (item Pos) -> Prop) (srcs : list (list (item Pos)))
    (t : TT) (l : list (item Pos)) : Prop :=
  exists cs ls, tx_chunks x t = seq_of cs /\ Forall2 Rc cs ls /\ pieces_of srcs ls /\ l = List.concat ls.
(** The chunks of a concatenation. *)
Definition joins {TT C A Pos} (x : text_ops TT C A) (Rc : C -> list (item Pos) -> Prop) : Prop :=
  forall t u a t' a' cs ls cu lu, tx_chunks x t = seq_of cs -> Forall2 Rc cs ls ->
  tx_chunks x u = seq_of cu -> Forall2 Rc cu lu -> tx_concat x t u a = (Ok t', a') ->
  tx_chunks x t' = seq_of (if is_nil (List.concat ls) then cu else if is_nil (List.concat lu) then cs else cs ++ cu).
Definition empty_few {TT C A Pos} (x : text_ops TT C A) (Rc : C -> list (item Pos) -> Prop) : Prop :=
  exists cs, tx_chunks x (tx_empty x) = seq_of cs /\ length cs <= 1 /\ Forall (fun c => Rc c []) cs.
Lemma pieced_empty {TT C A Pos} (x : text_ops TT C A) (Rc : C -> list (item Pos) -> Prop) srcs :
  empty_few x Rc -> pieced x Rc srcs (tx_empty x) [].
Proof.
  intros (cs & H1 & H2 & H3). destruct cs as [|c [|? ?]]; [| |cbn in H2; lia].
  - exists [], []. repeat split; auto. intros a l1 l2 b E. destruct a; discriminate.
  - exists [c], [[]]. repeat split; auto.
    + inversion H3; auto.
    + repeat constructor.
    + apply many_one. left. reflexivity.
Qed.
Lemma pieced_join {TT C A Pos} (x : text_ops TT C A) (Rc : C -> list (item Pos) -> Prop) srcs t u a v a' l1 l2 : joins x Rc ->
  pieced x Rc srcs t l1 -> pieced x Rc srcs u l2 -> tx_concat x t u a = (Ok v, a') ->
  (l1 <> [] -> l2 <> [] -> forall ls lu, pieces_of srcs ls -> pieces_of srcs lu -> List.concat ls = l1 -> List.concat lu = l2 -> pieces_of srcs (ls ++ lu)) ->
  pieced x Rc srcs v (l1 ++ l2).
Proof.
  intros J (cs & ls & H1 & H2 & H3 & ->) (cu & lu & K1 & K2 & K3 & ->) E G.
  pose proof (J _ _ _ _ _ _ _ _ _ H1 H2 K1 K2 E) as V.
  destruct (is_nil (List.concat ls)) eqn:E1; [apply is_nil_true in E1; rewrite E1; exists cu, lu; auto|].
  destruct (is_nil (List.concat lu)) eqn:E2; [apply is_nil_true in E2; rewrite E2, app_nil_r; exists cs, ls; auto|].
  apply is_nil_false in E1, E2. exists (cs ++ cu), (ls ++ lu). split; [exact V|]. split; [apply Forall2_app; auto|].
  split; [auto|]. rewrite concat_app. reflexivity.
Qed.

Section Text.
Context {S A TT C ET Pos CE W : Type} (umax : N) (cc : classifier) (so : stream_ops S A TT Pos) (x : text_ops TT C A)
        (ao : alloc_ops A TT ET) (bnd : bindings A TT ET Pos CE).
Local Notation co := (text_concat_ops x).
Local Notation text := (list (item Pos)).
Context (F : Prop) (view : A -> W) (Rs : S -> text -> text -> Prop) (Rc : C -> text -> Prop) (srcs : list text).
Context (SC : stream_contract F view so Rs (pieced x Rc srcs)).
Context (EM : empty_few x Rc) (JO : joins x Rc) (ND : NoDup (List.concat srcs)).
Local Notation src := (List.concat srcs).

Definition at_many (s : S) (pre pend : text) : Prop := exists rest, src = pre ++ pend ++ rest /\ Rs s rest pend.
(** The text put together so far has its items from [q]. *)
Definition inside_many (t : TT) (q : text) : Prop := exists l, pieced x Rc srcs t l /\ incl l q.
Definition many_inv (t : TT) (pre : text) : Prop :=
  exists l, pieced x Rc srcs t l /\ (l = [] \/ exists q e, pre = q ++ [e] /\ incl l q).
Lemma many_inside_dropped t q e : inside_many t q -> many_inv t (q ++ [e]).
Proof. intros (l & H1 & H2). exists l. split; [exact H1|]. right. exists q, e. auto. Qed.
Lemma many_empty_inv pre : many_inv (tx_empty x) pre.
Proof. exists []. split; [apply pieced_empty; exact EM|auto]. Qed.

Local Notation pst := (pstate S A).
Lemma many_peek (st : pst) v st' pre pend : at_many (ps_strm st) pre pend -> peek (CE:=CE) so st = (Ok v, st') ->
  at_many (ps_strm st') pre pend /\ v = hd_error (skipn (length (pre ++ pend)) src).
Proof.
  intros (rest & E & HR) Ep. unfold peek in Ep. destruct (sc_peek SC _ _ _ HR) as (s' & Es & HR'). rewrite Es in Ep. injection Ep as <- <-.
  split; [exists rest; cbn; eauto|]. rewrite E, app_assoc, skipn_app, skipn_all, Nat.sub_diag. reflexivity.
Qed.
Lemma many_next_accum (st : pst) v st' pre pend : at_many (ps_strm st) pre pend -> next_accum (CE:=CE) so st = (Ok v, st') ->
  exists pend', at_many (ps_strm st') pre pend'.
Proof.
  intros (rest & E & HR) En. unfold next_accum in En.
  destruct (sc_next_accum SC _ (ps_alloc st) _ _ HR) as [(s' & a' & Es & _ & HR')|(_ & s' & a' & Es & _)]; rewrite Es in En; [|discriminate].
  injection En as <- <-. exists (pend ++ firstn 1 rest), (tl rest). split; [|exact HR'].
  rewrite E, <- app_assoc. destruct rest; reflexivity.
Qed.
Lemma many_next_item (st : pst) v st' pre : at_many (ps_strm st) pre [] -> next (CE:=CE) so st = (Ok (Some v), st') ->
  at_many (ps_strm st') (pre ++ [v]) [].
Proof.
  intros (rest & E & HR) En. unfold next in En. destruct (sc_next SC _ _ _ HR) as (s' & Es & HR'). rewrite Es in En.
  destruct rest as [|y rest]; [discriminate|]. injection En as <- <-. exists rest. cbn in *. split; [rewrite <- app_assoc; exact E|exact HR'].
Qed.
Lemma many_concat_accum t (st : pst) v st' pre pend : many_inv t pre -> at_many (ps_strm st) pre pend ->
  concat_accum (CE:=CE) so co t st = (Ok v, st') -> inside_many v (pre ++ pend) /\ at_many (ps_strm st') (pre ++ pend) [].
Proof.
  intros (l & H1 & H4) (rest & E & HR) Ec. unfold concat_accum, bind, accum_done in Ec.
  destruct (sc_accum_done SC _ (ps_alloc st) _ _ HR) as [(s' & a' & u & Es & _ & Ru & HR')|(_ & s' & a' & Es & _)]; rewrite Es in Ec; [|discriminate].
  cbn in Ec. unfold concat in Ec. cbn [ps_alloc ps_strm ps_depth t_concat text_concat_ops] in Ec.
  destruct (tx_concat x t u a') as [[v'|e| |] a2] eqn:E2; try discriminate. injection Ec as <- <-. split.
  2:{ exists rest. cbn. split; [rewrite <- app_assoc; exact E|exact HR']. }
  exists (l ++ pend). split.
  - eapply pieced_join; [exact JO|exact H1|exact Ru|exact E2|]. intros N1 N2 ls lu Hs Hu El Eu.
    destruct H4 as [H4|(q & e & -> & H4)]; [congruence|]. subst l.
    eapply many_dropped with (q:=q) (e:=e) (rest:=rest); eauto. rewrite E, <- app_assoc. reflexivity.
  - apply incl_app; [|apply incl_appr, incl_refl]. destruct H4 as [->|(q & e & -> & H4)]; [intros y []|].
    apply incl_appl, incl_appl. exact H4.
Qed.

Definition many_ends (v : TT) (st' : pst) : Prop := exists q, inside_many v q /\ at_many (ps_strm st') q [].
Lemma many_loop m : forall fuel t nl (st : pst) v st' pre pend, many_inv t pre -> at_many (ps_strm st) pre pend ->
  parse_text_loop (CE:=CE) umax cc so co fuel m t nl st = (Ok v, st') -> many_ends v st'.
Proof.
  induction fuel as [|f IH]; intros t nl st v st' pre pend Ht Hp E; cbn [parse_text_loop] in E; [discriminate|].
  unfold bind at 1 in E. destruct (peek so st) as [[o|e| |] s1] eqn:Ep; try discriminate.
  destruct (many_peek _ Hp Ep) as [P1 P2].
  assert (DN : forall s2, at_many (ps_strm s2) pre pend -> parse_text_done (CE:=CE) so co t nl s2 = (Ok v, st') -> many_ends v st').
  { intros s2 Q1 E2. unfold parse_text_done in E2. destruct (nl =? 0)%N; [|discriminate].
    destruct (many_concat_accum _ Ht Q1 E2). exists (pre ++ pend). auto. }
  destruct o as [it|]; [|eauto].
  cbv zeta in E. destruct ((nl =? 0)%N && is_end_char cc (it_ch it) m)%bool; [eauto|].
  assert (AC : forall t' nl' s0 pre0 pend0 v0 s0', many_inv t' pre0 -> at_many (ps_strm s0) pre0 pend0 ->
     bind (next_accum (CE:=CE) so) (fun _ => parse_text_loop umax cc so co f m t' nl') s0 = (Ok v0, s0') -> many_ends v0 s0').
  { intros t' nl' s0 pre0 pend0 v0 s0' Ht' Hp' E'. unfold bind in E'. destruct (next_accum so s0) as [[o2|e| |] s2] eqn:E2; try discriminate.
    destruct (many_next_accum _ Hp' E2) as [pend' H1]. eauto. }
  destruct (is_nest_escape cc (it_ch it)).
  { unfold bind at 1 in E. destruct (concat_accum so co t s1) as [[t'|e| |] s2] eqn:E2; try discriminate.
    destruct (many_concat_accum _ Ht P1 E2) as [H1 H2].
    unfold bind at 1 in E. destruct (next so s2) as [[o2|e| |] s3] eqn:E3; try discriminate.
    assert (K : exists y, o2 = Some y).
    { destruct P1 as (rest & Er & _). destruct H2 as (rest2 & Er2 & HR2). rewrite app_nil_l in Er2. rewrite Er, app_assoc in Er2. apply app_inv_head in Er2. subst rest2.
      rewrite Er, app_assoc, skipn_app, skipn_all, Nat.sub_diag in P2. unfold next in E3. destruct (sc_next SC _ _ _ HR2) as (s' & Es & _).
      rewrite Es in E3. injection E3 as <- _. cbn in P2. rewrite <- P2. eauto. }
    destruct K as [y ->]. exact (AC _ _ _ _ _ _ _ (many_inside_dropped y H1) (many_next_item _ H2 E3) E). }
  destruct (is_nest_start cc (it_ch it)).
  { unfold bind in E. destruct (next_accum so s1) as [[o2|e| |] s2] eqn:E2; try discriminate.
    destruct (nl <? umax)%N; [|discriminate].
    destruct (many_next_accum _ P1 E2) as [pend' H1]. eauto. }
  destruct (is_nest_end cc (it_ch it)).
  { destruct (0 <? nl)%N; [eauto|].
    unfold bind at 1, get_depth in E. unfold bind in E.
    destruct (check_end_char cc so (ps_depth s1) s1) as [[o2|e| |] s2] eqn:E2; try discriminate.
    assert (Q : at_many (ps_strm s2) pre pend); [|eauto].
    unfold check_end_char, bind in E2. destruct (peek so s1) as [[o|e| |] s1'] eqn:Ep'; try discriminate.
    destruct (many_peek _ P1 Ep') as [G _]. unfold assert in E2. destruct (match o with Some it => _ | None => _ end); [|discriminate].
    cbn [ret] in E2. destruct (0 <? ps_depth s1)%N; [injection E2 as <- <-; exact G|].
    destruct (next so s1') as [[[it'|]|e| |] s2']; discriminate. }
  eauto.
Qed.

Definition many_started (s : S) : Prop := exists pre, at_many s pre [].
Definition many_good (t : TT) : Prop := exists ls, chunks_are_pieces_of x Rc srcs t ls.
Lemma pieced_good t l : pieced x Rc srcs t l -> many_good t.
Proof. intros (cs & ls & H1 & H2 & H3 & _). exists ls, cs. auto. Qed.
Lemma many_parse_text fuel m (st : pst) v st' : many_started (ps_strm st) ->
  parse_text (CE:=CE) umax cc so co fuel m st = (Ok v, st') -> many_started (ps_strm st') /\ many_good v.
Proof.
  intros (pre & Hp) E. destruct (many_loop _ _ _ _ (many_empty_inv pre) Hp E) as (q & (l & H1 & _) & H4).
  split; [exists q; exact H4|]. eapply pieced_good; eauto.
Qed.

Context (H_new : forall d a d' a', a_new_datum ao d a = (Ok d', a') -> d' = d).
Context (H_bnd : keeps_texts many_good bnd).
Lemma many_collect fuel n st ds more st' : many_started (ps_strm st) ->
  iter_collect umax cc so co ao bnd n fuel st = (Ok (map inl ds ++ more), st') -> Forall (dok many_good) ds.
Proof.
  intros H1. apply texts_collect with (used := fun _ => 0%Z) (tc := fun _ => 0%Z) (pfine := many_started).
  - intros s v s' (pre & rest & E & HR) Es. exists pre, rest. destruct (sc_peek SC _ _ _ HR) as (s2 & Es2 & HR2).
    rewrite Es2 in Es. injection Es as _ <-. auto.
  - intros s v s' (pre & rest & E & HR) Es. destruct (sc_next SC _ _ _ HR) as (s2 & Es2 & HR2).
    rewrite Es2 in Es. injection Es as _ <-. exists (pre ++ firstn 1 rest), (tl rest). split; auto.
    rewrite E, <- app_assoc. destruct rest; reflexivity.
  - intros f m s v s' Hs E. destruct (many_parse_text _ _ _ Hs E). split; [auto|]. split; [auto|]. unfold usedp. lia.
  - intros d a d' a' E. split; [exact (H_new _ _ E)|reflexivity].
  - assert (Z0 : forall d : datum TT ET, dcost (fun _ => 0%Z) d = 0%Z).
    { intros d. unfold dcost. induction (texts_in d) as [|u us IH]; [reflexivity|]. exact IH. }
    assert (Z1 : forall o : option (datum TT ET), ocost (fun _ => 0%Z) o = 0%Z) by (intros [d|]; cbn; auto).
    intros d Hd. pose proof (H_bnd _ Hd) as HB. destruct (bnd d) as [[f|f]|]; [| |exact I].
    + intros t a o a' Ht E. split; [destruct o; [eapply HB; eauto|exact I]|]. rewrite Z0, Z1. lia.
    + intros t a o a' Ht E. split; [destruct o; [eapply HB; eauto|exact I]|]. rewrite !Z0, Z1. lia.
  - exact H1.
Qed.
Lemma many_nexts st ods st' : many_started (ps_strm st) ->
  nexts umax cc so co ao bnd st (map (option_map inl) ods) st' -> Forall (ook many_good) ods /\ many_started (ps_strm st').
Proof.
  intros H1 E0. refine (texts_nexts (used := fun _ => 0%Z) (tc := fun _ => 0%Z) (pfine := many_started) _ _ _ _ _ E0 _ _ eq_refl).
  - intros s v s' (pre & rest & E & HR) Es. exists pre, rest. destruct (sc_peek SC _ _ _ HR) as (s2 & Es2 & HR2).
    rewrite Es2 in Es. injection Es as _ <-. auto.
  - intros s v s' (pre & rest & E & HR) Es. destruct (sc_next SC _ _ _ HR) as (s2 & Es2 & HR2).
    rewrite Es2 in Es. injection Es as _ <-. exists (pre ++ firstn 1 rest), (tl rest). split; auto.
    rewrite E, <- app_assoc. destruct rest; reflexivity.
  - intros f m s v s' Hs E. destruct (many_parse_text _ _ _ Hs E). split; [auto|]. split; [auto|]. unfold usedp. lia.
  - intros d a d' a' E. split; [exact (H_new _ _ E)|reflexivity].
  - assert (Z0 : forall d : datum TT ET, dcost (fun _ => 0%Z) d = 0%Z).
    { intros d. unfold dcost. induction (texts_in d) as [|u us IH]; [reflexivity|]. exact IH. }
    assert (Z1 : forall o : option (datum TT ET), ocost (fun _ => 0%Z) o = 0%Z) by (intros [d|]; cbn; auto).
    intros d Hd. pose proof (H_bnd _ Hd) as HB. destruct (bnd d) as [[f|f]|]; [| |exact I].
    + intros t a o a' Ht E. split; [destruct o; [eapply HB; eauto|exact I]|]. rewrite Z0, Z1. lia.
    + intros t a o a' Ht E. split; [destruct o; [eapply HB; eauto|exact I]|]. rewrite !Z0, Z1. lia.
  - exact H1.
Qed.
End Text.
