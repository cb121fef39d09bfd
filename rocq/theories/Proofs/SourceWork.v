(** Work that is accounted for by the items read from the source, whatever is done with the
    texts they make and whatever fails. *)
From Coq Require Import List Arith NArith ZArith Bool Lia.
From Verif.Model Require Import Prelude Parser Iter.
From Verif.Spec Require Import Contract Run.
From Verif.Proofs Require Import Wp Amortize.
Import ListNotations.
Set Implicit Arguments.
Local Open Scope Z_scope.

Section Work.
Context {S A TT ET Pos CE W : Type} (umax : N) (cc : classifier) (so : stream_ops S A TT Pos) (co : concat_ops A TT)
        (ao : alloc_ops A TT ET) (bnd : bindings A TT ET Pos CE).
Context (F : Prop) (view : A -> W).
Context (Rs : S -> list (item Pos) -> list (item Pos) -> Prop) (Rt : TT -> list (item Pos) -> Prop).
Context (SC : stream_contract F view so Rs Rt) (TC : concat_contract F view co Rt).
Context (used : A -> Z) (tc ac : TT -> Z) (tok aok : TT -> Prop) (pc : S -> Z) (pok : S -> Prop).
Context (AM : amortized so co ao used tc ac tok aok pc pok).
(** [g n]: the most that [n] items can cost. *)
Context (g : nat -> Z) (G0 : 0 <= g 0%nat) (GM : forall m n, (m <= n)%nat -> g m <= g n) (GA : forall m n, g m + g n <= g (m + n)%nat).
Record sourced : Prop := {
  w_pc : forall s r p, Rs s r p -> pok s -> pc s <= g (length p);
  w_tc : forall t l, Rt t l -> tok t -> tc t <= g (length l);
  w_next_accum : forall s r p a e s' a', Rs s r p -> pok s -> s_next_accum so s a = (Err e, (s', a')) ->
    pok s' /\ pc s' = 0 /\ used a' + pc s <= used a + g (length p);
  w_accum_done : forall s r p a e s' a', Rs s r p -> pok s -> s_accum_done so s a = (Err e, (s', a')) ->
    pok s' /\ pc s' = 0 /\ used a' + pc s <= used a + g (length p);
  w_concat : forall t u l1 l2 a e a', Rt t l1 -> Rt u l2 -> tok t -> aok u -> t_concat co t u a = (Err e, a') ->
    used a' + tc t + ac u <= used a + g (length l1 + length l2)%nat;
  w_new : forall d a r a', a_new_datum ao d a = (r, a') -> used a' = used a }.
Context (H : sourced).
Context (HB : forall d, match bnd d with
  | Some (Operative f) => forall t a, used (snd (f d t a)) <= used a
  | Some (Applicative f) => forall l a, used (snd (f d l a)) <= used a
  | None => True
  end).

Local Notation pst := (pstate S A).
Local Notation M X := (M (S:=S) (A:=A) (Pos:=Pos) (CE:=CE) X).
Local Notation wp := (wp (S:=S) (A:=A) (Pos:=Pos) (CE:=CE)).
Implicit Types (r p l : list (item Pos)) (st : pst).
Definition at_ st r p : Prop := Rs (ps_strm st) r p /\ pok (ps_strm st).
Definition net st : Z := used (ps_alloc st) - pc (ps_strm st).
(** At most [g] of the items that are gone of [n]. *)
Definition upto (n : nat) (c : Z) st : Prop :=
  exists r p, at_ st r p /\ (length r + length p <= n)%nat /\ net st <= c + g (n - (length r + length p)).

Lemma g_zero : g 0%nat = 0.
Proof. pose proof (GA 0%nat 0%nat) as G. cbn in G. lia. Qed.
Lemma upto_here st r p : at_ st r p -> upto (length r + length p) (net st) st.
Proof. intros HR. exists r, p. split; [exact HR|]. split; [lia|]. rewrite Nat.sub_diag, g_zero. lia. Qed.
Lemma upto_from n1 c1 n c st : upto n1 c1 st -> (n1 <= n)%nat -> c1 <= c + g (n - n1) -> upto n c st.
Proof.
  intros (r & p & HR & HL & HC) Hn Hc. exists r, p. split; [exact HR|]. split; [lia|].
  pose proof (GA (n - n1) (n1 - (length r + length p))) as G.
  replace ((n - n1) + (n1 - (length r + length p)))%nat with (n - (length r + length p))%nat in G by lia. lia.
Qed.

Lemma w_peek r p (Q : _ -> _ -> Prop) st : at_ st r p ->
  (forall st', at_ st' r p -> net st' = net st -> Q (Ok (hd_error r)) st') -> wp (peek so) Q st.
Proof.
  intros [HR HP] HQ. destruct (sc_peek SC _ _ _ HR) as (s' & E & HR'). unfold Wp.wp, peek. rewrite E.
  destruct (h_peek AM _ HP E) as [P1 P2]. apply HQ; [split; auto|]. unfold net. cbn. lia.
Qed.
Lemma w_next r p (Q : _ -> _ -> Prop) st : at_ st r p ->
  (forall st', at_ st' (tl r) [] -> net st' <= net st + g (length p) -> Q (Ok (hd_error r)) st') -> wp (next so) Q st.
Proof.
  intros [HR HP] HQ. destruct (sc_next SC _ _ _ HR) as (s' & E & HR'). unfold Wp.wp, next. rewrite E.
  destruct (h_next AM _ HP E) as [P1 P2]. apply HQ; [split; auto|]. pose proof (w_pc H HR HP). unfold net. cbn. lia.
Qed.
Lemma w_next_accum' r p (Q : _ -> _ -> Prop) st : at_ st r p ->
  (forall st' p', at_ st' (tl r) p' -> (length (tl r) + length p' = length r + length p)%nat -> net st' <= net st -> Q (Ok (hd_error r)) st') ->
  (forall e st', at_ st' r [] -> net st' <= net st + g (length p) -> Q (Err e) st') -> wp (next_accum so) Q st.
Proof.
  intros [HR HP] HQ HE. destruct (sc_next_accum SC _ (ps_alloc st) _ _ HR) as [(s' & a' & E & _ & HR')|(_ & s' & a' & E & _ & _ & HR')];
    unfold Wp.wp, next_accum; rewrite E.
  - destruct (h_next_accum AM _ _ HP E) as [P1 P2]. eapply HQ; [split; eauto| |unfold net; cbn; lia].
    rewrite app_length. destruct r; cbn; lia.
  - destruct (w_next_accum H _ HR HP E) as (P1 & P2 & P3). apply HE; [split; auto|unfold net; cbn; lia].
Qed.
Lemma w_concat_accum text l r p (Q : _ -> _ -> Prop) st : at_ st r p -> Rt text l -> tok text ->
  (forall st' t', at_ st' r [] -> Rt t' (l ++ p) -> tok t' -> net st' + tc text <= net st + tc t' -> Q (Ok t') st') ->
  (forall e st', at_ st' r [] -> net st' + tc text <= net st + g (length l + length p)%nat -> Q (Err e) st') ->
  wp (concat_accum so co text) Q st.
Proof.
  intros [HR HP] Ht HT HQ HE. unfold concat_accum. apply wp_bind. unfold Wp.wp, accum_done.
  pose proof (w_tc H Ht HT) as Bt.
  destruct (sc_accum_done SC _ (ps_alloc st) _ _ HR) as [(s' & a' & u & E & _ & Hu & HR')|(_ & s' & a' & E & _ & _ & HR')]; rewrite E.
  - destruct (h_accum_done AM _ _ HP E) as (P1 & P2 & P3 & P4). cbn [fst snd res_map_err]. unfold concat. cbn [ps_alloc ps_strm ps_depth].
    destruct (tc_concat TC _ _ _ _ a' Ht Hu) as [(t' & a'' & E2 & _ & Ht')|(_ & a'' & E2 & _ & _)]; rewrite E2; cbn [fst snd res_map_err].
    + destruct (h_concat AM _ _ _ HT P3 E2) as [P5 P6]. eapply HQ; eauto; [split; auto|]. unfold net in *. cbn. lia.
    + pose proof (w_concat H _ Ht Hu HT P3 E2). apply HE; [split; auto|]. unfold net in *. cbn. lia.
  - destruct (w_accum_done H _ HR HP E) as (P1 & P2 & P3). cbn [fst snd res_map_err]. apply HE; [split; auto|].
    pose proof (GA (length l) (length p)). unfold net in *. cbn. lia.
Qed.

(** ** [parse_text] *)
(** With a text of [n] items and cost [c] so far. *)
Definition text_post X n c r p st (o : res (error Pos CE) X) st' : Prop :=
  exists r' p', at_ st' r' p' /\ (length r' + length p' <= length r + length p + n)%nat /\
    net st' + c <= net st + g (length r + length p + n - (length r' + length p')).
Lemma text_lost X text l r p st r' p' st' (o : res (error Pos CE) X) : Rt text l -> tok text -> at_ st' r' p' ->
  (length r' + length p' <= length r + length p)%nat -> net st' <= net st + g (length r + length p - (length r' + length p')) ->
  text_post (length l) (tc text) r p st o st'.
Proof.
  intros Ht HT HR HL HC. exists r', p'. split; [exact HR|]. split; [lia|]. pose proof (w_tc H Ht HT).
  pose proof (GA (length r + length p - (length r' + length p')) (length l)) as G.
  replace (length r + length p - (length r' + length p') + length l)%nat with (length r + length p + length l - (length r' + length p'))%nat in G by lia. lia.
Qed.
Lemma w_done text l nl r p st : at_ st r p -> Rt text l -> tok text ->
  wp (parse_text_done so co text nl) (text_post (length l) (tc text) r p st) st.
Proof.
  intros HR Ht HT. unfold parse_text_done. destruct (nl =? 0)%N.
  2:{ apply wp_raise. eapply text_lost; eauto. rewrite Nat.sub_diag, g_zero. lia. }
  eapply w_concat_accum; eauto.
  - intros st' t' HR' Ht' HT' HC. exists r, []. split; [exact HR'|]. cbn [length]. split; [lia|].
    pose proof (w_tc H Ht' HT') as B. rewrite app_length in B. replace (length r + length p + length l - (length r + 0))%nat with (length l + length p)%nat by lia. lia.
  - intros e st' HR' HC. exists r, []. split; [exact HR'|]. cbn [length]. split; [lia|].
    replace (length r + length p + length l - (length r + 0))%nat with (length l + length p)%nat by lia. lia.
Qed.
Lemma w_check d r p st : at_ st r p -> wp (check_end_char cc so d) (fun o st' =>
  exists r' p', at_ st' r' p' /\ (length r' + length p' <= length r + length p)%nat /\
    net st' <= net st + g (length r + length p - (length r' + length p')) /\
    (o = Ok tt -> r' = r /\ p' = p /\ net st' = net st)) st.
Proof.
  intros HR. unfold check_end_char. apply wp_bind. eapply w_peek; [exact HR|]. intros st1 HR1 C1. cbv beta iota.
  assert (W1 : forall o : res (error Pos CE) unit, exists r' p', at_ st1 r' p' /\ (length r' + length p' <= length r + length p)%nat /\
    net st1 <= net st + g (length r + length p - (length r' + length p')) /\ (o = Ok tt -> r' = r /\ p' = p /\ net st1 = net st)).
  { intros o. exists r, p. split; [exact HR1|]. split; [lia|]. rewrite Nat.sub_diag, g_zero. split; [lia|]. auto. }
  apply wp_bind. unfold assert. destruct (match hd_error r with Some it => is_nest_end cc (it_ch it) | None => false end) eqn:EE; [|apply W1].
  apply wp_ret. destruct (0 <? d)%N; [apply wp_ret, W1|]. apply wp_bind. eapply w_next; [exact HR1|]. intros st2 HR2 C2. cbv beta iota.
  destruct r as [|it r]; [discriminate|]. cbn [hd_error]. apply wp_raise. exists r, []. split; [exact HR2|]. cbn [length tl] in *. split; [lia|].
  split; [|discriminate]. pose proof (@GM (length p) (Datatypes.S (length r) + length p - (length r + 0)) ltac:(lia)). lia.
Qed.
Lemma w_text m : forall fuel text l nl r p st, at_ st r p -> Rt text l -> tok text ->
  wp (parse_text_loop umax cc so co fuel m text nl) (text_post (length l) (tc text) r p st) st.
Proof.
  induction fuel as [|fuel IH]; intros text l nl r p st HR Ht HT; cbn [parse_text_loop].
  { eapply text_lost; eauto. rewrite Nat.sub_diag, g_zero. cbn. lia. }
  apply wp_bind. eapply w_peek; [exact HR|]. intros st1 HR1 C1. cbv beta iota.
  assert (EQ : forall o s, text_post (length l) (tc text) r p st1 o s -> text_post (X:=TT) (length l) (tc text) r p st o s).
  { intros o s (r' & p' & ?). exists r', p'. rewrite <- C1. assumption. }
  assert (DONE : wp (parse_text_done so co text nl) (text_post (length l) (tc text) r p st) st1).
  { eapply wp_mono; [eapply w_done; eauto|]. exact EQ. }
  destruct r as [|it r]; cbn [hd_error]; [exact DONE|].
  destruct ((nl =? 0)%N && is_end_char cc (it_ch it) m)%bool; [exact DONE|].
  assert (TAKE : forall text' l' nl' r1 p1 st2, at_ st2 r1 p1 -> Rt text' l' -> tok text' ->
     wp (bind (next_accum so) (fun _ => parse_text_loop umax cc so co fuel m text' nl')) (text_post (length l') (tc text') r1 p1 st2) st2).
  { intros text' l' nl' r1 p1 st2 HR2 Ht' HT'. apply wp_bind. eapply w_next_accum'; [exact HR2| |].
    - intros st3 p3 HR3 HL3 C3. cbv beta iota. eapply wp_mono; [eapply IH; eauto|]. intros o st4 (r4 & p4 & HR4 & HL4 & C4).
      exists r4, p4. split; [exact HR4|]. rewrite HL3 in *. split; [lia|]. lia.
    - intros e st3 HR3 C3. eapply text_lost; eauto; cbn [length]; [lia|].
      replace (length r1 + length p1 - (length r1 + 0))%nat with (length p1) by lia. lia. }
  destruct (is_nest_escape cc (it_ch it)).
  { apply wp_bind. eapply w_concat_accum; eauto.
    - intros st2 t' HR2 Ht' HT' C2. apply wp_bind. eapply w_next; [exact HR2|]. intros st3 HR3 C3. cbn [hd_error]. cbn [tl] in HR3.
      eapply wp_mono; [eapply TAKE; eauto|]. intros o st4 (r4 & p4 & HR4 & HL4 & C4). exists r4, p4. split; [exact HR4|].
      rewrite app_length in *. cbn [length] in *. rewrite g_zero in C3. split; [lia|].
      pose proof (@GM (length r + 0 + (length l + length p) - (length r4 + length p4)) (Datatypes.S (length r) + length p + length l - (length r4 + length p4)) ltac:(lia)). lia.
    - intros e st2 HR2 C2. exists (it :: r), []. split; [exact HR2|]. cbn [length]. split; [lia|].
      replace (Datatypes.S (length r) + length p + length l - (Datatypes.S (length r) + 0))%nat with (length l + length p)%nat by lia. lia. }
  assert (GO : forall nl', wp (bind (next_accum so) (fun _ => parse_text_loop umax cc so co fuel m text nl')) (text_post (length l) (tc text) (it :: r) p st) st1).
  { intros nl'. eapply wp_mono; [eapply TAKE; eauto|]. exact EQ. }
  destruct (is_nest_start cc (it_ch it)).
  { destruct (nl <? umax)%N; [apply GO|]. apply wp_bind. eapply w_next_accum'; [exact HR1| |].
    - intros st2 p2 HR2 HL2 C2. cbv beta iota. apply EQ. eapply text_lost; eauto; [rewrite HL2; lia|]. rewrite HL2, Nat.sub_diag, g_zero. cbn. lia.
    - intros e st2 HR2 C2. apply EQ. eapply text_lost; eauto; cbn [length]; [lia|]. replace (Datatypes.S (length r) + length p - (Datatypes.S (length r) + 0))%nat with (length p) by lia. lia. }
  destruct (is_nest_end cc (it_ch it)); [|apply GO].
  destruct (0 <? nl)%N; [apply GO|]. apply wp_bind, wp_get_depth. apply wp_bind. eapply wp_mono; [eapply w_check; exact HR1|].
  intros o st2 (r2 & p2 & HR2 & HL2 & C2 & OK2). destruct o as [[]|e| |]; try (apply EQ; eapply text_lost; eauto; fail).
  destruct (OK2 eq_refl) as (-> & -> & N2). eapply wp_mono; [eapply w_done; eauto|].
  intros o st3 (r3 & p3 & HR3 & HL3 & C3). exists r3, p3. split; [exact HR3|]. split; [exact HL3|]. lia.
Qed.

(** ** The parser *)
Definition within {X} (m : M X) : Prop := forall r p st, at_ st r p -> wp m (fun _ => upto (length r + length p) (net st)) st.
Lemma in_bind X Y (m : M X) (f : X -> M Y) : within m -> (forall v, within (f v)) -> within (bind m f).
Proof.
  intros Hm Hf r p st HR. apply wp_bind. eapply wp_mono; [apply Hm; exact HR|]. intros o st1 (r1 & p1 & HR1 & HL1 & C1).
  assert (U1 : upto (length r + length p) (net st) st1) by (exists r1, p1; auto).
  destruct o as [v|e| |]; try exact U1. eapply wp_mono; [apply Hf; exact HR1|]. intros o st2 U2. eapply upto_from; [exact U2|exact HL1|exact C1].
Qed.
Lemma in_same X (m : M X) : (forall st, ps_strm (snd (m st)) = ps_strm st /\ used (ps_alloc (snd (m st))) <= used (ps_alloc st)) -> within m.
Proof.
  intros Hm r p st [HR HP]. unfold Wp.wp. destruct (Hm st) as [E1 E2]. exists r, p. unfold at_, net. rewrite E1. split; [auto|].
  split; [lia|]. rewrite Nat.sub_diag, g_zero. lia.
Qed.
Lemma in_ret X (v : X) : within (ret v).
Proof. apply in_same. intros st. cbn. split; [reflexivity|lia]. Qed.
Lemma in_raise X e : within (raise (X:=X) e).
Proof. apply in_same. intros st. cbn. split; [reflexivity|lia]. Qed.
Lemma in_assert b : within (assert b).
Proof. destruct b; apply in_same; intros st; cbn; (split; [reflexivity|lia]). Qed.
Lemma in_get_depth : within get_depth.
Proof. apply in_same. intros st. cbn. split; [reflexivity|lia]. Qed.
Lemma in_incr : within (incr_depth umax).
Proof. apply in_same. intros st. unfold incr_depth. destruct (ps_depth st <? umax)%N; cbn; (split; [reflexivity|lia]). Qed.
Lemma in_decr : within decr_depth.
Proof. apply in_same. intros st. unfold decr_depth. destruct (0 <? ps_depth st)%N; cbn; (split; [reflexivity|lia]). Qed.
Lemma in_new d : within (new_datum ao d).
Proof.
  apply in_same. intros st. unfold new_datum. destruct (a_new_datum ao d (ps_alloc st)) as [o a] eqn:E. pose proof (w_new H _ _ E) as U.
  destruct o; cbn; (split; [reflexivity|lia]).
Qed.
Lemma in_call X (f : A -> (X + error Pos CE) * A) : (forall a, used (snd (f a)) <= used a) -> within (call f).
Proof.
  intros Hf. apply in_same. intros st. unfold call. specialize (Hf (ps_alloc st)). destruct (f (ps_alloc st)) as [[v|e] a]; cbn in *; (split; [reflexivity|lia]).
Qed.
Lemma in_finally X (m : M X) : within m -> within (finally m decr_depth).
Proof.
  intros Hm r p st HR. apply wp_finally. eapply wp_mono; [apply Hm; exact HR|]. intros o st1 (r1 & p1 & HR1 & HL1 & C1).
  assert (U1 : upto (length r + length p) (net st) st1) by (exists r1, p1; auto).
  destruct o as [v|e| |]; try exact U1; (eapply wp_mono; [apply in_decr; exact HR1|]; intros o st2 U2; assert (U : upto (length r + length p) (net st) st2) by (eapply upto_from; [exact U2|exact HL1|exact C1]); destruct o; exact U).
Qed.
Lemma in_peek : within (peek so).
Proof. intros r p st HR. eapply w_peek; [exact HR|]. intros st' HR' E. rewrite <- E. apply upto_here. exact HR'. Qed.
Lemma in_next : within (next so).
Proof.
  intros r p st HR. eapply w_next; [exact HR|]. intros st' HR' E. exists (tl r), []. split; [exact HR'|].
  assert (L : (length (tl r) <= length r)%nat) by (destruct r; cbn; lia). cbn [length]. split; [lia|].
  pose proof (@GM (length p) (length r + length p - (length (tl r) + 0)) ltac:(lia)). lia.
Qed.
Lemma in_check d : within (check_end_char cc so d).
Proof.
  intros r p st HR. eapply wp_mono; [eapply w_check; exact HR|]. intros o st' (r' & p' & HR' & HL & C & _). exists r', p'. auto.
Qed.
Lemma in_skip fuel : within (skip_whitespace cc so fuel).
Proof.
  induction fuel as [|f IH]; cbn [skip_whitespace]; [apply in_same; intros st; cbn; split; [reflexivity|lia]|].
  apply in_bind; [apply in_peek|]. intros [it|]; [|apply in_ret].
  destruct (is_whitespace cc (it_ch it)); [|apply in_ret]. apply in_bind; [apply in_next|]. auto.
Qed.
Lemma in_text fuel m : within (parse_text umax cc so co fuel m).
Proof.
  intros r p st HR. unfold parse_text. destruct (h_empty AM) as [T1 T2]. eapply wp_mono; [eapply w_text; eauto; apply (tc_empty TC)|].
  intros o st' (r' & p' & HR' & HL & C). exists r', p'. cbn [length] in *. rewrite Nat.add_0_r in *. split; [exact HR'|]. split; [exact HL|]. lia.
Qed.
Lemma in_nest_end : within (nest_end cc so).
Proof. unfold nest_end. apply in_bind; [apply in_next|]. intros [it|]; [apply in_assert|apply in_raise]. Qed.

Lemma in_parser fuel :
  (forall m, within (parse_next umax cc so co ao bnd fuel m)) /\
  within (parse_nested umax cc so co ao bnd fuel) /\
  (forall m, within (parse_all umax cc so co ao bnd fuel m)).
Proof.
  induction fuel as [|fuel (IH1 & IH2 & IH3)].
  { split; [|split]; intros; apply in_same; intros st; cbn; (split; [reflexivity|lia]). }
  split; [|split].
  - intros m. cbn [parse_next]. cbv zeta. apply in_bind.
    { destruct (is_operator_mode m); [apply in_skip|apply in_ret]. }
    intros _. apply in_bind; [apply in_peek|]. intros [it|].
    2:{ apply in_bind; [apply in_get_depth|]. intros d. destruct (d =? 0)%N; [apply in_ret|apply in_raise]. }
    destruct (is_nest_start cc (it_ch it)).
    { apply in_bind; [apply in_incr|]. intros _. apply in_bind; [apply in_finally; exact IH2|]. intros [d|]; [apply in_ret|apply IH1]. }
    destruct (is_nest_end cc (it_ch it)).
    { apply in_bind; [apply in_get_depth|]. intros d. apply in_bind; [apply in_check|]. intros _. apply in_ret. }
    apply in_bind; [apply in_text|]. intros t. apply in_ret.
  - cbn [parse_nested]. apply in_bind; [apply in_next|]. intros o. apply in_bind; [apply in_assert|]. intros _.
    apply in_bind; [apply IH1|]. intros op. apply in_bind; [apply in_peek|]. intros p. apply in_bind.
    { destruct p as [it|]; [|apply in_ret]. destruct (is_whitespace cc (it_ch it)); [|apply in_ret]. apply in_bind; [apply in_next|]. intros _. apply in_ret. }
    intros _. destruct op as [op|].
    + pose proof (HB op) as B. destruct (bnd op) as [[f|f]|].
      * apply in_bind; [apply in_text|]. intros t. apply in_bind; [apply in_nest_end|]. intros _. apply in_call. auto.
      * apply in_bind; [apply IH3|]. intros t. apply in_bind; [apply in_nest_end|]. intros _. apply in_call. auto.
      * apply in_bind; [apply IH3|]. intros t. apply in_bind; [apply in_nest_end|]. intros _.
        apply in_bind; [apply in_new|]. intros d1. apply in_bind; [apply in_new|]. intros d2. apply in_ret.
    + apply in_bind; [apply in_nest_end|]. intros _. apply in_ret.
  - intros m. cbn [parse_all]. apply in_bind; [apply IH1|]. intros [d|]; [|apply in_ret].
    apply in_bind; [apply in_new|]. intros d1. apply in_bind; [apply in_new|]. intros d2.
    apply in_bind; [apply in_same; intros st; cbn; split; [reflexivity|lia]|]. intros b. destruct b; [|apply in_raise].
    apply in_bind; [apply IH3|]. intros rest. apply in_ret.
Qed.

Lemma nexts_within st os st' r p : at_ st r p -> nexts umax cc so co ao bnd st os st' -> upto (length r + length p) (net st) st'.
Proof.
  intros HR N. revert r p HR. induction N as [st|fuel st o st1 os st2 E _ IH]; intros r p HR; [apply upto_here; exact HR|].
  pose proof (proj1 (in_parser fuel) Base r p st HR) as U. unfold Wp.wp in U. unfold iter_next, do_next in E.
  destruct (parse_next umax cc so co ao bnd fuel Base st) as [[[d|]|e| |] s1]; try discriminate; injection E as _ <-; cbn [fst snd] in U;
    destruct U as (r1 & p1 & HR1 & HL1 & C1); (eapply upto_from; [apply IH; exact HR1|exact HL1|exact C1]).
Qed.
(** Nothing being accumulated at the start. *)
Lemma nexts_source st os st' r : Rs (ps_strm st) r [] -> pok (ps_strm st) -> pc (ps_strm st) = 0 -> nexts umax cc so co ao bnd st os st' ->
  exists r' p', Rs (ps_strm st') r' p' /\ (length r' + length p' <= length r)%nat /\
    used (ps_alloc st') <= used (ps_alloc st) + g (length r - length r').
Proof.
  intros HR HP HC N. destruct (nexts_within (conj HR HP) N) as (r' & p' & [HR' HP'] & HL & C). exists r', p'. cbn [length] in *. rewrite Nat.add_0_r in *.
  split; [exact HR'|]. split; [exact HL|]. pose proof (w_pc H HR' HP'). unfold net in C. rewrite HC in C.
  pose proof (GA (length r - (length r' + length p')) (length p')) as G.
  replace (length r - (length r' + length p') + length p')%nat with (length r - length r')%nat in G by lia. lia.
Qed.
End Work.
