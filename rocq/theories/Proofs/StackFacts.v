(** The stack frames that parsing uses. *)
From Coq Require Import List Arith NArith Bool Lia.
From Verif.Model Require Import Prelude Parser Iter Stack.
From Verif.Spec Require Import Contract Grammar Nesting History.
From Verif.Proofs Require Import Wp Depth.
Import ListNotations.
Set Implicit Arguments.

Section Erase.
Context {S A TT ET Pos CE : Type}.
Context (umax : N) (cc : classifier) (so : stream_ops S A TT Pos) (co : concat_ops A TT)
        (ao : alloc_ops A TT ET) (bnd : bindings A TT ET Pos CE).

Definition erases {X} (t : T (S:=S) (A:=A) (Pos:=Pos) (CE:=CE) X) (m : M X) : Prop := forall k st, fst (t k st) = m st.
Lemma er_here X (m : M X) : erases (here m) m.
Proof. intros k st. reflexivity. Qed.
Lemma er_push X t (m : M X) : erases t m -> erases (push t) m.
Proof. intros H k st. apply H. Qed.
Lemma er_leaf X (m : M X) : erases (leaf m) m.
Proof. apply er_push, er_here. Qed.
Lemma er_text_leaf X (m : M X) : erases (text_leaf m) m.
Proof. apply er_push, er_push, er_here. Qed.
Lemma er_bind X Y t (m : M X) f (g : X -> M Y) : erases t m -> (forall x, erases (f x) (g x)) -> erases (tbind t f) (bind m g).
Proof.
  intros H1 H2 k st. specialize (H1 k st). unfold tbind, bind. destruct (t k st) as [[[x|e| |] st'] n]; cbn in H1; rewrite <- H1; try reflexivity.
  specialize (H2 x k st'). destruct (f x k st') as [o n']. exact H2.
Qed.
Lemma er_finally X t (m : M X) fin : erases t m -> erases (tfinally t fin) (finally m fin).
Proof.
  intros H k st. specialize (H k st). unfold tfinally, finally. destruct (t k st) as [o n]. cbn in *. rewrite H. reflexivity.
Qed.
Hint Resolve er_here er_leaf er_text_leaf er_push er_finally : er.
Lemma erase fuel :
  (forall m, erases (t_parse_next umax cc so co ao bnd fuel m) (parse_next umax cc so co ao bnd fuel m)) /\
  erases (t_parse_nested umax cc so co ao bnd fuel) (parse_nested umax cc so co ao bnd fuel) /\
  (forall m, erases (t_parse_all umax cc so co ao bnd fuel m) (parse_all umax cc so co ao bnd fuel m)).
Proof.
  induction fuel as [|f (IH1 & IH2 & IH3)]; [repeat split; intros; apply er_here|].
  split; [|split].
  - intros m. cbn [t_parse_next parse_next]. cbv zeta. apply er_bind; [destruct (is_operator_mode m); auto with er|]. intros _.
    apply er_bind; [auto with er|]. intros [it|].
    + destruct (is_nest_start cc (it_ch it)); [|destruct (is_nest_end cc (it_ch it))].
      * apply er_bind; [auto with er|]. intros _. apply er_bind; [auto with er|]. intros [d|]; auto with er.
      * apply er_bind; [auto with er|]. intros d. apply er_bind; auto with er.
      * apply er_bind; auto with er.
    + apply er_bind; [auto with er|]. intros d. destruct (d =? 0)%N; auto with er.
  - cbn [t_parse_nested parse_nested]. apply er_bind; [auto with er|]. intros o. apply er_bind; [auto with er|]. intros _.
    apply er_bind; [auto with er|]. intros op. apply er_bind; [auto with er|]. intros o'. apply er_bind; [auto with er|]. intros _.
    destruct op as [op|]; [|apply er_bind; auto with er].
    destruct (bnd op) as [[g|g]|]; (apply er_bind; [auto with er|]); intros x; (apply er_bind; [auto with er|]); intros _; auto with er.
    apply er_bind; [auto with er|]. intros r1. apply er_bind; auto with er.
  - intros m. cbn [t_parse_all parse_all]. apply er_bind; [auto with er|]. intros [d|]; [|auto with er].
    apply er_bind; [auto with er|]. intros e. apply er_bind; [auto with er|]. intros n. apply er_bind; [auto with er|]. intros b.
    destruct b; [|auto with er]. apply er_bind; [auto with er|]. auto with er.
Qed.
End Erase.

(** The counter. *)
Section Counter.
Context {Pos : Type} (cc : classifier) (DC : disjoint_classes cc).
Local Notation deep := (@deepest Pos cc false).
Implicit Types (x : item Pos) (s : list (item Pos)).
Lemma deep_ge : forall s e d, d <= @deepest Pos cc e d s.
Proof.
  induction s as [|x s IH]; intros e d; cbn; [lia|]. destruct e; [apply IH|].
  destruct (is_nest_escape cc (it_ch x)); [apply IH|]. destruct (is_nest_start cc (it_ch x)); [specialize (IH false (S d)); lia|].
  destruct (is_nest_end cc (it_ch x)); [lia|apply IH].
Qed.
Lemma deep_mono : forall s e d d', d <= d' -> @deepest Pos cc e d s <= @deepest Pos cc e d' s.
Proof.
  induction s as [|x s IH]; intros e d d' H; cbn; [lia|]. destruct e; [apply IH; lia|].
  destruct (is_nest_escape cc (it_ch x)); [apply IH; lia|]. destruct (is_nest_start cc (it_ch x)); [apply IH; lia|].
  destruct (is_nest_end cc (it_ch x)); [specialize (IH false (Nat.pred d) (Nat.pred d')); lia|apply IH; lia].
Qed.
Lemma deep_start d x s : is_nest_start cc (it_ch x) = true -> deep d (x :: s) = deep (S d) s.
Proof. intros H. cbn. destruct (dc_start DC _ H) as (_ & -> & _). rewrite H. reflexivity. Qed.
Lemma deep_end d x s : is_nest_end cc (it_ch x) = true -> deep d (x :: s) = Nat.max d (deep (Nat.pred d) s).
Proof.
  intros H. cbn. destruct (dc_end DC _ H) as (-> & _). rewrite H.
  destruct (is_nest_start cc (it_ch x)) eqn:E; [apply (dc_start DC) in E; destruct E; congruence|reflexivity].
Qed.
Lemma deep_white d x s : is_whitespace cc (it_ch x) = true -> deep d (x :: s) = deep d s.
Proof.
  intros H. cbn. destruct (is_nest_escape cc (it_ch x)) eqn:E1; [apply (dc_escape DC) in E1; congruence|].
  destruct (is_nest_start cc (it_ch x)) eqn:E2; [apply (dc_start DC) in E2; destruct E2 as (? & ? & ?); congruence|].
  destruct (is_nest_end cc (it_ch x)) eqn:E3; [apply (dc_end DC) in E3; destruct E3 as (? & ?); congruence|reflexivity].
Qed.
Lemma deep_escaped d x s : is_nest_escape cc (it_ch x) = true -> deep d (tl s) <= deep d (x :: s).
Proof. intros H. cbn. rewrite H. destruct s as [|y s]; cbn; lia. Qed.
Lemma deep_plain d x s : is_nest_escape cc (it_ch x) = false -> is_nest_start cc (it_ch x) = false ->
  is_nest_end cc (it_ch x) = false -> deep d (x :: s) = deep d s.
Proof. intros H1 H2 H3. cbn. rewrite H1, H2, H3. reflexivity. Qed.
End Counter.

Section Bound.
Context {S A TT ET Pos CE : Type}.
Context (umax : N) (cc : classifier) (DC : disjoint_classes cc).
Context (so : stream_ops S A TT Pos) (co : concat_ops A TT) (ao : alloc_ops A TT ET) (bnd : bindings A TT ET Pos CE).
Context (Rs : S -> list (item Pos) -> list (item Pos) -> Prop) (Rt : TT -> list (item Pos) -> Prop).
Context {W : Type} (F : Prop) (view : A -> W).
Context (SC : stream_contract F view so Rs Rt) (TC : concat_contract F view co Rt).
Implicit Types st : pstate S A.
Local Notation deep := (@deepest Pos cc false).
Local Notation Mp := (M (S:=S) (A:=A) (Pos:=Pos) (CE:=CE)).
Local Notation Tp := (T (S:=S) (A:=A) (Pos:=Pos) (CE:=CE)).

Context (D : nat).
(** What holds after an error: some items are to come that nest no deeper than [D],
    and nothing is pending unless at the end. *)
Definition err_ok st : Prop := exists r p, Rs (ps_strm st) r p /\ (p = [] \/ r = []) /\ deep 0 r <= D.
(** What holds after a success, and after an error. *)
Definition okq {X} (Q : X -> pstate S A -> Prop) : res (error Pos CE) X -> pstate S A -> Prop :=
  fun r st => match r with Ok x => Q x st | Err _ => err_ok st | _ => True end.
Definition okp {X} (m : Mp X) (Q : X -> pstate S A -> Prop) st : Prop := wp m (okq Q) st.
(** No more than [b] frames, and what holds after a success. *)
Definition fits {X} (t : Tp X) (k b : nat) (Q : X -> pstate S A -> Prop) st : Prop :=
  snd (t k st) <= b /\ okq Q (fst (fst (t k st))) (snd (fst (t k st))).

Lemma fits_here X (m : Mp X) k b Q st : k <= b -> okp m Q st -> fits (here m) k b Q st.
Proof. intros H1 H2. split; [exact H1|exact H2]. Qed.
Lemma fits_push X (t : Tp X) k b Q st : fits t (Datatypes.S k) b Q st -> fits (push t) k b Q st.
Proof. exact (fun H => H). Qed.
Lemma fits_leaf X (m : Mp X) k b Q st : Datatypes.S k <= b -> okp m Q st -> fits (leaf m) k b Q st.
Proof. intros. apply fits_push, fits_here; auto. Qed.
Lemma fits_text X (m : Mp X) k b Q st : 2 + k <= b -> okp m Q st -> fits (text_leaf m) k b Q st.
Proof. intros. apply fits_push, fits_push, fits_here; auto. Qed.
Lemma fits_bind X Y (t : Tp X) (f : X -> Tp Y) k b Q st :
  fits t k b (fun x st' => fits (f x) k b Q st') st -> fits (tbind t f) k b Q st.
Proof.
  unfold fits, tbind. intros (H1 & H2). destruct (t k st) as [[[x|e| |] st'] n]; cbn in *; auto.
  destruct H2 as (H2 & H3). destruct (f x k st') as [o n']; cbn in *. split; [lia|auto].
Qed.
Lemma fits_mono X (t : Tp X) k b b' (Q Q' : X -> _ -> Prop) st :
  fits t k b Q st -> b <= b' -> (forall x st', Q x st' -> Q' x st') -> fits t k b' Q' st.
Proof.
  intros (H1 & H2) Hb H. split; [lia|]. destruct (t k st) as [[[x|e| |] st'] n]; cbn in *; auto.
Qed.
Lemma fits_finally X (t : Tp X) fin k b (Q : X -> _ -> Prop) st :
  (forall st', err_ok st' -> okp fin (fun _ => err_ok) st') ->
  fits t k b (fun x st' => okp fin (fun _ st'' => Q x st'') st') st -> fits (tfinally t fin) k b Q st.
Proof.
  unfold fits, tfinally. intros HF (H1 & H2). destruct (t k st) as [[[x|e| |] st'] n]; cbn in *; unfold finally, bind, okp, wp in *; auto;
    try (specialize (HF st' H2)); try (destruct (fin st') as [[u|e'| |] st'']; cbn in *; auto); auto.
Qed.
Lemma okp_bind X Y (m : Mp X) (f : X -> Mp Y) Q st : okp m (fun x st' => okp (f x) Q st') st -> okp (bind m f) Q st.
Proof. unfold okp. intros H. apply wp_bind. eapply wp_mono; [exact H|]. intros [x|e| |] st'; cbn; auto. Qed.
Lemma okp_mono X (m : Mp X) (Q Q' : X -> _ -> Prop) st : okp m Q st -> (forall x st', Q x st' -> Q' x st') -> okp m Q' st.
Proof. unfold okp. intros H HQ. eapply wp_mono; [exact H|]. intros [x|e| |] st'; cbn; auto. Qed.
Lemma okp_ret X (x : X) (Q : X -> _ -> Prop) st : Q x st -> okp (ret x) Q st.
Proof. exact (fun H => H). Qed.
Lemma okp_raise X e (Q : X -> _ -> Prop) st : err_ok st -> okp (raise e) Q st.
Proof. exact (fun H => H). Qed.
Lemma err_at r st d : Rs (ps_strm st) r [] -> deep d r <= D -> err_ok st.
Proof. intros H Hd. exists r, []. split; [exact H|]. split; [auto|]. pose proof (@deep_mono Pos cc r false 0 d (Nat.le_0_l _)). lia. Qed.
Lemma err_end st p : Rs (ps_strm st) [] p -> err_ok st.
Proof. intros H. exists [], p. split; [exact H|]. split; [auto|]. cbn. lia. Qed.
Lemma okp_panic X (Q : X -> _ -> Prop) st : okp panic Q st.
Proof. exact I. Qed.
Lemma okp_nofuel X (Q : X -> _ -> Prop) st : okp nofuel Q st.
Proof. exact I. Qed.
Lemma okp_depth (Q : N -> _ -> Prop) st : Q (ps_depth st) st -> okp get_depth Q st.
Proof. exact (fun H => H). Qed.
Lemma okp_assert b (Q : unit -> _ -> Prop) st : (b = true -> Q tt st) -> okp (assert b) Q st.
Proof. unfold okp. intros H. destruct b; [exact (H eq_refl)|exact I]. Qed.
Lemma okp_peek r p (Q : _ -> _ -> Prop) st : Rs (ps_strm st) r p ->
  (forall st', Rs (ps_strm st') r p -> ps_depth st' = ps_depth st -> Q (hd_error r) st') -> okp (peek so) Q st.
Proof. intros H HQ. unfold okp. eapply wp_peek; [exact SC|exact H|]. intros. apply HQ; auto. Qed.
Lemma okp_next r p (Q : _ -> _ -> Prop) st : Rs (ps_strm st) r p ->
  (forall st', Rs (ps_strm st') (tl r) [] -> ps_depth st' = ps_depth st -> Q (hd_error r) st') -> okp (next so) Q st.
Proof. intros H HQ. unfold okp. eapply wp_next; [exact SC|exact H|]. intros. apply HQ; auto. Qed.
Lemma okp_next_accum r p (Q : _ -> _ -> Prop) st : Rs (ps_strm st) r p ->
  (forall st', Rs (ps_strm st') (tl r) (p ++ firstn 1 r) -> ps_depth st' = ps_depth st -> Q (hd_error r) st') ->
  (p <> [] -> deep 0 r <= D) -> okp (next_accum so) Q st.
Proof. intros H HQ HD. unfold okp. eapply wp_next_accum; [exact SC|exact H| |]; intros; cbn; auto. eapply err_at; eauto. Qed.
Lemma okp_concat_accum text tl r p (Q : _ -> _ -> Prop) st : Rs (ps_strm st) r p -> Rt text tl ->
  (forall t st', Rt t (tl ++ p) -> Rs (ps_strm st') r [] -> ps_depth st' = ps_depth st -> Q t st') ->
  deep 0 r <= D -> okp (concat_accum so co text) Q st.
Proof. intros H Ht HQ HD. unfold okp. eapply wp_concat_accum; [exact SC|exact TC|exact H|exact Ht| |]; intros; cbn; auto. eapply err_at; eauto. Qed.

(** The state is at items [r] of depth [d], within [b]. *)
Definition at_depth (d : N) (b : nat) st : Prop :=
  ps_depth st = d /\ exists r, Rs (ps_strm st) r [] /\ deep (N.to_nat d) r <= b.

Lemma k_skip : forall fuel r st, Rs (ps_strm st) r [] ->
  okp (skip_whitespace cc so fuel) (fun _ => at_depth (ps_depth st) (deep (N.to_nat (ps_depth st)) r)) st.
Proof.
  induction fuel as [|f IH]; intros r st H; [exact I|]. cbn [skip_whitespace]. apply okp_bind. eapply okp_peek; [exact H|].
  intros st1 H1 D1. assert (DONE : at_depth (ps_depth st) (deep (N.to_nat (ps_depth st)) r) st1) by (split; [auto|exists r; auto]).
  destruct r as [|x r]; cbn [hd_error]; [apply okp_ret; auto|].
  destruct (is_whitespace cc (it_ch x)) eqn:E; [|apply okp_ret; auto].
  apply okp_bind. eapply okp_next; [exact H1|]. cbn [hd_error tl]. intros st2 H2 D2. rewrite (deep_white DC) by exact E.
  eapply okp_mono; [apply IH; exact H2|]. cbn beta. intros _ st3. replace (ps_depth st2) with (ps_depth st) by congruence. auto.
Qed.

Lemma k_done text tl nl r p st : Rs (ps_strm st) r p -> Rt text tl -> deep 0 r <= D -> (nl <> 0%N -> r = []) ->
  okp (parse_text_done so co text nl) (fun _ st' => ps_depth st' = ps_depth st /\ Rs (ps_strm st') r []) st.
Proof.
  intros H Ht HD Hn. unfold parse_text_done. destruct (N.eqb_spec nl 0) as [E|NE].
  - eapply okp_concat_accum; eauto.
  - apply okp_raise. rewrite (Hn NE) in H. eapply err_end; exact H.
Qed.

Lemma k_check r p d st : Rs (ps_strm st) r p -> deep 0 r <= D ->
  okp (check_end_char cc so d) (fun _ st' => ps_depth st' = ps_depth st /\ Rs (ps_strm st') r p) st.
Proof.
  intros H HD. unfold check_end_char. apply okp_bind. eapply okp_peek; [exact H|]. intros st1 H1 D1. apply okp_bind, okp_assert. intros E.
  destruct (0 <? d)%N; [apply okp_ret; auto|]. destruct r as [|x r]; [discriminate|]. cbn [hd_error] in E.
  apply okp_bind. eapply okp_next; [exact H1|]. cbn [hd_error tl]. intros st2 H2 D2. apply okp_raise. eapply err_at; [exact H2|].
  instantiate (1 := 0). rewrite (deep_end DC) in HD by exact E. cbn [Nat.pred] in HD. lia.
Qed.

Lemma k_text_loop : forall fuel m text tl nl r p st, Rs (ps_strm st) r p -> Rt text tl ->
  deep (N.to_nat (ps_depth st) + N.to_nat nl) r <= D ->
  okp (parse_text_loop umax cc so co fuel m text nl)
      (fun _ => at_depth (ps_depth st) (deep (N.to_nat (ps_depth st) + N.to_nat nl) r)) st.
Proof.
  induction fuel as [|f IH]; intros m text tl nl r p st H Ht HD; [exact I|]. cbn [parse_text_loop]. apply okp_bind. eapply okp_peek; [exact H|].
  intros st1 H1 D1. set (d := N.to_nat (ps_depth st)).
  fold d in HD. assert (H0 : deep 0 r <= D) by (pose proof (@deep_mono Pos cc r false 0 (d + N.to_nat nl) (Nat.le_0_l _)); lia).
  assert (DONE : (nl <> 0%N -> r = []) -> okp (parse_text_done so co text nl) (fun _ => at_depth (ps_depth st) (deep (d + N.to_nat nl) r)) st1).
  { intros Hn. destruct (N.eqb_spec nl 0) as [->|NE].
    - eapply okp_mono; [eapply k_done; eauto|]. cbn beta. intros _ st2 (D2 & H2). split; [congruence|]. exists r. split; [exact H2|].
      rewrite Nat.add_0_r. reflexivity.
    - unfold parse_text_done. pose proof (proj2 (N.eqb_neq _ _) NE) as Z. rewrite Z. apply okp_raise. rewrite (Hn NE) in H1. eapply err_end; exact H1. }
  assert (GO : forall st2 text2 tl2 nl2 r2 p2, Rs (ps_strm st2) r2 p2 -> Rt text2 tl2 -> ps_depth st2 = ps_depth st ->
    deep (d + N.to_nat nl2) r2 <= deep (d + N.to_nat nl) r ->
    okp (parse_text_loop umax cc so co f m text2 nl2) (fun _ => at_depth (ps_depth st) (deep (d + N.to_nat nl) r)) st2).
  { intros st2 text2 tl2 nl2 r2 p2 H2 Ht2 D2 Hd. eapply okp_mono; [eapply IH; eauto; rewrite D2; fold d; lia|]. cbn beta. rewrite D2. intros _ st3 (D3 & r3 & H3 & Hd3).
    split; [exact D3|]. exists r3. split; [exact H3|]. fold d in Hd3 |- *. lia. }
  destruct r as [|x r]; cbn [hd_error]; [apply DONE; auto|]. cbv zeta.
  destruct ((nl =? 0)%N && is_end_char cc (it_ch x) m) eqn:E0.
  { apply DONE. apply andb_true_iff in E0. destruct E0 as [Z _]. apply N.eqb_eq in Z. intros NE. contradiction. }
  pose proof (deep_mono cc (x :: r) false (Nat.le_0_l (d + N.to_nat nl))) as HM.
  destruct (is_nest_escape cc (it_ch x)) eqn:E1.
  { apply okp_bind. eapply okp_concat_accum; [exact H1|exact Ht| |exact H0]. intros t2 st2 Ht2 H2 D2. apply okp_bind.
    eapply okp_next; [exact H2|]. cbn [hd_error List.tl]. intros st3 H3 D3. apply okp_bind. eapply okp_next_accum; [exact H3| |congruence]. intros st4 H4 D4.
    eapply GO; [exact H4|exact Ht2|congruence|]. apply deep_escaped; exact E1. }
  destruct (is_nest_start cc (it_ch x)) eqn:E2.
  { apply okp_bind. eapply okp_next_accum; [exact H1| |auto]. cbn [hd_error List.tl]. intros st2 H2 D2.
    destruct (nl <? umax)%N; [|exact I]. eapply GO; [exact H2|exact Ht|congruence|]. rewrite (deep_start DC) by exact E2.
    replace (d + N.to_nat (nl + 1)) with (Datatypes.S (d + N.to_nat nl)) by lia. lia. }
  destruct (is_nest_end cc (it_ch x)) eqn:E3.
  { destruct (N.ltb_spec 0 nl) as [Z|Z].
    - apply okp_bind. eapply okp_next_accum; [exact H1| |auto]. cbn [hd_error List.tl]. intros st2 H2 D2.
      eapply GO; [exact H2|exact Ht|congruence|]. rewrite (deep_end DC) by exact E3.
      replace (d + N.to_nat (nl - 1)) with (Nat.pred (d + N.to_nat nl)) by lia. lia.
    - apply okp_bind, okp_depth, okp_bind. eapply okp_mono; [eapply k_check; [exact H1|exact H0]|]. cbn beta. intros _ st2 (D2 & H2).
      assert (nl = 0%N) as -> by lia. eapply okp_mono; [eapply k_done; eauto; congruence|]. cbn beta. intros _ st3 (D3 & H3). split; [congruence|].
      exists (x :: r). split; [exact H3|]. fold d. rewrite Nat.add_0_r. reflexivity. }
  apply okp_bind. eapply okp_next_accum; [exact H1| |auto]. cbn [hd_error List.tl]. intros st2 H2 D2.
  eapply GO; [exact H2|exact Ht|congruence|]. rewrite deep_plain; auto.
Qed.
Lemma k_text fuel m r st : Rs (ps_strm st) r [] -> deep (N.to_nat (ps_depth st)) r <= D ->
  okp (parse_text umax cc so co fuel m) (fun _ => at_depth (ps_depth st) (deep (N.to_nat (ps_depth st)) r)) st.
Proof.
  intros H HD. eapply okp_mono; [eapply k_text_loop; [exact H|apply (tc_empty TC)|rewrite Nat.add_0_r; exact HD]|]. cbn beta. rewrite Nat.add_0_r. auto.
Qed.
Lemma k_nest_end r st : Rs (ps_strm st) r [] -> (0 < ps_depth st)%N ->
  okp (nest_end cc so) (fun _ st' => ps_depth st' = ps_depth st /\ exists r', Rs (ps_strm st') r' [] /\
    deep (N.to_nat (ps_depth st - 1)) r' <= deep (N.to_nat (ps_depth st)) r) st.
Proof.
  intros H Hd. unfold nest_end. apply okp_bind. eapply okp_next; [exact H|]. intros st1 H1 D1. destruct r as [|x r]; [apply okp_raise; eapply err_end; exact H1|]. cbn [hd_error tl] in *.
  apply okp_assert. intros E. split; [exact D1|]. exists r. split; [exact H1|]. rewrite (deep_end DC) by exact E.
  replace (N.to_nat (ps_depth st - 1)) with (Nat.pred (N.to_nat (ps_depth st))) by lia. lia.
Qed.
(** Steps that touch neither stream nor depth. *)
Lemma ok_call X (f : A -> (X + error Pos CE) * A) (Q : X -> _ -> Prop) st : err_ok st ->
  (forall x a, Q x (PState (ps_strm st) (ps_depth st) a)) -> okp (call f) Q st.
Proof. intros H HQ. unfold okp, wp, call. destruct (f (ps_alloc st)) as [[x|e] a]; cbn; auto. Qed.
Lemma ok_new d0 (Q : datum TT ET -> _ -> Prop) st : err_ok st ->
  (forall x a, Q x (PState (ps_strm st) (ps_depth st) a)) -> okp (new_datum ao d0) Q st.
Proof. intros H HQ. unfold okp, wp, new_datum. destruct (a_new_datum ao d0 (ps_alloc st)) as [[x|e| |] a]; cbn; auto. Qed.
Lemma at_err d b st : at_depth d b st -> b <= D -> err_ok st.
Proof. intros (_ & r & H & Hd) Hb. apply (err_at _ (N.to_nat d) H). lia. Qed.

Lemma frames : forall fuel,
  (forall m k r st, Rs (ps_strm st) r [] ->
     let d := N.to_nat (ps_depth st) in deep d r <= D ->
     fits (t_parse_next umax cc so co ao bnd fuel m) k (k + 3 * (deep d r - d) + 2) (fun _ => at_depth (ps_depth st) (deep d r)) st) /\
  (forall k x r st, Rs (ps_strm st) (x :: r) [] -> (0 < ps_depth st)%N ->
     let d := N.to_nat (ps_depth st) in deep d r <= D ->
     fits (t_parse_nested umax cc so co ao bnd fuel) k (k + 3 * (deep d r - d) + 4)
       (fun _ st' => ps_depth st' = ps_depth st /\ exists r', Rs (ps_strm st') r' [] /\ deep (Nat.pred d) r' <= deep d r) st) /\
  (forall m k r st, Rs (ps_strm st) r [] ->
     let d := N.to_nat (ps_depth st) in deep d r <= D ->
     fits (t_parse_all umax cc so co ao bnd fuel m) k (k + 3 * (deep d r - d) + 3) (fun _ => at_depth (ps_depth st) (deep d r)) st).
Proof.
  induction fuel as [|f (IH1 & IH2 & IH3)].
  { repeat split; intros; cbn; lia. }
  split; [|split].
  - intros m k r st H d HD. cbn [t_parse_next]. cbv zeta. apply fits_bind.
    eapply fits_mono with (b := k + 1); [|lia|].
    { instantiate (1 := fun _ => at_depth (ps_depth st) (deep d r)). destruct (is_operator_mode m).
      - apply fits_leaf; [lia|]. apply k_skip; exact H.
      - apply fits_here; [lia|]. apply okp_ret. split; [reflexivity|]. exists r. auto. }
    intros _ st1 (D1 & r1 & H1 & Hd1). fold d in Hd1. pose proof (deep_ge cc r1 false d) as G1.
    apply fits_bind, fits_here; [lia|]. eapply okp_peek; [exact H1|]. intros st2 H2 D2.
    assert (DD : ps_depth st2 = ps_depth st) by congruence.
    destruct r1 as [|x r1]; cbn [hd_error].
    { apply fits_bind, fits_here; [lia|]. apply okp_depth. destruct (ps_depth st2 =? 0)%N; apply fits_here; try lia.
      - apply okp_ret. split; [congruence|]. exists []. auto.
      - apply okp_raise. eapply err_end; exact H2. }
    destruct (is_nest_start cc (it_ch x)) eqn:E1; [|destruct (is_nest_end cc (it_ch x)) eqn:E2].
    + rewrite (deep_start DC) in Hd1 by exact E1. pose proof (deep_ge cc r1 false (Datatypes.S d)) as G2.
      apply fits_bind, fits_here; [lia|]. unfold okp, wp, incr_depth. destruct (ps_depth st2 <? umax)%N; [|exact I]. cbn [fst snd okq].
      set (st3 := PState (ps_strm st2) (ps_depth st2 + 1) (ps_alloc st2)).
      assert (D3 : N.to_nat (ps_depth st3) = Datatypes.S d) by (cbn; unfold d; rewrite DD; lia).
      apply fits_bind, fits_finally.
      { intros st' K. unfold okp, wp, decr_depth. destruct (0 <? ps_depth st')%N; cbn; [exact K|exact I]. }
      apply fits_push. eapply fits_mono; [apply (IH2 (Datatypes.S k) x r1 st3); [exact H2|cbn; lia|rewrite D3; lia]| |].
      { cbv zeta. rewrite D3. lia. }
      cbn beta zeta. rewrite D3. cbn [Nat.pred]. intros o st4 (D4 & r4 & H4 & Hd4). unfold okp, wp, decr_depth.
      destruct (0 <? ps_depth st4)%N; [|exact I]. cbn [fst snd okq].
      set (st5 := PState (ps_strm st4) (ps_depth st4 - 1) (ps_alloc st4)).
      assert (D5 : ps_depth st5 = ps_depth st) by (cbn; rewrite D4; cbn; lia).
      assert (K5 : at_depth (ps_depth st) (deep d r) st5).
      { split; [exact D5|]. exists r4. split; [exact H4|]. fold d. lia. }
      destruct o as [dt|].
      { apply fits_here; [lia|]. apply okp_ret. exact K5. }
      eapply fits_mono; [apply (IH1 m k r4 st5); [exact H4|rewrite D5; fold d; lia]| |].
      * cbv zeta. rewrite D5. fold d. lia.
      * cbn beta zeta. rewrite D5. fold d. intros o st6 (D6 & r6 & H6 & Hd6). split; [exact D6|]. exists r6. split; [exact H6|]. fold d in Hd6 |- *. lia.
    + apply fits_bind, fits_here; [lia|]. apply okp_depth. apply fits_bind, fits_leaf; [lia|].
      eapply okp_mono; [eapply k_check; [exact H2|]|].
      { pose proof (deep_mono cc (x :: r1) false (Nat.le_0_l d)). lia. }
      cbn beta. intros _ st3 (D3 & H3). apply fits_here; [lia|]. apply okp_ret.
      split; [congruence|]. exists (x :: r1). auto.
    + apply fits_bind, fits_text; [lia|]. eapply okp_mono; [eapply k_text; [exact H2|rewrite DD; fold d; lia]|]. cbn beta. intros t st3 (D3 & r3 & H3 & Hd3).
      rewrite DD in Hd3. fold d in Hd3. apply fits_here; [lia|]. apply okp_ret.
      split; [congruence|]. exists r3. split; [exact H3|]. fold d. lia.
  - intros k x r st H Hpos d HD. cbn [t_parse_nested]. pose proof (deep_ge cc r false d) as G0.
    apply fits_bind, fits_here; [lia|]. eapply okp_next; [exact H|]. cbn [hd_error tl]. intros st1 H1 D1.
    apply fits_bind, fits_here; [lia|]. apply okp_assert. intros _.
    apply fits_bind, fits_push. eapply fits_mono; [apply (IH1 Operator (Datatypes.S k) r st1); [exact H1|rewrite D1; fold d; lia]| |].
    { cbv zeta. rewrite D1. fold d. lia. }
    cbn beta zeta. rewrite D1. fold d. intros op st2 (D2 & r2 & H2 & Hd2). fold d in Hd2.
    apply fits_bind, fits_here; [lia|]. eapply okp_peek; [exact H2|]. intros st3 H3 D3.
    apply fits_bind, fits_here; [lia|].
    assert (K : okp (match hd_error r2 with
       | Some it => if is_whitespace cc (it_ch it) then bind (next so) (fun _ => ret tt) else ret tt
       | None => ret tt
       end) (fun _ => at_depth (ps_depth st) (deep d r)) st3).
    { assert (K3 : at_depth (ps_depth st) (deep d r) st3) by (split; [congruence|exists r2; auto]).
      destruct r2 as [|y r2]; cbn [hd_error]; [apply okp_ret; exact K3|].
      destruct (is_whitespace cc (it_ch y)) eqn:E; [|apply okp_ret; exact K3].
      apply okp_bind. eapply okp_next; [exact H3|]. cbn [hd_error tl]. intros st4 H4 D4. apply okp_ret. split; [congruence|].
      exists r2. split; [exact H4|]. rewrite (deep_white DC) in Hd2 by exact E. fold d. exact Hd2. }
    eapply okp_mono; [exact K|]. cbn beta. clear st1 H1 D1 st2 D2 r2 H2 Hd2 st3 H3 D3 K. intros _ st4 (D4 & r4 & H4 & Hd4). fold d in Hd4.
    pose proof (deep_ge cc r4 false d) as G4.
    (* after the nest's end *)
    assert (END : forall st5, at_depth (ps_depth st) (deep d r) st5 ->
      okp (nest_end cc so) (fun _ st' => ps_depth st' = ps_depth st /\ exists r', Rs (ps_strm st') r' [] /\ deep (Nat.pred d) r' <= deep d r) st5).
    { intros st5 (D5 & r5 & H5 & Hd5). fold d in Hd5. eapply okp_mono; [eapply k_nest_end; [exact H5|lia]|]. cbn beta. rewrite D5.
      intros _ st6 (D6 & r6 & H6 & Hd6). split; [congruence|]. exists r6. split; [exact H6|].
      replace (N.to_nat (ps_depth st - 1)) with (Nat.pred d) in Hd6 by (unfold d; lia). fold d in Hd6. lia. }
    assert (ERR : forall st6 a, (exists r', Rs (ps_strm st6) r' [] /\ deep (Nat.pred d) r' <= deep d r) -> err_ok (PState (ps_strm st6) (ps_depth st6) a)).
    { intros st6 a (r6 & H6 & Hd6). apply (err_at (PState (ps_strm st6) (ps_depth st6) a) (Nat.pred d) H6). lia. }
    assert (ALL : fits (push (t_parse_all umax cc so co ao bnd f Base)) k (k + 3 * (deep d r - d) + 4) (fun _ => at_depth (ps_depth st) (deep d r)) st4).
    { apply fits_push. eapply fits_mono; [apply (IH3 Base (Datatypes.S k) r4 st4); [exact H4|rewrite D4; fold d; lia]| |].
      - cbv zeta. rewrite D4. fold d. lia.
      - cbn beta zeta. rewrite D4. fold d. intros l st5 (D5 & r5 & H5 & Hd5). split; [exact D5|]. exists r5. split; [exact H5|]. fold d in Hd5 |- *. lia. }
    destruct op as [op|].
    2:{ apply fits_bind, fits_leaf; [lia|]. eapply okp_mono; [apply END; split; [exact D4|exists r4; auto]|]. cbn beta. intros _ st5 K5.
        apply fits_here; [lia|]. apply okp_ret. exact K5. }
    assert (CALL : forall (g : A -> (option (datum TT ET) + error Pos CE) * A) st6,
      ps_depth st6 = ps_depth st /\ (exists r', Rs (ps_strm st6) r' [] /\ deep (Nat.pred d) r' <= deep d r) ->
      fits (here (call g)) k (k + 3 * (deep d r - d) + 4)
        (fun _ st' => ps_depth st' = ps_depth st /\ exists r', Rs (ps_strm st') r' [] /\ deep (Nat.pred d) r' <= deep d r) st6).
    { intros g st6 (D6 & K6). apply fits_here; [lia|]. apply ok_call; [|intros _ a; split; [exact D6|exact K6]].
      destruct K6 as (r6 & H6 & Hd6). apply (err_at st6 (Nat.pred d) H6). lia. }
    destruct (bnd op) as [[g|g]|].
    + apply fits_bind, fits_text; [lia|]. eapply okp_mono; [eapply k_text; [exact H4|rewrite D4; fold d; lia]|]. cbn beta. rewrite D4. fold d.
      intros t st5 (D5 & r5 & H5 & Hd5). fold d in Hd5. apply fits_bind, fits_leaf; [lia|].
      eapply okp_mono; [apply END; split; [exact D5|exists r5; split; [exact H5|fold d; lia]]|]. cbn beta. intros _ st6 K6. apply CALL; exact K6.
    + apply fits_bind. eapply fits_mono; [exact ALL|lia|]. cbn beta. intros l st5 K5. apply fits_bind, fits_leaf; [lia|].
      eapply okp_mono; [apply END; exact K5|]. cbn beta. intros _ st6 K6. apply CALL; exact K6.
    + apply fits_bind. eapply fits_mono; [exact ALL|lia|]. cbn beta. intros l st5 K5. apply fits_bind, fits_leaf; [lia|].
      eapply okp_mono; [apply END; exact K5|]. cbn beta. intros _ st6 (D6 & K6).
      apply fits_bind, fits_here; [lia|]. apply ok_new; [destruct K6 as (r6 & H6 & Hd6); apply (err_at st6 (Nat.pred d) H6); lia|]. intros o1 a1.
      apply fits_bind, fits_here; [lia|]. apply ok_new; [apply ERR; exact K6|]. intros o2 a2.
      apply fits_here; [lia|]. apply okp_ret. split; [exact D6|exact K6].
  - intros m k r st H d HD. cbn [t_parse_all]. apply fits_bind, fits_push. eapply fits_mono; [apply (IH1 m (Datatypes.S k) r st); [exact H|exact HD]| |].
    { cbv zeta. fold d. lia. }
    cbn beta zeta. fold d. intros [it|] st1 K1.
    2:{ apply fits_here; [lia|]. apply okp_ret. exact K1. }
    pose proof (at_err K1 HD) as X1.
    apply fits_bind, fits_here; [lia|]. apply ok_new; [exact X1|]. intros e a. apply fits_bind, fits_here; [lia|]. apply ok_new; [exact X1|]. intros n a'.
    cbn [ps_strm ps_depth]. apply fits_bind, fits_here; [lia|]. unfold okp, wp. cbn [fst snd okq ps_alloc].
    destruct (a_get_mut ao n a'); [|apply fits_here; [lia|apply okp_raise; exact X1]].
    destruct K1 as (D1 & r1 & H1 & Hd1). fold d in Hd1. pose proof (deep_ge cc r1 false d) as G1.
    apply fits_bind. eapply fits_mono; [apply (IH3 m k r1 (PState (ps_strm st1) (ps_depth st1) a')); [exact H1|cbn [ps_depth]; rewrite D1; fold d; lia]| |].
    { cbn [ps_depth]. cbv zeta. rewrite D1. fold d. lia. }
    cbn beta zeta. cbn [ps_depth]. rewrite D1. fold d. intros rest st2 (D2 & r2 & H2 & Hd2). fold d in Hd2.
    apply fits_here; [lia|]. apply okp_ret. split; [exact D2|]. exists r2. split; [exact H2|]. fold d. lia.
Qed.

(** Between calls of [next]. *)
Definition between st : Prop := ps_depth st = 0%N /\ err_ok st.
Lemma frames_of_next fuel st : between st ->
  snd (do_next_frames umax cc so co ao bnd fuel st) <= 3 * D + 3 /\
  match fst (fst (do_next_frames umax cc so co ao bnd fuel st)) with
  | Ok _ | Err _ => between (snd (fst (do_next_frames umax cc so co ao bnd fuel st)))
  | _ => True
  end.
Proof.
  intros (D0 & r & p & H & Hp & Hd). unfold do_next_frames, push. destruct p as [|y p].
  - pose proof (proj1 (frames fuel) Base 1 r st H) as K. cbv zeta in K. rewrite D0 in K. change (N.to_nat 0) with 0 in K. destruct (K Hd) as (K1 & K2). clear K.
    split; [lia|].
    pose proof (proj1 (erase umax cc so co ao bnd fuel) Base 1 st) as E. pose proof (kd_parse umax cc so co ao bnd fuel) as (KD & _). specialize (KD Base st). rewrite <- E in KD.
    destruct (t_parse_next umax cc so co ao bnd fuel Base 1 st) as [[[x|e| |] st'] n]; cbn in *; auto.
    + split; [congruence|]. apply (at_err K2 Hd).
    + split; [congruence|exact K2].
  - destruct Hp as [Hp|Hp]; [discriminate|]. subst r. destruct fuel as [|f]; [cbn; split; [lia|auto]|].
    cbn [t_parse_next is_operator_mode]. unfold tbind at 1. cbn [here ret]. unfold tbind at 1. unfold here at 1, peek.
    destruct (sc_peek SC _ _ _ H) as (s' & Es & Hs). unfold tbind, here, ret, peek. rewrite Es. cbn. rewrite D0. cbn. split; [lia|]. split; [reflexivity|].
    exists [], (y :: p). split; [exact Hs|]. split; [auto|cbn; lia].
Qed.
End Bound.

Section Calls.
Context {S A TT ET Pos CE W : Type}.
Context (umax : N) (cc : classifier) (DC : disjoint_classes cc).
Context (so : stream_ops S A TT Pos) (co : concat_ops A TT) (ao : alloc_ops A TT ET) (bnd : bindings A TT ET Pos CE).
Context (Rs : S -> list (item Pos) -> list (item Pos) -> Prop) (Rt : TT -> list (item Pos) -> Prop).
Context (F : Prop) (view : A -> W).
Context (SC : stream_contract F view so Rs Rt) (TC : concat_contract F view co Rt).

Lemma called_between D st rs st1 : called umax cc so co ao bnd st rs st1 -> between cc Rs D st -> between cc Rs D st1.
Proof.
  induction 1 as [|st fuel o st' rs st'' E C IH]; intros B; [exact B|]. apply IH.
  destruct (frames_of_next umax DC ao bnd SC TC fuel B) as (_ & K). unfold do_next_frames, push in K.
  rewrite (proj1 (erase umax cc so co ao bnd fuel) Base 1 st) in K. unfold iter_next, do_next in E.
  destruct (parse_next umax cc so co ao bnd fuel Base st) as [[[d|]|e| |] s2]; cbn in *; congruence.
Qed.
Lemma called_frames st s rs st1 fuel : ps_depth st = 0%N -> Rs (ps_strm st) s [] -> called umax cc so co ao bnd st rs st1 ->
  snd (do_next_frames umax cc so co ao bnd fuel st1) <= 3 * nesting cc s + 3.
Proof.
  intros D0 H C. apply (frames_of_next umax DC ao bnd SC TC fuel). eapply called_between; [exact C|].
  split; [exact D0|]. exists s, []. split; [exact H|]. auto.
Qed.
End Calls.
