(** The number of calls that the parser makes. *)
From Coq Require Import List NArith Bool Lia.
From Verif.Model Require Import Prelude Parser Iter.
From Verif.Spec Require Import Contract Run Cost.
From Verif.Proofs Require Import Wp Sim.
Import ListNotations.
Set Implicit Arguments.

Section Cost.
Context {S A TT ET Pos CE : Type}.
Context (umax : N) (cc : classifier) (so : stream_ops S A TT Pos) (co : concat_ops A TT)
        (ao : alloc_ops A TT ET) (bnd : bindings A TT ET Pos CE).
Context {W : Type} (F : Prop) (view : A -> W).
Context (Rs : S -> list (item Pos) -> list (item Pos) -> Prop) (Rt : TT -> list (item Pos) -> Prop).
Context (SC : stream_contract F view so Rs Rt).
Local Notation tso := (tick_stream so).
Local Notation tco := (tick_concat co).
Local Notation tao := (tick_alloc ao).
Local Notation tbnd := (tick_bindings bnd).
Local Notation state := (pstate (S * nat) (A * nat)).
Local Notation wp := (wp (S:=S*nat) (A:=A*nat) (Pos:=Pos) (CE:=CE)).
Implicit Types (r p : list (item Pos)) (st : state).

Definition C st : nat := snd (ps_strm st) + snd (ps_alloc st).
Local Notation at_ st r p := (Rs (fst (ps_strm st)) r p).

Lemma t_peek r p (Q : _ -> _ -> Prop) st : at_ st r p ->
  (forall st', at_ st' r p -> C st' = 1 + C st -> Q (Ok (hd_error r)) st') -> wp (peek tso) Q st.
Proof.
  intros HR HQ. destruct (sc_peek SC _ _ _ HR) as (s' & E & HR'). unfold Wp.wp, peek. cbn [s_peek tick_stream]. rewrite E. apply HQ; [exact HR'|unfold C; cbn; lia].
Qed.
Lemma t_next r p (Q : _ -> _ -> Prop) st : at_ st r p ->
  (forall st', at_ st' (tl r) [] -> C st' = 1 + C st -> Q (Ok (hd_error r)) st') -> wp (next tso) Q st.
Proof.
  intros HR HQ. destruct (sc_next SC _ _ _ HR) as (s' & E & HR'). unfold Wp.wp, next. cbn [s_next tick_stream]. rewrite E. apply HQ; [exact HR'|unfold C; cbn; lia].
Qed.
Lemma t_next_accum r p (Q : _ -> _ -> Prop) st : at_ st r p ->
  (forall st' p', at_ st' (tl r) p' -> C st' = 1 + C st -> Q (Ok (hd_error r)) st') ->
  (forall e st' p', at_ st' r p' -> C st' = 1 + C st -> Q (Err e) st') -> wp (next_accum tso) Q st.
Proof.
  intros HR HQ HE. destruct (sc_next_accum SC _ (fst (ps_alloc st)) _ _ HR) as [(s' & a' & E & _ & HR')|(_ & s' & a' & E & _ & _ & HR')];
    unfold Wp.wp, next_accum; cbn [s_next_accum tick_stream]; rewrite E; [eapply HQ|eapply HE]; try exact HR'; unfold C; cbn; lia.
Qed.
Lemma t_accum_done r p (Q : _ -> _ -> Prop) st : at_ st r p ->
  (forall o st' p', at_ st' r p' -> C st' = 1 + C st -> Q o st') -> wp (accum_done tso) Q st.
Proof.
  intros HR HQ. destruct (sc_accum_done SC _ (fst (ps_alloc st)) _ _ HR) as [(s' & a' & t & E & _ & _ & HR')|(_ & s' & a' & E & _ & _ & HR')];
    unfold Wp.wp, accum_done; cbn [s_accum_done tick_stream]; rewrite E; eapply HQ; try exact HR'; unfold C; cbn; lia.
Qed.
Lemma t_concat_ t1 t2 (Q : _ -> _ -> Prop) st : (forall o st', ps_strm st' = ps_strm st -> C st' = 1 + C st -> Q o st') -> wp (concat tco t1 t2) Q st.
Proof. intros HQ. unfold Wp.wp, concat. cbn [t_concat tick_concat]. destruct (t_concat co t1 t2 (fst (ps_alloc st))) as [o a]. apply HQ; [reflexivity|unfold C; cbn; lia]. Qed.
Lemma t_new_datum d (Q : _ -> _ -> Prop) st : (forall o st', ps_strm st' = ps_strm st -> C st' = 1 + C st -> Q o st') -> wp (new_datum tao d) Q st.
Proof. intros HQ. unfold Wp.wp, new_datum. cbn [a_new_datum tick_alloc]. destruct (a_new_datum ao d (fst (ps_alloc st))) as [o a]. apply HQ; [reflexivity|unfold C; cbn; lia]. Qed.
Lemma t_call X (f : A -> (X + error Pos CE) * A) (Q : _ -> _ -> Prop) st : (forall o st', ps_strm st' = ps_strm st -> C st' = 1 + C st -> Q o st') ->
  wp (call (fun a : A * nat => let (r, a') := f (fst a) in (r, (a', 1 + snd a)))) Q st.
Proof. intros HQ. unfold Wp.wp, call. destruct (f (fst (ps_alloc st))) as [o a]. apply HQ; [reflexivity|unfold C; cbn; lia]. Qed.

(** Eleven for each item read, and [b] more. *)
Definition within r (c b : nat) st' : Prop := exists r' p', at_ st' r' p' /\ length r' <= length r /\ C st' + 11 * length r' <= c + 11 * length r + b.
Lemma within_here r p st : at_ st r p -> within r (C st) 0 st.
Proof. intros HR. exists r, p. split; [exact HR|lia]. Qed.
Lemma within_from r r1 c b c1 b1 st : within r1 c1 b1 st -> length r1 <= length r -> c1 + 11 * length r1 + b1 <= c + 11 * length r + b -> within r c b st.
Proof. intros (r' & p' & HR & HL & HC) HL1 HC1. exists r', p'. split; [exact HR|lia]. Qed.
Lemma within_strm r c b st st' : within r c b st -> ps_strm st' = ps_strm st -> C st' = 1 + C st -> within r c (1 + b) st'.
Proof. intros (r' & p' & HR & HL & HC) ES EC. exists r', p'. rewrite ES. split; [exact HR|lia]. Qed.
Lemma len_tl X (l : list X) : length (tl l) = length l - 1. Proof. destruct l; cbn; lia. Qed.

Lemma t_skip : forall fuel r p st, at_ st r p -> wp (skip_whitespace cc tso fuel) (fun o st' =>
  exists r' p', at_ st' r' p' /\ length r' <= length r /\ C st' + 11 * length r' <= C st + 11 * length r + 1 /\
    (o = Ok tt -> forall it, hd_error r' = Some it -> is_whitespace cc (it_ch it) = false)) st.
Proof.
  induction fuel as [|fuel IH]; intros r p st HR.
  - cbn [skip_whitespace]. exists r, p. split; [exact HR|]. split; [lia|]. split; [cbn; lia|discriminate].
  - cbn [skip_whitespace]. apply wp_bind. eapply t_peek; [exact HR|]. intros st1 HR1 C1. cbv beta iota. destruct r as [|it r]; cbn [hd_error].
    + apply wp_ret. exists [], p. split; [exact HR1|]. split; [lia|]. split; [lia|discriminate].
    + destruct (is_whitespace cc (it_ch it)) eqn:EW.
      * apply wp_bind. eapply t_next; [exact HR1|]. intros st2 HR2 C2. cbn [hd_error]. cbn [tl] in HR2. eapply wp_mono; [apply (IH _ _ _ HR2)|].
        intros o st3 (r' & p' & HR3 & HL & HC & HW). exists r', p'. split; [exact HR3|]. cbn [length] in *. split; [lia|]. split; [lia|exact HW].
      * apply wp_ret. exists (it :: r), p. split; [exact HR1|]. split; [lia|]. split; [lia|]. intros _ it' [= <-]. exact EW.
Qed.

Lemma t_check d r p st : at_ st r p -> wp (check_end_char cc tso d) (fun o st' => within r (C st) 1 st') st.
Proof.
  intros HR. unfold check_end_char. apply wp_bind. eapply t_peek; [exact HR|]. intros st1 HR1 C1. cbv beta iota.
  assert (W1 : within r (C st) 1 st1) by (exists r, p; split; [exact HR1|lia]).
  apply wp_bind. unfold assert. destruct (match hd_error r with Some it => is_nest_end cc (it_ch it) | None => false end) eqn:EE; [|exact W1].
  apply wp_ret. destruct (0 <? d)%N; [apply wp_ret; exact W1|]. apply wp_bind. eapply t_next; [exact HR1|]. intros st2 HR2 C2. cbv beta iota.
  destruct r as [|it r]; [discriminate|]. cbn [hd_error]. apply wp_raise. exists r, []. split; [exact HR2|]. cbn [length]. lia.
Qed.

Lemma t_text_done text nl r p st : at_ st r p -> wp (parse_text_done tso tco text nl) (fun o st' => exists p', at_ st' r p' /\ C st' <= C st + 2) st.
Proof.
  intros HR. unfold parse_text_done. destruct (nl =? 0)%N; [|exists p; split; [exact HR|cbn; lia]].
  unfold concat_accum. apply wp_bind. eapply t_accum_done; [exact HR|]. intros o st1 p1 HR1 C1.
  assert (W1 : exists p', at_ st1 r p' /\ C st1 <= C st + 2) by (exists p1; split; [exact HR1|lia]). destruct o as [t|e| |]; try exact W1.
  apply t_concat_. intros o st2 ES C2. exists p1. rewrite ES. split; [exact HR1|lia].
Qed.

(** The text has a first character. *)
Definition first_char m (nl : N) r : Prop := exists it r', r = it :: r' /\
  ((nl =? 0)%N && is_end_char cc (it_ch it) m = false)%bool /\ is_nest_end cc (it_ch it) = false.
Lemma t_text : forall fuel m text nl r p st, at_ st r p -> wp (parse_text_loop umax cc tso tco fuel m text nl) (fun o st' =>
  within r (C st) 4 st' /\ (r = [] -> within r (C st) 3 st') /\
  (forall t, o = Ok t -> first_char m nl r -> exists r' p', at_ st' r' p' /\ length r' < length r /\ C st' + 11 * length r' + 3 <= C st + 11 * length r)) st.
Proof.
  induction fuel as [|fuel IH]; intros m text nl r p st HR.
  { cbn [parse_text_loop]. split; [exists r, p; split; [exact HR|cbn; lia]|]. split; [|discriminate]. intros _. exists r, p. split; [exact HR|cbn; lia]. }
  cbn [parse_text_loop]. apply wp_bind. eapply t_peek; [exact HR|]. intros st1 HR1 C1. cbv beta iota.
  assert (DONE : forall b, (forall it r', r = it :: r' -> ~ first_char m nl r) -> C st1 + b = C st1 + 0 -> wp (parse_text_done tso tco text nl) (fun o st' =>
     within r (C st) 4 st' /\ (r = [] -> within r (C st) 3 st') /\
     (forall t, o = Ok t -> first_char m nl r -> exists r' p', at_ st' r' p' /\ length r' < length r /\ C st' + 11 * length r' + 3 <= C st + 11 * length r)) st1).
  { intros b HN _. eapply wp_mono; [eapply t_text_done; exact HR1|]. intros o st2 (p2 & HR2 & C2). split; [exists r, p2; split; [exact HR2|lia]|].
    split; [intros _; exists r, p2; split; [exact HR2|lia]|]. intros t _ HF. exfalso. pose proof HF as (it & r' & -> & _). eapply HN; [reflexivity|exact HF]. }
  destruct r as [|it r]; cbn [hd_error].
  { apply (DONE 0); [discriminate|reflexivity]. }
  destruct ((nl =? 0)%N && is_end_char cc (it_ch it) m)%bool eqn:EE.
  { apply (DONE 0); [|reflexivity]. intros it' r' _ (it2 & r2 & [= <- <-] & HE & _). congruence. }
  clear DONE.
  (* the item is taken, and the loop goes on *)
  assert (REST : forall text' nl' st2 p2, at_ st2 r p2 -> C st2 <= C st + 2 -> wp (parse_text_loop umax cc tso tco fuel m text' nl') (fun o st' =>
     within (it :: r) (C st) 4 st' /\ (it :: r = [] -> within (it :: r) (C st) 3 st') /\
     (forall t, o = Ok t -> first_char m nl (it :: r) -> exists r' p', at_ st' r' p' /\ length r' < length (it :: r) /\ C st' + 11 * length r' + 3 <= C st + 11 * length (it :: r))) st2).
  { intros text' nl' st2 p2 HR2 C2. eapply wp_mono; [apply (IH m text' nl' _ _ _ HR2)|]. intros o st3 ((r3 & p3 & HR3 & HL & HC) & _ & _). cbn [length].
    split; [exists r3, p3; cbn [length]; split; [exact HR3|lia]|]. split; [discriminate|]. intros t _ _. exists r3, p3. split; [exact HR3|lia]. }
  assert (TAKE : forall text' nl', wp (bind (next_accum tso) (fun _ => parse_text_loop umax cc tso tco fuel m text' nl')) (fun o st' =>
     within (it :: r) (C st) 4 st' /\ (it :: r = [] -> within (it :: r) (C st) 3 st') /\
     (forall t, o = Ok t -> first_char m nl (it :: r) -> exists r' p', at_ st' r' p' /\ length r' < length (it :: r) /\ C st' + 11 * length r' + 3 <= C st + 11 * length (it :: r))) st1).
  { intros text' nl'. apply wp_bind. eapply t_next_accum; [exact HR1| |].
    - intros st2 p2 HR2 C2. cbn [hd_error]. cbn [tl] in HR2. eapply REST; [exact HR2|lia].
    - intros e st2 p2 HR2 C2. split; [exists (it :: r), p2; split; [exact HR2|lia]|]. split; [|discriminate]. intros; discriminate. }
  destruct (is_nest_escape cc (it_ch it)).
  { unfold concat_accum. apply wp_bind, wp_bind. eapply t_accum_done; [exact HR1|]. intros o st2 p2 HR2 C2.
    assert (FAIL : forall (o : res (error Pos CE) TT) st3 p3, at_ st3 (it :: r) p3 -> C st3 <= C st + 4 -> (forall t, o <> Ok t) ->
      within (it :: r) (C st) 4 st3 /\ (it :: r = [] -> within (it :: r) (C st) 3 st3) /\
      (forall t, o = Ok t -> first_char m nl (it :: r) -> exists r' p', at_ st3 r' p' /\ length r' < length (it :: r) /\ C st3 + 11 * length r' + 3 <= C st + 11 * length (it :: r))).
    { intros o' st3 p3 HR3 C3 HO. split; [exists (it :: r), p3; split; [exact HR3|lia]|]. split; [discriminate|]. intros t E. destruct (HO _ E). }
    destruct o as [t|e| |]; [|eapply FAIL; [exact HR2|lia|discriminate]..].
    apply t_concat_. intros o st3 ES C3. destruct o as [t'|e| |]; [|eapply FAIL; [rewrite ES; exact HR2|lia|discriminate]..].
    apply wp_bind. eapply t_next; [rewrite ES; exact HR2|]. intros st4 HR4 C4. cbn [hd_error]. cbn [tl] in HR4. apply wp_bind. eapply t_next_accum; [exact HR4| |].
    - intros st5 p5 HR5 C5. cbv beta iota. eapply wp_mono; [apply (IH m t' nl _ _ _ HR5)|].
      intros o st6 ((r6 & p6 & HR6 & HL & HC) & HE & _). rewrite len_tl in *. destruct r as [|it' r].
      + destruct (HE eq_refl) as (r7 & p7 & HR7 & HL7 & HC7). cbn [length tl] in *.
        split; [exists r7, p7; cbn [length]; split; [exact HR7|lia]|]. split; [discriminate|]. intros t0 _ _. exists r7, p7. split; [exact HR7|lia].
      + cbn [length] in *. split; [exists r6, p6; cbn [length]; split; [exact HR6|lia]|]. split; [discriminate|]. intros t0 _ _. exists r6, p6. split; [exact HR6|lia].
    - intros e st5 p5 HR5 C5. split; [exists r, p5; cbn [length]; split; [exact HR5|lia]|]. split; [|discriminate]. intros; discriminate. }
  destruct (is_nest_start cc (it_ch it)).
  { destruct (nl <? umax)%N; [apply TAKE|]. apply wp_bind. eapply t_next_accum; [exact HR1| |].
    - intros st2 p2 HR2 C2. cbn [hd_error]. split; [exists r, p2; cbn [length]; split; [exact HR2|cbn; lia]|]. split; [discriminate|]. discriminate.
    - intros e st2 p2 HR2 C2. split; [exists (it :: r), p2; split; [exact HR2|lia]|]. split; [|discriminate]. intros; discriminate. }
  destruct (is_nest_end cc (it_ch it)) eqn:EN; [|apply TAKE].
  destruct (0 <? nl)%N; [apply TAKE|]. apply wp_bind. apply wp_get_depth. apply wp_bind. eapply wp_mono; [eapply t_check; exact HR1|].
  intros o st2 (r2 & p2 & HR2 & HL & HC).
  assert (NF : ~ first_char m nl (it :: r)) by (intros (it2 & r' & [= <- <-] & _ & HN); congruence).
  destruct o as [u|e| |]; try (split; [exists r2, p2; split; [exact HR2|cbn [length] in *; lia]|split; [discriminate|discriminate]]).
  eapply wp_mono; [eapply t_text_done; exact HR2|]. intros o st3 (p3 & HR3 & C3). split; [exists r2, p3; split; [exact HR3|lia]|]. split; [discriminate|]. intros t _ HF. contradiction.
Qed.

Lemma t_nest_end r p st : at_ st r p -> wp (nest_end cc tso) (fun o st' => exists p', at_ st' (tl r) p' /\ C st' = 1 + C st /\ (o = Ok tt -> r <> [])) st.
Proof.
  intros HR. unfold nest_end. apply wp_bind. eapply t_next; [exact HR|]. intros st1 HR1 C1. cbv beta iota. destruct r as [|it r]; cbn [hd_error].
  - apply wp_raise. exists []. split; [exact HR1|]. split; [exact C1|discriminate].
  - unfold assert. destruct (is_nest_end cc (it_ch it)); exists []; (split; [exact HR1|]; split; [exact C1|discriminate]).
Qed.

Lemma t_incr (Q : _ -> _ -> Prop) st : (forall o st', ps_strm st' = ps_strm st -> C st' = C st -> Q o st') -> wp (incr_depth umax) Q st.
Proof. intros HQ. unfold Wp.wp, incr_depth. destruct (ps_depth st <? umax)%N; apply HQ; reflexivity. Qed.
Lemma t_decr (Q : _ -> _ -> Prop) st : (forall o st', ps_strm st' = ps_strm st -> C st' = C st -> Q o st') -> wp decr_depth Q st.
Proof. intros HQ. unfold Wp.wp, decr_depth. destruct (0 <? ps_depth st)%N; apply HQ; reflexivity. Qed.

(** At most [b] more than eleven for each item read, and [a] less when [good]. *)
Definition spent X r c (good : res (error Pos CE) X -> nat) b (o : res (error Pos CE) X) st' : Prop :=
  exists r' p', at_ st' r' p' /\ length r' <= length r /\ C st' + 11 * length r' + good o <= c + 11 * length r + b.
Definition g_next (m : mode) (o : res (error Pos CE) (option (datum TT ET))) : nat :=
  match o with Ok (Some _) => 7 | Ok None => 3 | _ => 0 end.
Definition g_nested (o : res (error Pos CE) (option (datum TT ET))) : nat := match o with Ok _ => 16 | _ => 0 end.
Definition g_all (o : res (error Pos CE) (datum TT ET)) : nat := match o with Ok _ => 3 | _ => 0 end.
Definition b_mode (m : mode) : nat := if is_operator_mode m then 6 else 5.

Lemma t_parser : forall fuel,
  (forall m r p st, at_ st r p -> wp (parse_next umax cc tso tco tao tbnd fuel m) (spent r (C st) (g_next m) (b_mode m)) st) /\
  (forall r p st, at_ st r p -> wp (parse_nested umax cc tso tco tao tbnd fuel) (spent r (C st) g_nested 1) st) /\
  (forall m r p st, is_operator_mode m = false -> at_ st r p -> wp (parse_all umax cc tso tco tao tbnd fuel m) (spent r (C st) g_all 5) st).
Proof.
  induction fuel as [|fuel (IHn & IHd & IHa)].
  { repeat split; intros; (eexists _, _; split; [eassumption|cbn; unfold b_mode; lia]). }
  split; [|split].
  - intros m r p st HR. cbn [parse_next]. apply wp_bind.
    assert (SK : wp (if is_operator_mode m then skip_whitespace cc tso fuel else ret tt) (fun o st' => exists r' p', at_ st' r' p' /\ length r' <= length r /\
        C st' + 11 * length r' + 5 <= C st + 11 * length r + b_mode m /\
        (o = Ok tt -> is_operator_mode m = true -> forall it, hd_error r' = Some it -> is_whitespace cc (it_ch it) = false)) st).
    { unfold b_mode. destruct (is_operator_mode m).
      - eapply wp_mono; [eapply t_skip; exact HR|]. intros o st1 (r1 & p1 & HR1 & HL & HC & HW). exists r1, p1. split; [exact HR1|]. split; [lia|]. split; [lia|]. auto.
      - apply wp_ret. exists r, p. split; [exact HR|]. split; [lia|]. split; [lia|discriminate]. }
    eapply wp_mono; [exact SK|clear SK]. intros o st1 (r1 & p1 & HR1 & HL1 & HC1 & HW).
    destruct o as [[]|e| |]; try (exists r1, p1; split; [exact HR1|cbn [g_next]; lia]). specialize (HW eq_refl).
    apply wp_bind. eapply t_peek; [exact HR1|]. intros st2 HR2 C2. cbv beta iota. destruct r1 as [|it r1]; cbn [hd_error].
    { apply wp_bind, wp_get_depth. destruct (ps_depth st2 =? 0)%N; [apply wp_ret|apply wp_raise]; exists [], p1; (split; [exact HR2|cbn [g_next]; lia]). }
    destruct (is_nest_start cc (it_ch it)) eqn:E1.
    { apply wp_bind, t_incr. intros o st3 S3 C3. destruct o as [[]|e| |]; try (exists (it :: r1), p1; rewrite S3; split; [exact HR2|cbn [g_next]; lia]).
      apply wp_bind, wp_finally. eapply wp_mono; [apply (IHd (it :: r1) p1); rewrite S3; exact HR2|]. intros o st4 (r4 & p4 & HR4 & HL4 & HC4).
      destruct o as [x|e| |]; try (exists r4, p4; split; [exact HR4|cbn [g_next g_nested] in *; lia]).
      - apply t_decr. intros o st5 S5 C5. cbn [g_nested] in HC4. destruct o as [[]|e| |]; try (exists r4, p4; rewrite S5; split; [exact HR4|cbn [g_next]; lia]).
        destruct x as [d|].
        + apply wp_ret. exists r4, p4. rewrite S5. split; [exact HR4|cbn [g_next]; lia].
        + eapply wp_mono; [apply (IHn m r4 p4); rewrite S5; exact HR4|]. intros o st6 (r6 & p6 & HR6 & HL6 & HC6). exists r6, p6. split; [exact HR6|]. unfold b_mode in *. destruct (is_operator_mode m); lia.
      - apply t_decr. intros o st5 S5 C5. cbn [g_nested] in HC4. destruct o as [[]|e'| |]; try (exists r4, p4; rewrite S5; split; [exact HR4|cbn [g_next]; lia]). }
    destruct (is_nest_end cc (it_ch it)) eqn:E2.
    { apply wp_bind, wp_get_depth. apply wp_bind. eapply wp_mono; [eapply t_check; exact HR2|]. intros o st3 (r3 & p3 & HR3 & HL3 & HC3).
      destruct o as [[]|e| |]; try (exists r3, p3; split; [exact HR3|cbn [g_next]; lia]). apply wp_ret. exists r3, p3. split; [exact HR3|cbn [g_next]; lia]. }
    apply wp_bind. eapply wp_mono; [eapply t_text; exact HR2|]. intros o st3 ((r3 & p3 & HR3 & HL3 & HC3) & _ & HT).
    destruct o as [t|e| |]; try (exists r3, p3; split; [exact HR3|cbn [g_next]; lia]). apply wp_ret.
    destruct (HT t eq_refl) as (r4 & p4 & HR4 & HL4 & HC4).
    { exists it, r1. split; [reflexivity|]. split; [|exact E2]. rewrite N.eqb_refl. unfold is_end_char, is_operator_mode in *. destruct m; rewrite ?E1, ?E2; try reflexivity; try (rewrite (HW eq_refl it eq_refl); reflexivity). }
    exists r4, p4. split; [exact HR4|cbn [g_next]; lia].
  - intros r p st HR. cbn [parse_nested]. apply wp_bind. eapply t_next; [exact HR|]. intros st1 HR1 C1. cbv beta iota. apply wp_bind.
    unfold assert. destruct r as [|it r]; cbn [hd_error].
    { exists [], []. split; [exact HR1|cbn; lia]. }
    cbn [tl] in HR1. destruct (is_nest_start cc (it_ch it)); [|exists r, []; split; [exact HR1|cbn; lia]]. apply wp_ret.
    apply wp_bind. eapply wp_mono; [eapply (IHn Operator); exact HR1|]. intros o st2 (r2 & p2 & HR2 & HL2 & HC2). unfold b_mode in HC2. cbn [is_operator_mode] in HC2.
    destruct o as [opr|e| |]; try (exists r2, p2; cbn [g_next g_nested length] in *; split; [exact HR2|lia]).
    apply wp_bind. eapply t_peek; [exact HR2|]. intros st3 HR3 C3. cbv beta iota. apply wp_bind.
    assert (WS : wp (match hd_error r2 with Some it => if is_whitespace cc (it_ch it) then bind (next tso) (fun _ => ret tt) else ret tt | None => ret tt end)
      (fun o st' => exists r' p', at_ st' r' p' /\ length r' <= length r2 /\ C st' + 11 * length r' <= C st3 + 11 * length r2) st3).
    { destruct r2 as [|it2 r2]; cbn [hd_error]; [apply wp_ret; exists [], p2; split; [exact HR3|lia]|].
      destruct (is_whitespace cc (it_ch it2)); [|apply wp_ret; exists (it2 :: r2), p2; split; [exact HR3|lia]].
      apply wp_bind. eapply t_next; [exact HR3|]. intros st4 HR4 C4. cbv beta iota. apply wp_ret. exists r2, []. split; [exact HR4|cbn [length]; lia]. }
    eapply wp_mono; [exact WS|clear WS]. intros o st4 (r4 & p4 & HR4 & HL4 & HC4).
    destruct o as [[]|e| |]; try (exists r4, p4; split; [exact HR4|destruct opr; cbn [g_next g_nested length] in *; lia]).
    destruct opr as [operator|]; cbn [g_next] in HC2.
    + unfold tick_bindings. destruct (bnd operator) as [[f|f]|].
      * apply wp_bind. eapply wp_mono; [eapply t_text; exact HR4|]. intros o st5 ((r5 & p5 & HR5 & HL5 & HC5) & _).
        destruct o as [t|e| |]; try (exists r5, p5; cbn [g_nested length] in *; split; [exact HR5|lia]).
        apply wp_bind. eapply wp_mono; [eapply t_nest_end; exact HR5|]. intros o st6 (p6 & HR6 & C6 & NE). pose proof (len_tl r5) as LT.
        destruct o as [[]|e| |]; try (exists (tl r5), p6; cbn [g_nested length] in *; split; [exact HR6|lia]).
        specialize (NE eq_refl). assert (length r5 <> 0) by (destruct r5; [contradiction|discriminate]).
        apply t_call. intros o st7 S7 C7. exists (tl r5), p6. rewrite S7. split; [exact HR6|]. cbn [length] in *. destruct o; cbn [g_nested]; lia.
      * apply wp_bind. eapply wp_mono; [eapply (IHa Base); [reflexivity|exact HR4]|]. intros o st5 (r5 & p5 & HR5 & HL5 & HC5).
        destruct o as [t|e| |]; cbn [g_all] in HC5; try (exists r5, p5; cbn [g_nested length] in *; split; [exact HR5|lia]).
        apply wp_bind. eapply wp_mono; [eapply t_nest_end; exact HR5|]. intros o st6 (p6 & HR6 & C6 & NE). pose proof (len_tl r5) as LT.
        destruct o as [[]|e| |]; try (exists (tl r5), p6; cbn [g_nested length] in *; split; [exact HR6|lia]).
        specialize (NE eq_refl). assert (length r5 <> 0) by (destruct r5; [contradiction|discriminate]).
        apply t_call. intros o st7 S7 C7. exists (tl r5), p6. rewrite S7. split; [exact HR6|]. cbn [length] in *. destruct o; cbn [g_nested]; lia.
      * apply wp_bind. eapply wp_mono; [eapply (IHa Base); [reflexivity|exact HR4]|]. intros o st5 (r5 & p5 & HR5 & HL5 & HC5).
        destruct o as [t|e| |]; cbn [g_all] in HC5; try (exists r5, p5; cbn [g_nested length] in *; split; [exact HR5|lia]).
        apply wp_bind. eapply wp_mono; [eapply t_nest_end; exact HR5|]. intros o st6 (p6 & HR6 & C6 & NE). pose proof (len_tl r5) as LT.
        destruct o as [[]|e| |]; try (exists (tl r5), p6; cbn [g_nested length] in *; split; [exact HR6|lia]).
        specialize (NE eq_refl). assert (length r5 <> 0) by (destruct r5; [contradiction|discriminate]). cbn [length] in *.
        apply wp_bind, t_new_datum. intros o st7 S7 C7. destruct o as [d1|e| |]; try (exists (tl r5), p6; rewrite S7; split; [exact HR6|cbn [g_nested length]; lia]).
        apply wp_bind, t_new_datum. intros o st8 S8 C8. destruct o as [d2|e| |]; try (exists (tl r5), p6; rewrite S8, S7; split; [exact HR6|cbn [g_nested length]; lia]).
        apply wp_ret. exists (tl r5), p6. rewrite S8, S7. split; [exact HR6|cbn [g_nested length]; lia].
    + apply wp_bind. eapply wp_mono; [eapply t_nest_end; exact HR4|]. intros o st6 (p6 & HR6 & C6 & NE). pose proof (len_tl r4) as LT.
      destruct o as [[]|e| |]; try (exists (tl r4), p6; cbn [g_nested length] in *; split; [exact HR6|lia]).
      specialize (NE eq_refl). assert (length r4 <> 0) by (destruct r4; [contradiction|discriminate]).
      apply wp_ret. exists (tl r4), p6. split; [exact HR6|]. cbn [length g_nested] in *. lia.
  - intros m r p st EM HR. cbn [parse_all]. apply wp_bind. eapply wp_mono; [eapply (IHn m); exact HR|]. intros o st1 (r1 & p1 & HR1 & HL1 & HC1).
    unfold b_mode in HC1. rewrite EM in HC1. destruct o as [[d|]|e| |]; cbn [g_next] in HC1; try (exists r1, p1; split; [exact HR1|cbn [g_all]; lia]).
    + apply wp_bind, t_new_datum. intros o st2 S2 C2. destruct o as [d1|e| |]; try (exists r1, p1; rewrite S2; split; [exact HR1|cbn [g_all]; lia]).
      apply wp_bind, t_new_datum. intros o st3 S3 C3. destruct o as [d2|e| |]; try (exists r1, p1; rewrite S3, S2; split; [exact HR1|cbn [g_all]; lia]).
      apply wp_bind. change (wp (if a_get_mut tao d2 (ps_alloc st3) then bind (parse_all umax cc tso tco tao tbnd fuel m) (fun rest => ret (DList d1 rest)) else raise FailedDerefTryMut) (spent r (C st) g_all 5) st3).
      destruct (a_get_mut tao d2 (ps_alloc st3)).
      * apply wp_bind. eapply wp_mono; [eapply (IHa m); [exact EM|rewrite S3, S2; exact HR1]|]. intros o st4 (r4 & p4 & HR4 & HL4 & HC4).
        destruct o as [l|e| |]; try apply wp_ret; exists r4, p4; (split; [exact HR4|cbn [g_all] in *; lia]).
      * apply wp_raise. exists r1, p1. rewrite S3, S2. split; [exact HR1|cbn [g_all]; lia].
    + apply wp_ret. exists r1, p1. split; [exact HR1|cbn [g_all]; lia].
Qed.

(** The counts do not change what the parser does. *)
Lemma drel_eq : forall d1 d2 : datum TT ET, datum_rel eq eq d1 d2 <-> d1 = d2.
Proof.
  induction d1; intros [ ]; cbn; try (split; [easy|discriminate]); try (split; [intros ->; reflexivity|intros [= ->]; reflexivity]); try (split; reflexivity);
    rewrite IHd1_1, IHd1_2; (split; [intros (-> & ->); reflexivity|intros [= -> ->]; auto]).
Qed.
Lemma erel_eq (e1 e2 : error Pos CE) : error_rel eq eq e1 e2 -> e1 = e2.
Proof. destruct e1 as [| |[]| |], e2 as [| |[]| |]; cbn; try contradiction; try reflexivity; intros ->; reflexivity. Qed.
Local Notation RS := (fun s (sn : S * nat) => s = fst sn).
Local Notation RA := (fun a (an : A * nat) => a = fst an).
Lemma item_eq (i1 i2 : option (item Pos)) : option_rel (item_rel eq) i1 i2 <-> i1 = i2.
Proof.
  destruct i1 as [[c1 p1]|], i2 as [[c2 p2]|]; cbn; try (split; [easy|discriminate]); [|tauto]. unfold item_rel. cbn. split; [intros (-> & ->); reflexivity|intros [= -> ->]; auto].
Qed.

Lemma erase fuel st2 : out_rel False RS RA eq eq (option_rel (datum_rel eq eq)) (do_next umax cc so co ao bnd fuel (PState (fst (ps_strm st2)) (ps_depth st2) (fst (ps_alloc st2))))
  (do_next umax cc tso tco tao tbnd fuel st2).
Proof.
  apply (sim_do_next umax cc (so1:=so) (co1:=co) (ao1:=ao) (bnd1:=bnd) (so2:=tso) (co2:=tco) (ao2:=tao) (bnd2:=tbnd) (L:=False) (Rs:=RS) (Ra:=RA) (Rt:=eq) (Rx:=eq) (Rp:=eq) (Rc:=eq)).
  - constructor; cbn [s_peek s_next s_next_accum s_accum_done tick_stream]; unfold pres_rel, ares_rel, Rsa.
    + intros s1 s2 ->. destruct (s_peek so (fst s2)) as [[x|[]| |] s']; cbn; auto. rewrite item_eq. auto.
    + intros s1 s2 ->. destruct (s_next so (fst s2)) as [[x|[]| |] s']; cbn; auto. rewrite item_eq. auto.
    + intros s1 s2 a1 a2 -> ->. destruct (s_next_accum so (fst s2) (fst a2)) as [[x|e| |] [s' a']]; cbn; auto. rewrite item_eq. auto.
    + intros s1 s2 a1 a2 -> ->. destruct (s_accum_done so (fst s2) (fst a2)) as [[x|e| |] [s' a']]; cbn; auto.
  - constructor; [reflexivity|]. intros t1 t1' t2 t2' a1 a2 -> -> ->. unfold ares_rel. cbn. destruct (t_concat co t2 t2' (fst a2)) as [[x|e| |] a']; cbn; auto.
  - constructor.
    + intros d1 d2 a1 a2 H ->. apply drel_eq in H. subst d2. unfold ares_rel. cbn. destruct (a_new_datum ao d1 (fst a2)) as [[x|e| |] a']; cbn; auto. rewrite drel_eq. auto.
    + intros d1 d2 a1 a2 H ->. apply drel_eq in H. subst d2. reflexivity.
  - intros d1 d2 H. apply drel_eq in H. subst d2. unfold tick_bindings. 
    assert (CR : forall o : (option (datum TT ET) + error Pos CE) * A, forall n, cres_rel False RA eq eq eq eq o (fst o, (snd o, n))).
    { intros [[[d|]|e] a] n; unfold cres_rel; cbn; [rewrite drel_eq; auto|auto|]. left. split; [|reflexivity]. destruct e; cbn; auto. }
    destruct (bnd d1) as [[f|f]|]; cbn; auto.
    + intros d d2 t t2 a a2 H -> ->. apply drel_eq in H. subst d2. pose proof (CR (f d t2 (fst a2)) (1 + snd a2)) as X. destruct (f d t2 (fst a2)) as [o a']. exact X.
    + intros d d2 t t2 a a2 H H2 ->. apply drel_eq in H. subst d2. apply drel_eq in H2. subst t2. pose proof (CR (f d t (fst a2)) (1 + snd a2)) as X. destruct (f d t (fst a2)) as [o a']. exact X.
  - repeat split.
Qed.

Lemma iter_counted fuel (st st1 : pstate S A) o i j : iter_next umax cc so co ao bnd fuel st = (Ok o, st1) ->
  exists i' j', iter_next umax cc tso tco tao tbnd fuel (counted st i j) = (Ok o, counted st1 i' j').
Proof.
  unfold iter_next. pose proof (erase fuel (counted st i j)) as E. unfold out_rel in E. cbn [ps_strm ps_depth ps_alloc counted fst] in E.
  assert (EQ : PState (ps_strm st) (ps_depth st) (ps_alloc st) = st) by (destruct st; reflexivity). rewrite EQ in E.
  destruct (do_next umax cc so co ao bnd fuel st) as [o1 s1], (do_next umax cc tso tco tao tbnd fuel (counted st i j)) as [o2 [[s2 i2] d2 [a2 j2]]]; cbn [fst snd] in E.
  assert (ES : forall X, st_rel RS RA s1 (PState (s2, i2) d2 (a2, j2)) -> (X, PState (s2, i2) d2 (a2, j2)) = (X, counted s1 i2 j2 : state) :> res Empty_set (option (datum TT ET + error Pos CE)) * state).
  { intros X (E1 & E2 & E3). cbn in E1, E2, E3. unfold counted. rewrite E1, E2, E3. reflexivity. }
  destruct o1 as [x|e| |], o2 as [x2|e2| |]; try contradiction; try tauto.
  - destruct E as (EX & Hst). intros H. exists i2, j2. destruct x as [x|], x2 as [x2|]; try contradiction; injection H as <- <-.
    + apply drel_eq in EX. subst x2. exact (ES (Ok (Some (inl x))) Hst).
    + exact (ES (Ok None) Hst).
  - destruct E as [(EX & Hst)|[[] _]]. intros [= <- <-]. exists i2, j2. apply erel_eq in EX. subst e2. exact (ES (Ok (Some (inr e))) Hst).
  - discriminate.
  - discriminate.
Qed.

Lemma iter_cost fuel st r p o st1 : at_ st r p -> iter_next umax cc tso tco tao tbnd fuel st = (o, st1) ->
  exists r' p', at_ st1 r' p' /\ length r' <= length r /\ C st1 + 11 * length r' <= C st + 11 * length r + 5.
Proof.
  intros HR E. pose proof (proj1 (t_parser fuel) Base r p st HR) as (r' & p' & HR' & HL & HC). unfold iter_next, do_next in E.
  exists r', p'. unfold Wp.wp in *. destruct (parse_next umax cc tso tco tao tbnd fuel Base st) as [[[d|]|e| |] st']; injection E as <- <-; cbn [fst snd] in *; (split; [exact HR'|]; split; [exact HL|]; cbn in HC; lia).
Qed.

Lemma nexts_cost os : forall (st st' : pstate S A) i j r p, Rs (ps_strm st) r p -> nexts umax cc so co ao bnd st os st' ->
  exists i' j' r' p', nexts umax cc tso tco tao tbnd (counted st i j) os (counted st' i' j') /\
    Rs (ps_strm st') r' p' /\ length r' <= length r /\ i' + j' + 11 * length r' <= i + j + 11 * length r + 5 * length os.
Proof.
  induction os as [|o os IH]; intros st st' i j r p HR N; inversion N; subst.
  - exists i, j, r, p. split; [constructor|]. split; [exact HR|]. cbn. lia.
  - destruct (iter_counted _ _ i j H2) as (i1 & j1 & E1). destruct (@iter_cost _ (counted st i j) r p _ _ HR E1) as (r1 & p1 & HR1 & HL1 & HC1). cbn in HR1. unfold C in HC1. cbn [counted ps_strm ps_alloc snd] in HC1.
    destruct (IH st1 st' i1 j1 _ _ HR1 ltac:(assumption)) as (i2 & j2 & r2 & p2 & N2 & HR2 & HL2 & HC2). exists i2, j2, r2, p2. split; [econstructor; eassumption|]. split; [exact HR2|]. cbn [length]. lia.
Qed.
End Cost.
