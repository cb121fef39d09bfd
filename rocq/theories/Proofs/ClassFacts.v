(** What a parser does depends on the classes of characters only. *)
From Coq Require Import List Arith NArith Bool Lia.
From Verif.Model Require Import Prelude Parser Iter.
From Verif.Spec Require Import Contract Run Classes.
From Verif.Proofs Require Import Sim Refine Compose.
Import ListNotations.
Set Implicit Arguments.

(** The class of a character as a number, and the classifier of these. *)
Definition code (cc : classifier) (c : char) : char :=
  ((if is_nest_start cc c then 1 else 0) + (if is_nest_end cc c then 2 else 0) +
   (if is_nest_escape cc c then 4 else 0) + (if is_whitespace cc c then 8 else 0))%N.
Definition coded : classifier :=
  {| is_nest_start c := N.testbit c 0; is_nest_end c := N.testbit c 1;
     is_nest_escape c := N.testbit c 2; is_whitespace c := N.testbit c 3 |}.

Lemma code_start cc c : is_nest_start coded (code cc c) = is_nest_start cc c.
Proof. unfold code, coded. cbn [is_nest_start].
  destruct (is_nest_start cc c), (is_nest_end cc c), (is_nest_escape cc c), (is_whitespace cc c); reflexivity. Qed.
Lemma code_end cc c : is_nest_end coded (code cc c) = is_nest_end cc c.
Proof. unfold code, coded. cbn [is_nest_end].
  destruct (is_nest_start cc c), (is_nest_end cc c), (is_nest_escape cc c), (is_whitespace cc c); reflexivity. Qed.
Lemma code_escape cc c : is_nest_escape coded (code cc c) = is_nest_escape cc c.
Proof. unfold code, coded. cbn [is_nest_escape].
  destruct (is_nest_start cc c), (is_nest_end cc c), (is_nest_escape cc c), (is_whitespace cc c); reflexivity. Qed.
Lemma code_white cc c : is_whitespace coded (code cc c) = is_whitespace cc c.
Proof. unfold code, coded. cbn [is_whitespace].
  destruct (is_nest_start cc c), (is_nest_end cc c), (is_nest_escape cc c), (is_whitespace cc c); reflexivity. Qed.
Lemma code_same cc1 cc2 c1 c2 : same_class cc1 cc2 c1 c2 -> code cc1 c1 = code cc2 c2.
Proof. intros (A & B & C & D). unfold code. rewrite A, B, C, D. reflexivity. Qed.

(** A stream that shows the classes instead of the characters. *)
Section Shown.
Context {S A TT ET Pos CE : Type}.
Context (umax : N) (cc : classifier) (so : stream_ops S A TT Pos) (co : concat_ops A TT)
        (ao : alloc_ops A TT ET) (bnd : bindings A TT ET Pos CE).
Definition show (o : option (item Pos)) : option (item Pos) :=
  option_map (fun i => Item (code cc (it_ch i)) (it_pos i)) o.
Definition shown : stream_ops S A TT Pos :=
  {| s_peek s := let (r, s') := s_peek so s in (res_map show r, s');
     s_next s := let (r, s') := s_next so s in (res_map show r, s');
     s_next_accum s a := let (r, sa) := s_next_accum so s a in (res_map show r, sa);
     s_accum_done := s_accum_done so |}.

Local Notation MM := (M (S:=S) (A:=A) (Pos:=Pos) (CE:=CE)).
Definition same {X} (m1 m2 : MM X) : Prop := forall st, m1 st = m2 st.

Lemma same_refl X (m : MM X) : same m m.
Proof. intros st. reflexivity. Qed.
Lemma same_bind X Y (m1 m2 : MM X) (k1 k2 : X -> MM Y) : same m1 m2 -> (forall x, same (k1 x) (k2 x)) ->
  same (bind m1 k1) (bind m2 k2).
Proof. intros Hm Hk st. unfold bind. rewrite Hm. destruct (m2 st) as [[x| | |] s]; auto. apply Hk. Qed.
Lemma same_if X (b1 b2 : bool) (m1 m2 n1 n2 : MM X) : b1 = b2 -> same m1 m2 -> same n1 n2 ->
  same (if b1 then m1 else n1) (if b2 then m2 else n2).
Proof. intros -> H1 H2. destruct b2; auto. Qed.
Lemma same_finally X (m1 m2 : MM X) f : same m1 m2 -> same (finally m1 f) (finally m2 f).
Proof. intros H st. unfold finally. rewrite H. reflexivity. Qed.

(** An operation followed by what is done with its result. *)
Lemma same_peek Y (k1 k2 : _ -> MM Y) : (forall o, same (k1 o) (k2 (show o))) ->
  same (bind (peek so) k1) (bind (peek shown) k2).
Proof.
  intros H st. unfold bind, peek, shown. cbn [s_peek]. destruct (s_peek so (ps_strm st)) as [[o|[]| |] s]; cbn; auto. apply H.
Qed.
Lemma same_next Y (k1 k2 : _ -> MM Y) : (forall o, same (k1 o) (k2 (show o))) ->
  same (bind (next so) k1) (bind (next shown) k2).
Proof.
  intros H st. unfold bind, next, shown. cbn [s_next]. destruct (s_next so (ps_strm st)) as [[o|[]| |] s]; cbn; auto. apply H.
Qed.
Lemma same_next_accum Y (k1 k2 : _ -> MM Y) : (forall o, same (k1 o) (k2 (show o))) ->
  same (bind (next_accum so) k1) (bind (next_accum shown) k2).
Proof.
  intros H st. unfold bind, next_accum, shown. cbn [s_next_accum].
  destruct (s_next_accum so (ps_strm st) (ps_alloc st)) as [[o|e| |] [s a]]; cbn; auto. apply H.
Qed.

Lemma same_skip fuel : same (skip_whitespace cc so fuel) (skip_whitespace coded shown fuel).
Proof.
  induction fuel as [|f IH]; cbn [skip_whitespace]; [apply same_refl|].
  apply same_peek. intros [i|]; [|apply same_refl]. cbn [show option_map it_ch]. rewrite code_white.
  apply same_if; [reflexivity| |apply same_refl]. apply same_next. intros _. exact IH.
Qed.
Lemma same_check d : same (check_end_char cc so d) (check_end_char coded shown d).
Proof.
  unfold check_end_char. apply same_peek. intros o. apply same_bind.
  { destruct o as [i|]; [|apply same_refl]. cbn [show option_map it_ch]. rewrite code_end. apply same_refl. }
  intros _. apply same_if; [reflexivity|apply same_refl|]. apply same_next. intros [i|]; apply same_refl.
Qed.
Lemma same_end_char c m : is_end_char cc c m = is_end_char coded (code cc c) m.
Proof. unfold is_end_char. rewrite code_white, code_start, code_end. reflexivity. Qed.
Lemma same_concat_accum t : same (concat_accum so co t) (concat_accum shown co t).
Proof. apply same_refl. Qed.
Lemma same_done t n : same (parse_text_done so co t n) (parse_text_done shown co t n).
Proof. apply same_refl. Qed.
Lemma same_text_loop fuel m : forall t n,
  same (parse_text_loop umax cc so co fuel m t n) (parse_text_loop umax coded shown co fuel m t n).
Proof.
  induction fuel as [|f IH]; intros t n; cbn [parse_text_loop]; [apply same_refl|].
  apply same_peek. intros [i|]; [|apply same_done]. cbn [show option_map it_ch]. cbv zeta.
  rewrite <- same_end_char, code_escape, code_start, code_end.
  apply same_if; [reflexivity|apply same_done|].
  apply same_if; [reflexivity| |].
  { apply same_bind; [apply same_concat_accum|]. intros u. apply same_next. intros _. apply same_next_accum. intros _. apply IH. }
  apply same_if; [reflexivity| |].
  { apply same_next_accum. intros _. apply same_if; [reflexivity|apply IH|apply same_refl]. }
  apply same_if; [reflexivity| |].
  { apply same_if; [reflexivity| |].
    - apply same_next_accum. intros _. apply IH.
    - apply same_bind; [apply same_refl|]. intros d. apply same_bind; [apply same_check|]. intros _. apply same_done. }
  apply same_next_accum. intros _. apply IH.
Qed.
Lemma same_nest_end : same (nest_end cc so) (nest_end coded shown).
Proof.
  apply same_next. intros [i|]; [|apply same_refl]. cbn [show option_map it_ch]. rewrite code_end. apply same_refl.
Qed.

Lemma same_parser fuel :
  (forall m, same (parse_next umax cc so co ao bnd fuel m) (parse_next umax coded shown co ao bnd fuel m)) /\
  same (parse_nested umax cc so co ao bnd fuel) (parse_nested umax coded shown co ao bnd fuel) /\
  (forall m, same (parse_all umax cc so co ao bnd fuel m) (parse_all umax coded shown co ao bnd fuel m)).
Proof.
  induction fuel as [|f (IH1 & IH2 & IH3)]; cbn [parse_next parse_nested parse_all];
    [repeat split; intros; apply same_refl|]. repeat split.
  - intros m. apply same_bind. { apply same_if; [reflexivity|apply same_skip|apply same_refl]. } intros _.
    apply same_peek. intros [i|]; [|apply same_refl]. cbn [show option_map it_ch]. cbv zeta. rewrite code_start, code_end.
    apply same_if; [reflexivity| |].
    { apply same_bind; [apply same_refl|]. intros _. apply same_bind; [apply same_finally, IH2|].
      intros [d|]; [apply same_refl|apply IH1]. }
    apply same_if; [reflexivity| |].
    { apply same_bind; [apply same_refl|]. intros d. apply same_bind; [apply same_check|]. intros _. apply same_refl. }
    apply same_bind; [apply same_text_loop|]. intros t. apply same_refl.
  - apply same_next. intros o. apply same_bind.
    { destruct o as [i|]; [|apply same_refl]. cbn [show option_map it_ch]. rewrite code_start. apply same_refl. }
    intros _. apply same_bind; [apply IH1|]. intros op. apply same_peek. intros o'. apply same_bind.
    { destruct o' as [i|]; [|apply same_refl]. cbn [show option_map it_ch]. rewrite code_white.
      apply same_if; [reflexivity| |apply same_refl]. apply same_next. intros _. apply same_refl. }
    intros _. destruct op as [d|].
    2:{ apply same_bind; [apply same_nest_end|]. intros _. apply same_refl. }
    destruct (bnd d) as [[g|g]|].
    + apply same_bind; [apply same_text_loop|]. intros t. apply same_bind; [apply same_nest_end|]. intros _. apply same_refl.
    + apply same_bind; [apply IH3|]. intros l. apply same_bind; [apply same_nest_end|]. intros _. apply same_refl.
    + apply same_bind; [apply IH3|]. intros l. apply same_bind; [apply same_nest_end|]. intros _. apply same_refl.
  - intros m. apply same_bind; [apply IH1|]. intros [d|]; [|apply same_refl].
    apply same_bind; [apply same_refl|]. intros e. apply same_bind; [apply same_refl|]. intros n.
    apply same_bind; [apply same_refl|]. intros b. apply same_if; [reflexivity| |apply same_refl].
    apply same_bind; [apply IH3|]. intros l. apply same_refl.
Qed.

Lemma shown_next fuel st : iter_next umax cc so co ao bnd fuel st = iter_next umax coded shown co ao bnd fuel st.
Proof. unfold iter_next, do_next. rewrite (proj1 (same_parser fuel)). reflexivity. Qed.
Lemma shown_collect n fuel : forall st,
  iter_collect umax cc so co ao bnd n fuel st = iter_collect umax coded shown co ao bnd n fuel st.
Proof.
  induction n as [|n IH]; intros st; cbn [iter_collect]; [reflexivity|]. rewrite shown_next.
  destruct (iter_next umax coded shown co ao bnd fuel st) as [[[x|]|[]| |] s]; auto. rewrite IH. reflexivity.
Qed.
End Shown.

(** Two parsers with different classifiers on sources of the same classes. *)
Section Classes.
Context {S1 A1 T1 E1 P1 C1 W1 S2 A2 T2 E2 P2 C2 W2 : Type} (umax : N) (cc1 cc2 : classifier).
Context (so1 : stream_ops S1 A1 T1 P1) (co1 : concat_ops A1 T1) (ao1 : alloc_ops A1 T1 E1) (bnd1 : bindings A1 T1 E1 P1 C1).
Context (so2 : stream_ops S2 A2 T2 P2) (co2 : concat_ops A2 T2) (ao2 : alloc_ops A2 T2 E2) (bnd2 : bindings A2 T2 E2 P2 C2).
Context (Rs1 : S1 -> list (item P1) -> list (item P1) -> Prop) (Rt1 : T1 -> list (item P1) -> Prop)
        (Rs2 : S2 -> list (item P2) -> list (item P2) -> Prop) (Rt2 : T2 -> list (item P2) -> Prop).
Context (view1 : A1 -> W1) (view2 : A2 -> W2).
Context (Rch : char -> char -> Prop) (Rp : P1 -> P2 -> Prop) (Rw : W1 -> W2 -> Prop) (Rx : E1 -> E2 -> Prop) (Rc : C1 -> C2 -> Prop).
Context (HC : forall c1 c2, Rch c1 c2 -> same_class cc1 cc2 c1 c2).
Local Notation ib := (Forall2 (item_by Rch Rp)).

Definition RsB (s1 : S1) (s2 : S2) : Prop := exists r1 p1 r2 p2,
  Rs1 s1 r1 p1 /\ Rs2 s2 r2 p2 /\ ib r1 r2 /\ ib p1 p2.
Definition RtB (t1 : T1) (t2 : T2) : Prop := exists l1 l2, Rt1 t1 l1 /\ Rt2 t2 l2 /\ ib l1 l2.
Definition RaB (a1 : A1) (a2 : A2) : Prop := Rw (view1 a1) (view2 a2).

Lemma ib_hd r1 r2 : ib r1 r2 -> option_rel (item_rel Rp) (show cc1 (hd_error r1)) (show cc2 (hd_error r2)).
Proof. intros [|i j r r' [H H'] _]; cbn; auto. split; [apply code_same, HC, H|exact H']. Qed.
Lemma ib_tl r1 r2 : ib r1 r2 -> ib (tl r1) (tl r2).
Proof. intros [|]; cbn; auto. Qed.
Lemma ib_first r1 r2 : ib r1 r2 -> ib (firstn 1 r1) (firstn 1 r2).
Proof. intros [|]; cbn; auto. Qed.

Lemma classes_stream : stream_contract False view1 so1 Rs1 Rt1 -> stream_contract False view2 so2 Rs2 Rt2 ->
  stream_sim (shown cc1 so1) (shown cc2 so2) False RsB RaB RtB Rp.
Proof.
  intros C1' C2'. split.
  - intros s1 s2 (r1 & p1 & r2 & p2 & H1 & H2 & Hr & Hp). unfold pres_rel, shown. cbn [s_peek].
    destruct (sc_peek C1' _ _ _ H1) as (s1' & -> & H1'), (sc_peek C2' _ _ _ H2) as (s2' & -> & H2').
    cbn [res_map fst snd]. split; [apply ib_hd; auto|]. exists r1, p1, r2, p2. auto.
  - intros s1 s2 (r1 & p1 & r2 & p2 & H1 & H2 & Hr & Hp). unfold pres_rel, shown. cbn [s_next].
    destruct (sc_next C1' _ _ _ H1) as (s1' & -> & H1'), (sc_next C2' _ _ _ H2) as (s2' & -> & H2').
    cbn [res_map fst snd]. split; [apply ib_hd; auto|]. exists (tl r1), [], (tl r2), []. auto using ib_tl.
  - intros s1 s2 a1 a2 (r1 & p1 & r2 & p2 & H1 & H2 & Hr & Hp) Ha. unfold ares_rel, shown. cbn [s_next_accum].
    destruct (sc_next_accum C2' _ a2 _ _ H2) as [(s2' & a2' & -> & V2 & H2')|[[] _]].
    destruct (sc_next_accum C1' _ a1 _ _ H1) as [(s1' & a1' & -> & V1 & H1')|[[] _]].
    cbn [res_map fst snd].
    split; [apply ib_hd; auto|]. split; cbn [fst snd]; [|unfold RaB; rewrite V1, V2; exact Ha].
    do 4 eexists. split; [exact H1'|]. split; [exact H2'|]. split; [apply ib_tl; auto|].
    apply Forall2_app; auto using ib_first.
  - intros s1 s2 a1 a2 (r1 & p1 & r2 & p2 & H1 & H2 & Hr & Hp) Ha. unfold ares_rel, shown. cbn [s_accum_done].
    destruct (sc_accum_done C2' _ a2 _ _ H2) as [(s2' & a2' & t2 & -> & V2 & G2 & H2')|[[] _]].
    destruct (sc_accum_done C1' _ a1 _ _ H1) as [(s1' & a1' & t1 & -> & V1 & G1 & H1')|[[] _]]. cbn [fst snd].
    split; [exists p1, p2; auto|]. split; cbn [fst snd]; [|unfold RaB; rewrite V1, V2; exact Ha].
    exists r1, [], r2, []. auto.
Qed.
Lemma classes_concat : concat_contract False view1 co1 Rt1 -> concat_contract False view2 co2 Rt2 ->
  concat_sim co1 co2 False RaB RtB.
Proof.
  intros C1' C2'. split.
  - exists [], []. repeat split; [apply (tc_empty C1')|apply (tc_empty C2')|constructor].
  - intros t1 t1' t2 t2' a1 a2 (l1 & l2 & H1 & H2 & Hl) (l1' & l2' & H1' & H2' & Hl') Ha. unfold ares_rel.
    destruct (tc_concat C2' _ _ _ _ a2 H2 H2') as [(t & a2' & -> & V2 & G2)|[[] _]].
    destruct (tc_concat C1' _ _ _ _ a1 H1 H1') as [(t' & a1' & -> & V1 & G1)|[[] _]]. cbn [fst snd].
    split; [|unfold RaB; rewrite V1, V2; exact Ha]. do 2 eexists. split; [exact G1|]. split; [exact G2|].
    apply Forall2_app; auto.
Qed.
Lemma classes_alloc : alloc_contract False view1 ao1 -> alloc_contract False view2 ao2 ->
  (forall d a, a_get_mut ao1 d a = true) -> (forall d a, a_get_mut ao2 d a = true) ->
  alloc_sim ao1 ao2 False RaB RtB Rx.
Proof.
  intros C1' C2' G1 G2. split.
  - intros d1 d2 a1 a2 Hd Ha. unfold ares_rel.
    destruct (C2' d2 a2) as [(a2' & -> & V2)|[[] _]].
    destruct (C1' d1 a1) as [(a1' & -> & V1)|[[] _]]; cbn [fst snd].
    split; [exact Hd|]. unfold RaB. rewrite V1, V2. exact Ha.
  - intros. rewrite G1, G2. reflexivity.
Qed.

Context (SC1 : stream_contract False view1 so1 Rs1 Rt1) (TC1 : concat_contract False view1 co1 Rt1)
        (AC1 : alloc_contract False view1 ao1) (GM1 : forall d a, a_get_mut ao1 d a = true).
Context (SC2 : stream_contract False view2 so2 Rs2 Rt2) (TC2 : concat_contract False view2 co2 Rt2)
        (AC2 : alloc_contract False view2 ao2) (GM2 : forall d a, a_get_mut ao2 d a = true).
Context (BS : bindings_sim bnd1 bnd2 False RaB RtB Rx Rp Rc).

Lemma classes_collect n fuel st1 st2 : st_rel RsB RaB st1 st2 ->
  coll_rel RsB RaB RtB Rx Rp Rc (iter_collect umax cc1 so1 co1 ao1 bnd1 n fuel st1) (iter_collect umax cc2 so2 co2 ao2 bnd2 n fuel st2).
Proof.
  intros H. rewrite (shown_collect umax cc1), (shown_collect umax cc2).
  eapply sim_iter_collect; eauto using classes_stream, classes_concat, classes_alloc.
Qed.
End Classes.
