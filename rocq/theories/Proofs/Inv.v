(** What the parser keeps: an invariant of the stream and the allocator, that
    texts read from the source have a property [Pt], and that errors have a
    property [Pe].  Only operands of operatives need be texts from the source. *)
From Coq Require Import List Arith NArith Bool Lia.
From Verif.Model Require Import Prelude Parser Iter.
From Verif.Spec Require Import Contract History Trace.
Import ListNotations.
Set Implicit Arguments.

Section Inv.
Context {S A TT ET Pos CE : Type}.
Context (umax : N) (cc : classifier) (so : stream_ops S A TT Pos) (co : concat_ops A TT)
        (ao : alloc_ops A TT ET) (bnd : bindings A TT ET Pos CE).
Context (I : S -> A -> Prop) (Pt : TT -> Prop) (Pe : error Pos CE -> Prop).
(** [B]: the invariant may be lost where an allocation fails. *)
Context (B : Prop).

Definition keeps {X Y E} (Q : X -> Prop) (J : Y -> Prop) (o : res E X * Y) : Prop :=
  match fst o with Ok x => Q x /\ J (snd o) | Err _ => J (snd o) \/ B | _ => True end.
Local Notation I2 := (fun sa => I (fst sa) (snd sa)).

Record invariant : Prop := {
  iv_peek : forall s a, I s a -> keeps (fun o => (forall p, Pe (UnbalancedEndChar p)) \/ fst (s_next so (snd (s_peek so s))) = Ok o)
      (fun s' => I s' a) (s_peek so s);
  iv_next : forall s a, I s a -> keeps (fun o => forall it, o = Some it -> is_nest_end cc (it_ch it) = true ->
      Pe (UnbalancedEndChar (it_pos it))) (fun s' => I s' a) (s_next so s);
  iv_next_accum : forall s a, I s a -> keeps (fun _ => True) I2 (s_next_accum so s a);
  iv_accum_done : forall s a, I s a -> keeps Pt I2 (s_accum_done so s a);
  iv_empty : Pt (t_empty co);
  iv_concat : forall t1 t2 s a, Pt t1 -> Pt t2 -> I s a -> keeps Pt (I s) (t_concat co t1 t2 a);
  iv_new_datum : forall d s a, I s a -> keeps (fun _ => True) (I s) (a_new_datum ao d a);
  iv_missing : Pe MissingEndChar;
  iv_alloc : forall e, Pe (FailedAlloc e);
  iv_deref : (forall d a, a_get_mut ao d a = true) \/ Pe FailedDerefTryMut;
  iv_operative : forall d f, bnd d = Some (Operative f) -> forall t s a, Pt t -> I s a ->
    (I s (snd (f d t a)) \/ B /\ exists e, fst (f d t a) = inr (FailedAlloc e)) /\ (forall e, fst (f d t a) = inr e -> Pe e);
  iv_applicative : forall d f, bnd d = Some (Applicative f) -> forall l s a, I s a ->
    (I s (snd (f d l a)) \/ B /\ exists e, fst (f d l a) = inr (FailedAlloc e)) /\ (forall e, fst (f d l a) = inr e -> Pe e) }.

Context (IV : invariant).
Definition holds (st : pstate S A) : Prop := I (ps_strm st) (ps_alloc st).
Definition triple {X} (m : M (S:=S) (A:=A) (Pos:=Pos) (CE:=CE) X) (Q : X -> Prop) : Prop :=
  forall st, holds st -> match fst (m st) with
                         | Ok x => Q x /\ holds (snd (m st))
                         | Err e => Pe e /\ (holds (snd (m st)) \/ B /\ exists x, e = FailedAlloc x)
                         | _ => True
                         end.

Lemma t_ret X (x : X) (Q : X -> Prop) : Q x -> triple (ret x) Q.
Proof. intros H st Hs. split; auto. Qed.
Lemma t_raise X e (Q : X -> Prop) : Pe e -> triple (raise e) Q.
Proof. intros H st Hs. cbn. auto. Qed.
Lemma t_panic X (Q : X -> Prop) : triple panic Q.
Proof. intros st Hs. exact Logic.I. Qed.
Lemma t_nofuel X (Q : X -> Prop) : triple nofuel Q.
Proof. intros st Hs. exact Logic.I. Qed.
Lemma t_bind X Y (m : M X) (k : X -> M Y) (Q : X -> Prop) (R : Y -> Prop) :
  triple m Q -> (forall x, Q x -> triple (k x) R) -> triple (bind m k) R.
Proof.
  intros Hm Hk st Hs. specialize (Hm st Hs). unfold bind.
  destruct (m st) as [[x|e| |] st']; cbn in *; auto. apply (Hk x); tauto.
Qed.
Lemma t_assert b : triple (assert b) (fun _ => b = true).
Proof. destruct b; [apply t_ret; auto|apply t_panic]. Qed.
Lemma t_get_depth : triple get_depth (fun _ => True).
Proof. intros st Hs. split; auto. Qed.
Lemma t_incr_depth : triple (incr_depth umax) (fun _ => True).
Proof. intros st Hs. unfold incr_depth. destruct (ps_depth st <? umax)%N; cbn; auto. Qed.
Lemma t_decr_depth : triple decr_depth (fun _ => True).
Proof. intros st Hs. unfold decr_depth. destruct (0 <? ps_depth st)%N; cbn; auto. Qed.
Lemma t_finally X (m : M X) (Q : X -> Prop) : triple m Q -> triple (finally m decr_depth) Q.
Proof.
  intros Hm st Hs. specialize (Hm st Hs). unfold finally, bind, decr_depth.
  destruct (m st) as [[x|e| |] st']; cbn in *; auto; destruct (0 <? ps_depth st')%N; cbn; auto.
Qed.
Lemma t_peek : triple (peek so) (fun _ => True).
Proof.
  intros st Hs. pose proof (iv_peek IV Hs) as H. unfold peek, keeps in *.
  destruct (s_peek so (ps_strm st)) as [[x|[]| |] s]; cbn in *; tauto.
Qed.
Lemma t_next : triple (next so) (fun _ => True).
Proof.
  intros st Hs. pose proof (iv_next IV Hs) as H. unfold next, keeps in *.
  destruct (s_next so (ps_strm st)) as [[x|[]| |] s]; cbn in *; tauto.
Qed.
Lemma t_next_accum : triple (next_accum so) (fun _ => True).
Proof.
  intros st Hs. pose proof (iv_next_accum IV Hs) as H. unfold next_accum, keeps in *.
  destruct (s_next_accum so (ps_strm st) (ps_alloc st)) as [[x|e| |] [s a]]; cbn in *; try tauto.
  split; [apply IV|]. destruct H; eauto.
Qed.
Lemma t_accum_done : triple (accum_done so) Pt.
Proof.
  intros st Hs. pose proof (iv_accum_done IV Hs) as H. unfold accum_done, keeps in *.
  destruct (s_accum_done so (ps_strm st) (ps_alloc st)) as [[x|e| |] [s a]]; cbn in *; try tauto.
  split; [apply IV|]. destruct H; eauto.
Qed.
Lemma t_concat t1 t2 : Pt t1 -> Pt t2 -> triple (concat co t1 t2) Pt.
Proof.
  intros H1 H2 st Hs. pose proof (iv_concat IV H1 H2 Hs) as H. unfold concat, keeps in *.
  destruct (t_concat co t1 t2 (ps_alloc st)) as [[x|e| |] a]; cbn in *; try tauto.
  split; [apply IV|]. destruct H; eauto.
Qed.
Lemma t_new_datum d : triple (new_datum ao d) (fun _ => True).
Proof.
  intros st Hs. pose proof (iv_new_datum IV d Hs) as H. unfold new_datum, keeps in *.
  destruct (a_new_datum ao d (ps_alloc st)) as [[x|e| |] a]; cbn in *; try tauto.
  split; [apply IV|]. destruct H; eauto.
Qed.
Lemma t_call (f : A -> (option (datum TT ET) + error Pos CE) * A) :
  (forall s a, I s a -> (I s (snd (f a)) \/ B /\ exists e, fst (f a) = inr (FailedAlloc e)) /\ (forall e, fst (f a) = inr e -> Pe e)) ->
  triple (call f) (fun _ => True).
Proof.
  intros Hf st Hs. destruct (Hf _ _ Hs) as [H1 H2]. unfold call.
  destruct (f (ps_alloc st)) as [[x|e] a]; cbn in *.
  - split; auto. destruct H1 as [H1|(_ & e & [=])]. exact H1.
  - split; auto. destruct H1 as [H1|(Hb & e' & [= ->])]; eauto.
Qed.
Lemma t_skip_whitespace fuel : triple (skip_whitespace cc so fuel) (fun _ => True).
Proof.
  induction fuel as [|f IH]; cbn [skip_whitespace]; [apply t_nofuel|].
  eapply t_bind; [apply t_peek|]. intros [i|] _; [|apply t_ret; exact Logic.I].
  destruct (is_whitespace cc (it_ch i)); [|apply t_ret; exact Logic.I].
  eapply t_bind; [apply t_next|]. auto.
Qed.
Lemma t_check_end_char d : triple (check_end_char cc so d) (fun _ => True).
Proof.
  intros st Hs. unfold check_end_char, bind.
  pose proof (iv_peek IV Hs) as Hp. unfold peek, keeps in *.
  destruct (s_peek so (ps_strm st)) as [[o|[]| |] s1]; cbn [fst snd no_err] in *; try exact Logic.I.
  destruct Hp as [Hn H1]. unfold assert.
  destruct (match o with Some it => is_nest_end cc (it_ch it) | None => false end) eqn:Eo; [|exact Logic.I].
  cbn [ret]. destruct (0 <? d)%N; [split; [exact Logic.I|exact H1]|].
  pose proof (iv_next IV H1) as Hx. unfold next, keeps in *. cbn [ps_strm ps_depth ps_alloc] in *.
  destruct (s_next so s1) as [r s2]. cbn [fst snd] in *. destruct Hn as [Hn|Hn].
  - destruct r as [[it|]|[]| |]; cbn [no_err] in *; try exact Logic.I. split; [apply Hn|left; tauto].
  - subst r. cbn [no_err].
    destruct o as [it|]; [|discriminate]. destruct Hx as [Hq H2]. split; [apply Hq; auto|left; exact H2].
Qed.
Lemma t_concat_accum t : Pt t -> triple (concat_accum so co t) Pt.
Proof. intros Ht. eapply t_bind; [apply t_accum_done|]. intros. apply t_concat; auto. Qed.
Lemma t_parse_text_done t nl : Pt t -> triple (parse_text_done so co t nl) Pt.
Proof.
  intros Ht. unfold parse_text_done. destruct (nl =? 0)%N; [apply t_concat_accum; auto|apply t_raise, IV].
Qed.
Lemma t_parse_text_loop fuel m : forall t nl, Pt t -> triple (parse_text_loop umax cc so co fuel m t nl) Pt.
Proof.
  induction fuel as [|f IH]; intros t nl Ht; cbn [parse_text_loop]; [apply t_nofuel|].
  eapply t_bind; [apply t_peek|]. intros [i|] _; [|apply t_parse_text_done; auto]. cbv zeta.
  destruct ((nl =? 0)%N && is_end_char cc (it_ch i) m)%bool; [apply t_parse_text_done; auto|].
  destruct (is_nest_escape cc (it_ch i)).
  { eapply t_bind; [apply t_concat_accum; exact Ht|]. intros t' Ht'.
    eapply t_bind; [apply t_next|]. intros _ _. eapply t_bind; [apply t_next_accum|]. intros _ _. auto. }
  destruct (is_nest_start cc (it_ch i)).
  { eapply t_bind; [apply t_next_accum|]. intros _ _. destruct (nl <? umax)%N; [auto|apply t_panic]. }
  destruct (is_nest_end cc (it_ch i)).
  { destruct (0 <? nl)%N.
    - eapply t_bind; [apply t_next_accum|]. intros _ _. auto.
    - eapply t_bind; [apply t_get_depth|]. intros d _.
      eapply t_bind; [apply t_check_end_char|]. intros _ _. apply t_parse_text_done; auto. }
  eapply t_bind; [apply t_next_accum|]. intros _ _. auto.
Qed.
Lemma t_parse_text fuel m : triple (parse_text umax cc so co fuel m) Pt.
Proof. apply t_parse_text_loop, IV. Qed.
Lemma t_nest_end : triple (nest_end cc so) (fun _ => True).
Proof.
  eapply t_bind; [apply t_next|]. intros [i|] _; [|apply t_raise, IV].
  intros st Hs. destruct (is_nest_end cc (it_ch i)); cbn; auto.
Qed.

Lemma t_parser fuel :
  (forall m, triple (parse_next umax cc so co ao bnd fuel m) (fun _ => True)) /\
  triple (parse_nested umax cc so co ao bnd fuel) (fun _ => True) /\
  (forall m, triple (parse_all umax cc so co ao bnd fuel m) (fun _ => True)).
Proof.
  induction fuel as [|fuel (IH1 & IH2 & IH3)].
  { repeat split; intros; apply t_nofuel. }
  split; [|split].
  - intros m. cbn [parse_next]. cbv zeta. eapply t_bind with (Q:=fun _ => True).
    { destruct (is_operator_mode m); [apply t_skip_whitespace|apply t_ret; exact Logic.I]. }
    intros _ _. eapply t_bind; [apply t_peek|]. intros [i|] _.
    + destruct (is_nest_start cc (it_ch i)).
      { eapply t_bind; [apply t_incr_depth|]. intros _ _.
        eapply t_bind; [apply t_finally; exact IH2|].
        intros [d|] _; [apply t_ret; exact Logic.I|apply IH1]. }
      destruct (is_nest_end cc (it_ch i)).
      { eapply t_bind; [apply t_get_depth|]. intros d _.
        eapply t_bind; [apply t_check_end_char|]. intros _ _. apply t_ret; exact Logic.I. }
      eapply t_bind; [apply t_parse_text|]. intros t _. apply t_ret; exact Logic.I.
    + eapply t_bind; [apply t_get_depth|]. intros d _.
      destruct (d =? 0)%N; [apply t_ret; exact Logic.I|apply t_raise, IV].
  - cbn [parse_nested]. eapply t_bind; [apply t_next|]. intros o _.
    eapply t_bind; [apply t_assert|]. intros _ _.
    eapply t_bind; [apply IH1|]. intros op _.
    eapply t_bind; [apply t_peek|]. intros p _.
    eapply t_bind with (Q:=fun _ => True).
    { destruct p as [i|]; [|apply t_ret; exact Logic.I]. destruct (is_whitespace cc (it_ch i)); [|apply t_ret; exact Logic.I].
      eapply t_bind; [apply t_next|]. intros. apply t_ret; exact Logic.I. }
    intros _ _. destruct op as [op|].
    2:{ eapply t_bind; [apply t_nest_end|]. intros _ _. apply t_ret; exact Logic.I. }
    destruct (bnd op) as [[f|f]|] eqn:Eb.
    + eapply t_bind; [apply t_parse_text|]. intros t Ht.
      eapply t_bind; [apply t_nest_end|]. intros _ _.
      apply t_call. intros s a Hs. apply (iv_operative IV Eb); auto.
    + eapply t_bind; [apply IH3|]. intros t _.
      eapply t_bind; [apply t_nest_end|]. intros _ _.
      apply t_call. intros s a Hs. apply (iv_applicative IV Eb); auto.
    + eapply t_bind; [apply IH3|]. intros t _.
      eapply t_bind; [apply t_nest_end|]. intros _ _.
      eapply t_bind; [apply t_new_datum|]. intros r1 _.
      eapply t_bind; [apply t_new_datum|]. intros r2 _. apply t_ret; exact Logic.I.
  - intros m. cbn [parse_all]. eapply t_bind; [apply IH1|].
    intros [d|] _; [|apply t_ret; exact Logic.I].
    eapply t_bind; [apply t_new_datum|]. intros e _.
    eapply t_bind; [apply t_new_datum|]. intros n _.
    eapply t_bind with (Q:=fun b => b = true \/ Pe FailedDerefTryMut).
    { intros st Hs. split; auto. destruct (iv_deref IV); auto. }
    intros b Hb. destruct b; [|apply t_raise; destruct Hb; [discriminate|auto]].
    eapply t_bind; [apply IH3|]. intros t _. apply t_ret; exact Logic.I.
Qed.

Theorem next_inv fuel st o st' : iter_next umax cc so co ao bnd fuel st = (Ok o, st') -> holds st ->
  (holds st' \/ B /\ exists x, o = Some (inr (FailedAlloc x))) /\ forall e, o = Some (inr e) -> Pe e.
Proof.
  intros E Hs. unfold iter_next, do_next in E. pose proof (proj1 (t_parser fuel) Base st Hs) as G.
  destruct (parse_next umax cc so co ao bnd fuel Base st) as [[[d|]|e| |] s']; cbn in G; try discriminate;
    injection E as <- <-; destruct G as [G1 G2]; (split; [|intros e' He; try discriminate He; injection He as <-; exact G1]); auto.
  destruct G2 as [G2|(Hb & x & ->)]; eauto.
Qed.

Theorem called_inv st rs st' : ~ B -> called umax cc so co ao bnd st rs st' -> holds st ->
  holds st' /\ forall e, In (Some (inr e)) rs -> Pe e.
Proof.
  intros HB H. induction H as [st|st fuel r st1 rs st2 E H IH]; intros Hs; [split; [auto|intros e []]|].
  destruct (next_inv _ E Hs) as [[H1|[H1 _]] H2]; [|contradiction]. destruct (IH H1) as [A1 A2].
  split; [exact A1|]. intros e [He|He]; eauto.
Qed.
End Inv.

(** From the contracts: texts from the source consist of items of the source. *)
Section FromContract.
Context {S A TT ET Pos CE W : Type}.
Context (umax : N) (cc : classifier) (so : stream_ops S A TT Pos) (co : concat_ops A TT)
        (ao : alloc_ops A TT ET) (bnd : bindings A TT ET Pos CE).
Context (F : Prop) (view : A -> W) (Rs : S -> list (item Pos) -> list (item Pos) -> Prop)
        (Rt : TT -> list (item Pos) -> Prop).
Context (SC : stream_contract F view so Rs Rt) (TC : concat_contract F view co Rt) (AC : alloc_contract F view ao).
Context (src : list (item Pos)) (J : W -> Prop) (Q : error Pos CE -> Prop).
Local Notation P := (fun x => In x src).
Definition from_src (t : TT) : Prop := exists l, Rt t l /\ Forall P l.
Definition err_src (e : error Pos CE) : Prop :=
  match e with
  | UnbalancedEndChar p => exists x, In x src /\ is_nest_end cc (it_ch x) = true /\ p = it_pos x
  | _ => True
  end.
Definition inv_src (s : S) (a : A) : Prop := J (view a) /\ exists r p, Rs s r p /\ Forall P r /\ Forall P p.

Lemma Forall_tl r : Forall P r -> Forall P (tl r).
Proof. intros H; destruct H; cbn; auto. Qed.
Lemma Forall_first r : Forall P r -> Forall P (firstn 1 r).
Proof. intros H; destruct H; cbn; auto. Qed.

Lemma contract_invariant :
  (forall d f, bnd d = Some (Operative f) -> forall t a, from_src t -> J (view a) ->
    J (view (snd (f d t a))) /\ (forall e, fst (f d t a) = inr e -> Q e)) ->
  (forall d f, bnd d = Some (Applicative f) -> forall l a, J (view a) ->
    J (view (snd (f d l a))) /\ (forall e, fst (f d l a) = inr e -> Q e)) ->
  invariant cc so co ao bnd inv_src from_src (fun e => err_src e \/ Q e) False.
Proof.
  intros HO HA. split; try (intros; left; exact Logic.I); try (right; left; exact Logic.I).
  - intros s a (HJ & r & p & H & Hr & Hp). destruct (sc_peek SC _ _ _ H) as (s' & -> & H'). cbn.
    destruct (sc_next SC _ _ _ H') as (s2 & -> & _). split; [right; reflexivity|]. split; auto. exists r, p. auto.
  - intros s a (HJ & r & p & H & Hr & Hp). destruct (sc_next SC _ _ _ H) as (s' & -> & H'). cbn. split.
    + intros it E En. destruct r as [|y r]; [discriminate|]. injection E as ->. left. exists it.
      apply Forall_inv in Hr. auto.
    + split; auto. exists (tl r), []. auto using Forall_tl.
  - intros s a (HJ & r & p & H & Hr & Hp).
    destruct (sc_next_accum SC _ a _ _ H) as [(s' & a' & -> & V & H')|(_ & s' & a' & -> & V & _ & H')]; cbn.
    + split; auto. unfold inv_src. rewrite V. split; auto. exists (tl r), (p ++ firstn 1 r).
      split; auto. split; [apply Forall_tl; auto|apply Forall_app; auto using Forall_first].
    + left. unfold inv_src. rewrite V. split; auto. exists r, []. auto.
  - intros s a (HJ & r & p & H & Hr & Hp).
    destruct (sc_accum_done SC _ a _ _ H) as [(s' & a' & t & -> & V & Ht & H')|(_ & s' & a' & -> & V & _ & H')]; cbn;
      unfold inv_src; rewrite V.
    + split; [exists p; auto|]. split; auto. exists r, []. auto.
    + left. split; auto. exists r, []. auto.
  - exists []. split; [apply TC|constructor].
  - intros t1 t2 s a (l1 & H1 & P1) (l2 & H2 & P2) (HJ & r & p & H & Hr & Hp).
    destruct (tc_concat TC _ _ _ _ a H1 H2) as [(t & a' & -> & V & Ht)|(_ & a' & -> & V & _)]; cbn;
      unfold inv_src; rewrite V.
    + split. { exists (l1 ++ l2). split; auto. apply Forall_app; auto. } split; auto. exists r, p. auto.
    + left. split; auto. exists r, p. auto.
  - intros d s a (HJ & r & p & H & Hr & Hp).
    destruct (AC d a) as [(a' & -> & V)|(_ & a' & -> & V)]; cbn;
      unfold inv_src; rewrite V.
    + split; auto. split; auto. exists r, p. auto.
    + left. split; auto. exists r, p. auto.
  - intros d f Eb t s a Ht (HJ & H). destruct (HO _ _ Eb t a Ht HJ) as [J' HE]. split; [left; split|]; auto.
  - intros d f Eb l s a (HJ & H). destruct (HA _ _ Eb l a HJ) as [J' HE]. split; [left; split|]; auto.
Qed.

Lemma holds_start st s w : ps_depth st = 0%N -> Rs (ps_strm st) s [] -> view (ps_alloc st) = w -> J w ->
  incl s src -> holds inv_src st.
Proof.
  intros _ H V HJ Hi. split; [rewrite V; exact HJ|]. exists s, []. repeat split; auto. apply Forall_forall. exact Hi.
Qed.
End FromContract.
