(** What a run of the parser returned depends only on what the stream has read. *)
From Coq Require Import List NArith Bool Lia.
From Verif.Model Require Import Prelude Parser Iter.
From Verif.Spec Require Import Run.
Import ListNotations.
Set Implicit Arguments.

Section Local.
Context {S1 S2 A TT ET Pos CE : Type}.
Context (umax : N) (cc : classifier) (so1 : stream_ops S1 A TT Pos) (so2 : stream_ops S2 A TT Pos)
        (co : concat_ops A TT) (ao : alloc_ops A TT ET) (bnd : bindings A TT ET Pos CE).
(** [R b s1 s2]: the second stream agrees with the first for [b] more steps.
    [adv n s s']: the first stream has made [n] steps. *)
Context (R : nat -> S1 -> S2 -> Prop) (adv : nat -> S1 -> S1 -> Prop).

Definition good {E X} (r : res E X) : Prop := match r with Ok _ | Err _ => True | _ => False end.
Definition op_local {X} (m1 : S1 -> res Empty_set X * S1) (m2 : S2 -> res Empty_set X * S2) : Prop :=
  forall s1 r s1', m1 s1 = (r, s1') -> good r -> exists n, adv n s1 s1' /\
    forall b s2, R (n + b) s1 s2 -> exists s2', m2 s2 = (r, s2') /\ R b s1' s2'.
Definition op_local_a {X} (m1 : S1 -> A -> res alloc_error X * (S1 * A)) (m2 : S2 -> A -> res alloc_error X * (S2 * A)) : Prop :=
  forall s1 a r s1' a', m1 s1 a = (r, (s1', a')) -> good r -> exists n, adv n s1 s1' /\
    forall b s2, R (n + b) s1 s2 -> exists s2', m2 s2 a = (r, (s2', a')) /\ R b s1' s2'.
Record stream_local : Prop := {
  sl_peek : op_local (s_peek so1) (s_peek so2);
  sl_next : op_local (s_next so1) (s_next so2);
  sl_next_accum : op_local_a (s_next_accum so1) (s_next_accum so2);
  sl_accum_done : op_local_a (s_accum_done so1) (s_accum_done so2);
  sl_refl : forall s, adv 0 s s;
  sl_trans : forall n m s s' s'', adv n s s' -> adv m s' s'' -> adv (n + m) s s'' }.
Context (SL : stream_local).

Local Notation M1 := (M (S:=S1) (A:=A) (Pos:=Pos) (CE:=CE)).
Local Notation M2 := (M (S:=S2) (A:=A) (Pos:=Pos) (CE:=CE)).
Definition local_ X (m1 : M1 X) (m2 : M2 X) : Prop := forall s1 d a r s1' d' a',
  m1 (PState s1 d a) = (r, PState s1' d' a') -> good r -> exists n, adv n s1 s1' /\
    forall b s2, R (n + b) s1 s2 -> exists s2', m2 (PState s2 d a) = (r, PState s2' d' a') /\ R b s1' s2'.

(** What does not touch the stream. *)
Lemma l_pure X (f : N -> A -> res (error Pos CE) X * (N * A)) (m1 : M1 X) (m2 : M2 X) :
  (forall s d a, m1 (PState s d a) = (fst (f d a), PState s (fst (snd (f d a))) (snd (snd (f d a))))) ->
  (forall s d a, m2 (PState s d a) = (fst (f d a), PState s (fst (snd (f d a))) (snd (snd (f d a))))) -> local_ m1 m2.
Proof.
  intros E1 E2 s1 d a r s1' d' a' E _. rewrite E1 in E. injection E as <- <- <- <-. exists 0. split; [apply (sl_refl SL)|].
  intros b s2 H. exists s2. split; [apply E2|exact H].
Qed.
Lemma l_ret X (x : X) : local_ (ret x) (ret x).
Proof. apply (l_pure (fun d a => (Ok x, (d, a)))); reflexivity. Qed.
Lemma l_raise X e : local_ (raise (X:=X) e) (raise e).
Proof. apply (l_pure (fun d a => (Err e, (d, a)))); reflexivity. Qed.
Lemma l_panic X : local_ (panic (X:=X)) panic.
Proof. apply (l_pure (fun d a => (Panic, (d, a)))); reflexivity. Qed.
Lemma l_nofuel X : local_ (nofuel (X:=X)) nofuel.
Proof. apply (l_pure (fun d a => (OutOfFuel, (d, a)))); reflexivity. Qed.
Lemma l_depth : local_ get_depth get_depth.
Proof. apply (l_pure (fun d a => (Ok d, (d, a)))); reflexivity. Qed.
Lemma l_incr : local_ (incr_depth umax) (incr_depth umax).
Proof.
  apply (l_pure (fun d a => if (d <? umax)%N then (Ok tt, (d + 1, a)%N) else (Panic, (d, a)))); intros s d a; unfold incr_depth; cbn; destruct (d <? umax)%N; reflexivity.
Qed.
Lemma l_decr : local_ decr_depth decr_depth.
Proof.
  apply (l_pure (fun d a => if (0 <? d)%N then (Ok tt, (d - 1, a)%N) else (Panic, (d, a)))); intros s d a; unfold decr_depth; cbn; destruct (0 <? d)%N; reflexivity.
Qed.
Lemma l_assert b : local_ (assert b) (assert b).
Proof. unfold assert. destruct b; [apply l_ret|apply l_panic]. Qed.
Lemma l_concat t1 t2 : local_ (concat co t1 t2) (concat co t1 t2).
Proof.
  apply (l_pure (fun d a => (res_map_err FailedAlloc (fst (t_concat co t1 t2 a)), (d, snd (t_concat co t1 t2 a)))));
    intros s d a; unfold concat; cbn; destruct (t_concat co t1 t2 a); reflexivity.
Qed.
Lemma l_new d : local_ (new_datum ao d) (new_datum ao d).
Proof.
  apply (l_pure (fun n a => (res_map_err FailedAlloc (fst (a_new_datum ao d a)), (n, snd (a_new_datum ao d a)))));
    intros s n a; unfold new_datum; cbn; destruct (a_new_datum ao d a); reflexivity.
Qed.
Lemma l_get_mut n : local_ (fun st => (Ok (a_get_mut ao n (ps_alloc st)), st)) (fun st => (Ok (a_get_mut ao n (ps_alloc st)), st)).
Proof. apply (l_pure (fun d a => (Ok (a_get_mut ao n a), (d, a)))); reflexivity. Qed.
Lemma l_call X (f : A -> (X + error Pos CE) * A) : local_ (call f) (call f).
Proof.
  apply (l_pure (fun d a => (match fst (f a) with inl x => Ok x | inr e => Err e end, (d, snd (f a)))));
    intros s n a; unfold call; cbn; destruct (f a); reflexivity.
Qed.

Lemma l_bind X Y (m1 : M1 X) (m2 : M2 X) (k1 : X -> M1 Y) (k2 : X -> M2 Y) :
  local_ m1 m2 -> (forall x, local_ (k1 x) (k2 x)) -> local_ (bind m1 k1) (bind m2 k2).
Proof.
  intros Hm Hk s1 d a r s1' d' a' E G. unfold bind in E. destruct (m1 (PState s1 d a)) as [r1 [s3 d3 a3]] eqn:E1.
  destruct r1 as [x|e| |].
  - destruct (Hm _ _ _ _ _ _ _ E1 I) as (n & HA & HB). destruct (Hk x _ _ _ _ _ _ _ E G) as (m & HA' & HB').
    exists (n + m). split; [eapply (sl_trans SL); eassumption|]. intros b s2 H. rewrite <- PeanoNat.Nat.add_assoc in H.
    destruct (HB _ _ H) as (s4 & E4 & H4). destruct (HB' _ _ H4) as (s5 & E5 & H5). exists s5. split; [|exact H5]. unfold bind. rewrite E4. exact E5.
  - injection E as <- <- <- <-. destruct (Hm _ _ _ _ _ _ _ E1 I) as (n & HA & HB). exists n. split; [exact HA|]. intros b s2 H.
    destruct (HB _ _ H) as (s4 & E4 & H4). exists s4. split; [|exact H4]. unfold bind. rewrite E4. reflexivity.
  - injection E as <- <- <- <-. destruct G.
  - injection E as <- <- <- <-. destruct G.
Qed.
Lemma l_finally X (m1 : M1 X) (m2 : M2 X) f1 f2 : local_ m1 m2 -> local_ f1 f2 -> local_ (finally m1 f1) (finally m2 f2).
Proof.
  intros Hm Hf s1 d a r s1' d' a' E G. unfold finally in E. destruct (m1 (PState s1 d a)) as [r1 [s3 d3 a3]] eqn:E1.
  assert (K : good r1 -> forall k, (match r1 with Ok x => bind f1 (fun _ => ret x) | Err e => bind f1 (fun _ => raise e) | _ => k end) (PState s3 d3 a3) = (r, PState s1' d' a')).
  { intros GG k. destruct r1; try destruct GG; exact E. }
  assert (G1 : good r1) by (destruct r1; try exact I; injection E as <- _ _ _; exact G). specialize (K G1 panic).
  destruct (Hm _ _ _ _ _ _ _ E1 G1) as (n & HA & HB).
  assert (HL : local_ (match r1 with Ok x => bind f1 (fun _ => ret x) | Err e => bind f1 (fun _ => raise e) | _ => panic end)
                     (match r1 with Ok x => bind f2 (fun _ => ret x) | Err e => bind f2 (fun _ => raise e) | _ => panic end)).
  { destruct r1; try destruct G1; (apply l_bind; [exact Hf|]; intros; (apply l_ret || apply l_raise)). }
  destruct (HL _ _ _ _ _ _ _ K G) as (m & HA' & HB').
  exists (n + m). split; [eapply (sl_trans SL); eassumption|]. intros b s2 H. rewrite <- PeanoNat.Nat.add_assoc in H.
  destruct (HB _ _ H) as (s4 & E4 & H4). destruct (HB' _ _ H4) as (s5 & E5 & H5). exists s5. split; [|exact H5]. unfold finally. rewrite E4. destruct r1; try destruct G1; exact E5.
Qed.
Lemma good_no_err X (r : res Empty_set X) : good (no_err (E:=error Pos CE) r) -> good r.
Proof. destruct r as [x|[]| |]; exact (fun h => h). Qed.
Lemma good_map_err X (r : res alloc_error X) : good (res_map_err (FailedAlloc (Pos:=Pos) (CE:=CE)) r) -> good r.
Proof. destruct r; exact (fun h => h). Qed.
Lemma l_peek : local_ (peek so1) (peek so2).
Proof.
  intros s1 d a r s1' d' a' E G. unfold peek in E. cbn [ps_strm ps_depth ps_alloc] in E. destruct (s_peek so1 s1) as [r1 s3] eqn:E1. injection E as <- <- <- <-.
  destruct (sl_peek SL _ E1 (good_no_err _ G)) as (n & HA & HB). exists n. split; [exact HA|]. intros b s2 H. destruct (HB _ _ H) as (s4 & E4 & H4). exists s4. split; [|exact H4].
  unfold peek. cbn [ps_strm ps_depth ps_alloc]. rewrite E4. reflexivity.
Qed.
Lemma l_next : local_ (next so1) (next so2).
Proof.
  intros s1 d a r s1' d' a' E G. unfold next in E. cbn [ps_strm ps_depth ps_alloc] in E. destruct (s_next so1 s1) as [r1 s3] eqn:E1. injection E as <- <- <- <-.
  destruct (sl_next SL _ E1 (good_no_err _ G)) as (n & HA & HB). exists n. split; [exact HA|]. intros b s2 H. destruct (HB _ _ H) as (s4 & E4 & H4). exists s4. split; [|exact H4].
  unfold next. cbn [ps_strm ps_depth ps_alloc]. rewrite E4. reflexivity.
Qed.
Lemma l_next_accum : local_ (next_accum so1) (next_accum so2).
Proof.
  intros s1 d a r s1' d' a' E G. unfold next_accum in E. cbn [ps_strm ps_depth ps_alloc] in E. destruct (s_next_accum so1 s1 a) as [r1 [s3 a3]] eqn:E1. injection E as <- <- <- <-.
  destruct (sl_next_accum SL _ _ E1 (good_map_err _ G)) as (n & HA & HB). exists n. split; [exact HA|]. intros b s2 H. destruct (HB _ _ H) as (s4 & E4 & H4). exists s4. split; [|exact H4].
  unfold next_accum. cbn [ps_strm ps_depth ps_alloc]. rewrite E4. reflexivity.
Qed.
Lemma l_accum_done : local_ (accum_done so1) (accum_done so2).
Proof.
  intros s1 d a r s1' d' a' E G. unfold accum_done in E. cbn [ps_strm ps_depth ps_alloc] in E. destruct (s_accum_done so1 s1 a) as [r1 [s3 a3]] eqn:E1. injection E as <- <- <- <-.
  destruct (sl_accum_done SL _ _ E1 (good_map_err _ G)) as (n & HA & HB). exists n. split; [exact HA|]. intros b s2 H. destruct (HB _ _ H) as (s4 & E4 & H4). exists s4. split; [|exact H4].
  unfold accum_done. cbn [ps_strm ps_depth ps_alloc]. rewrite E4. reflexivity.
Qed.

Ltac step := first
  [apply l_peek|apply l_next|apply l_next_accum|apply l_accum_done|apply l_concat|apply l_new|apply l_get_mut|apply l_call
  |apply l_depth|apply l_incr|apply l_decr|apply l_assert|apply l_ret|apply l_raise|apply l_panic|apply l_nofuel
  |assumption|match goal with H : forall m, local_ _ _ |- _ => apply H end|match goal with H : forall m t n, local_ _ _ |- _ => apply H end
  |apply l_finally|apply l_bind; [|intros ?]
  |match goal with |- local_ (match ?e with _ => _ end) _ => destruct e end].
Lemma l_skip fuel : local_ (skip_whitespace cc so1 fuel) (skip_whitespace cc so2 fuel).
Proof. induction fuel as [|fuel IH]; cbn [skip_whitespace]; repeat step. Qed.
Lemma l_check d : local_ (check_end_char cc so1 d) (check_end_char cc so2 d).
Proof. unfold check_end_char. repeat step. Qed.
Lemma l_text fuel : forall m t nl, local_ (parse_text_loop umax cc so1 co fuel m t nl) (parse_text_loop umax cc so2 co fuel m t nl).
Proof.
  induction fuel as [|fuel IH]; intros m t nl; cbn [parse_text_loop]; unfold parse_text_done, concat_accum; repeat (step || apply l_check).
Qed.
Lemma l_parse_text fuel m : local_ (parse_text umax cc so1 co fuel m) (parse_text umax cc so2 co fuel m).
Proof. apply l_text. Qed.
Lemma l_nest_end : local_ (nest_end cc so1) (nest_end cc so2).
Proof. unfold nest_end. repeat step. Qed.
Lemma l_parser fuel :
  (forall m, local_ (parse_next umax cc so1 co ao bnd fuel m) (parse_next umax cc so2 co ao bnd fuel m)) /\
  local_ (parse_nested umax cc so1 co ao bnd fuel) (parse_nested umax cc so2 co ao bnd fuel) /\
  (forall m, local_ (parse_all umax cc so1 co ao bnd fuel m) (parse_all umax cc so2 co ao bnd fuel m)).
Proof.
  induction fuel as [|fuel (IH1 & IH2 & IH3)]; [repeat split; intros; apply l_nofuel|].
  split; [|split]; intros; cbn [parse_next parse_nested parse_all]; cbv zeta;
    repeat (first [apply l_skip|apply l_check|apply l_parse_text|apply l_nest_end|apply IH1|apply IH2|apply IH3|step]).
Qed.

Lemma l_iter fuel s1 d a o st1' : iter_next umax cc so1 co ao bnd fuel (PState s1 d a) = (Ok o, st1') ->
  exists n, adv n s1 (ps_strm st1') /\ forall b s2, R (n + b) s1 s2 ->
    exists s2', iter_next umax cc so2 co ao bnd fuel (PState s2 d a) = (Ok o, PState s2' (ps_depth st1') (ps_alloc st1')) /\ R b (ps_strm st1') s2'.
Proof.
  unfold iter_next, do_next. intros E. destruct (parse_next umax cc so1 co ao bnd fuel Base (PState s1 d a)) as [r [s3 d3 a3]] eqn:E1.
  assert (G : good r) by (destruct r; try exact I; discriminate).
  destruct (proj1 (l_parser fuel) Base _ _ _ _ _ _ _ E1 G) as (n & HA & HB).
  assert (EST : st1' = PState s3 d3 a3) by (destruct r as [[x|]|e| |]; injection E as _ <-; reflexivity). subst st1'. cbn [ps_strm ps_depth ps_alloc].
  exists n. split; [exact HA|]. intros b s2 H. destruct (HB _ _ H) as (s2' & E2 & H2). exists s2'. split; [|exact H2]. rewrite E2.
  destruct r as [[x|]|e| |]; injection E as <-; reflexivity.
Qed.
Lemma l_nexts os : forall s1 d a st1', nexts umax cc so1 co ao bnd (PState s1 d a) os st1' ->
  exists n, adv n s1 (ps_strm st1') /\ forall b s2, R (n + b) s1 s2 ->
    exists s2', nexts umax cc so2 co ao bnd (PState s2 d a) os (PState s2' (ps_depth st1') (ps_alloc st1')) /\ R b (ps_strm st1') s2'.
Proof.
  induction os as [|o os IH]; intros s1 d a st1' N; inversion N; subst.
  - exists 0. split; [apply (sl_refl SL)|]. intros b s2 H. exists s2. split; [constructor|exact H].
  - match goal with H : iter_next _ _ _ _ _ _ _ _ = (Ok o, ?st) |- _ => destruct st as [s3 d3 a3]; destruct (@l_iter _ _ _ _ _ _ H) as (n & HA & HB) end.
    match goal with H : nexts _ _ _ _ _ _ _ os _ |- _ => destruct (IH _ _ _ _ H) as (m & HA' & HB') end.
    exists (n + m). split; [eapply (sl_trans SL); eassumption|]. intros b s2 H. rewrite <- PeanoNat.Nat.add_assoc in H.
    destruct (HB _ _ H) as (s4 & E4 & K4). cbn [ps_strm ps_depth ps_alloc] in *. destruct (HB' _ _ K4) as (s5 & E5 & K5). exists s5. split; [|exact K5]. econstructor; eassumption.
Qed.
End Local.
