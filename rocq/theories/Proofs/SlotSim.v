(** The parser over slots does what the parser over trees does. *)
From Coq Require Import List NArith Arith Bool Lia.
From Verif.Model Require Import Prelude Parser Chunk TextIter TextDatumList Alloc SlotHeap.
From Verif.Spec Require Import SlotHeap.
Import ListNotations.
Set Implicit Arguments.

(** ** Lists of slots counted *)
Local Notation cnt l x := (count_occ Nat.eq_dec l x).
Definition msub (l l' : list nat) : Prop := forall x, cnt l x <= cnt l' x.

Lemma cnt_cons i l x : cnt (i :: l) x = (if Nat.eq_dec i x then 1 else 0) + cnt l x.
Proof. cbn. destruct (Nat.eq_dec i x); reflexivity. Qed.
Lemma in_cnt l x : In x l <-> 1 <= cnt l x.
Proof. rewrite (count_occ_In Nat.eq_dec). lia. Qed.
Lemma nodup_cnt l : NoDup l <-> forall x, cnt l x <= 1.
Proof. apply NoDup_count_occ. Qed.
Lemma msub_incl l l' : msub l l' -> incl l l'.
Proof. intros H x Hx. rewrite in_cnt in *. specialize (H x). lia. Qed.
Lemma msub_nodup l l' : msub l l' -> NoDup l' -> NoDup l.
Proof. rewrite !nodup_cnt. intros H H' x. specialize (H x). specialize (H' x). lia. Qed.

Ltac msub := let x := fresh "x" in
  intros x; rewrite ?count_occ_app, ?cnt_cons, ?count_occ_app, ?cnt_cons, ?count_occ_app, ?cnt_cons, ?count_occ_app;
  repeat match goal with |- context [if Nat.eq_dec ?i x then _ else _] => destruct (Nat.eq_dec i x) end; cbn [count_occ]; try lia.

(** ** Slots *)
Section Slots.
Context {W T TT ET : Type}.
Local Notation A := (slots T ET W).
Local Notation B := (slice_state (datum TT ET) * W)%type.
Context (rt : list (cell T ET) -> T -> TT -> list nat -> Prop).

Lemma agree_incl {X} (h h' : list X) f f' : agree h h' f' -> incl f f' -> agree h h' f.
Proof. unfold agree, incl. auto. Qed.

Lemma holds_local : rt_local rt -> forall h c d f, holds rt h c d f -> forall h', agree h h' f -> holds rt h' c d f.
Proof.
  intros L h c d f H. induction H as [t u f H|i ci di fi j cj dj fj Hi H1 IH1 Hj H2 IH2| |i ci di fi j cj dj fj Hi H1 IH1 Hj H2 IH2| |]; intros h' G.
  - constructor. eapply L; eassumption.
  - econstructor.
    + rewrite <- Hi. apply G. cbn. auto.
    + apply IH1. eapply agree_incl; [exact G|]. intros x Hx. right. apply in_or_app. auto.
    + rewrite <- Hj. apply G. right. apply in_or_app. cbn. auto.
    + apply IH2. eapply agree_incl; [exact G|]. intros x Hx. right. apply in_or_app. cbn. auto.
  - constructor.
  - econstructor.
    + rewrite <- Hi. apply G. cbn. auto.
    + apply IH1. eapply agree_incl; [exact G|]. intros x Hx. right. apply in_or_app. auto.
    + rewrite <- Hj. apply G. right. apply in_or_app. cbn. auto.
    + apply IH2. eapply agree_incl; [exact G|]. intros x Hx. right. apply in_or_app. cbn. auto.
  - constructor.
  - constructor.
Qed.

Lemma owned_sub (a : A) f f' : msub f f' -> owned a f' -> owned a f.
Proof. intros H [H1 H2]. split; [eapply msub_nodup; eassumption|]. intros i Hi. apply H2. eapply msub_incl; eassumption. Qed.

Lemma moves_refl (a : A) f : owned a f -> moves a a f f.
Proof. intros [H1 H2]. split; [lia|]. split; [reflexivity|]. split; [exact H1|]. split; auto. Qed.

Lemma moves_trans (a a1 a2 : A) f f1 f2 : moves a a1 f f1 -> moves a1 a2 f1 f2 -> moves a a2 f f2.
Proof.
  intros (L1 & E1 & N1 & I1 & U1) (L2 & E2 & N2 & I2 & U2). split; [lia|]. split; [congruence|]. split; [exact N2|]. split.
  - intros i Hi. destruct (I2 i Hi) as [H|H]; [destruct (I1 i H); [auto|right; lia]|right; lia].
  - intros i Hi Hr. rewrite U2; [apply U1; [exact Hi|lia]| |lia]. intros H. destruct (I1 i H); [auto|lia].
Qed.

Lemma moves_sub (a a1 : A) f f1 f2 : moves a a1 f f1 -> msub f2 f1 -> moves a a1 f f2.
Proof.
  intros (L & E & N & I & U) H. split; [lia|]. split; [exact E|]. split; [eapply msub_nodup; eassumption|]. split; [|exact U].
  intros i Hi. apply I. eapply msub_incl; eassumption.
Qed.

Lemma moves_fin (a a1 : A) f f' f1 : moves a a1 f f1 -> msub f f' -> moves a a1 f' f1.
Proof.
  intros (L & E & N & I & U) H. apply msub_incl in H. split; [lia|]. split; [exact E|]. split; [exact N|]. split.
  - intros i Hi. destruct (I i Hi); auto.
  - intros i Hi Hr. apply U; auto.
Qed.

Lemma moves_owned (a a1 : A) f f1 : owned a f -> moves a a1 f f1 -> owned a1 f1.
Proof. intros [_ H] (L & E & N & I & U). split; [exact N|]. intros i Hi. destruct (I i Hi) as [G|G]; [apply H in G; lia|lia]. Qed.

Lemma owned_app (a : A) f fr : owned a (f ++ fr) -> (forall i, In i fr -> ~ In i f) /\ owned a f /\ owned a fr.
Proof.
  intros H. split; [|split; (eapply owned_sub; [|exact H]; msub)].
  destruct H as [H _]. rewrite nodup_cnt in H. intros i H1 H2. rewrite in_cnt in *. specialize (H i). rewrite count_occ_app in H. lia.
Qed.

Lemma moves_agree (a a1 : A) f f1 fr : owned a (f ++ fr) -> moves a a1 f f1 -> agree (mem a) (mem a1) fr.
Proof.
  intros H (L & E & N & I & U) i Hi. apply owned_app in H as (D & _ & [_ H]). apply U; [auto|]. specialize (H i Hi). lia.
Qed.

Lemma moves_frame (a a1 : A) f f1 fr : owned a (f ++ fr) -> moves a a1 f f1 -> moves a a1 (f ++ fr) (f1 ++ fr).
Proof.
  intros H (L & E & N & I & U). apply owned_app in H as (D & _ & [N' H]). split; [lia|]. split; [exact E|]. split; [|split].
  - rewrite nodup_cnt in *. intros x. rewrite count_occ_app. specialize (N x). specialize (N' x).
    destruct (le_lt_dec 1 (cnt fr x)) as [G|G]; [|lia]. destruct (le_lt_dec 1 (cnt f1 x)) as [G1|G1]; [|lia].
    rewrite <- in_cnt in G, G1. specialize (H x G). specialize (D x G). destruct (I x G1); [tauto|lia].
  - intros i Hi. rewrite in_app_iff in *. destruct Hi as [Hi|Hi]; [|auto]. destruct (I i Hi); auto.
  - intros i Hi Hr. rewrite in_app_iff in Hi. apply U; tauto.
Qed.

Lemma set_slot_length {X} (m : list X) i x : length (set_slot m i x) = length m.
Proof.
  unfold set_slot. revert i. induction m as [|y m IH]; intros [|i]; cbn; try reflexivity. f_equal. apply IH.
Qed.
Lemma set_slot_same {X} (m : list X) i x : i < length m -> nth_error (set_slot m i x) i = Some x.
Proof.
  intros H. unfold set_slot. rewrite nth_error_app2 by (rewrite firstn_length; lia).
  rewrite firstn_length, Nat.min_l, Nat.sub_diag by lia. destruct (skipn i m) eqn:E; [|reflexivity].
  assert (length (skipn i m) = 0) by (rewrite E; reflexivity). rewrite skipn_length in *. lia.
Qed.
Lemma set_slot_other {X} (m : list X) i j x : i <> j -> nth_error (set_slot m i x) j = nth_error m j.
Proof.
  intros H. unfold set_slot. revert i j H. induction m as [|y m IH]; intros i j H.
  - rewrite firstn_nil, skipn_nil. reflexivity.
  - destruct i as [|i]; destruct j as [|j]; cbn; try congruence; try reflexivity. apply IH. congruence.
Qed.

(** [new_datum]. *)
Lemma new_slot (a : A) (b : B) c d : same_room a b ->
  (exists a1 b1, slice_new_datum c (fst a) = (Ok (brk a), a1) /\ slice_new_datum d (fst b) = (Ok (brk a), b1) /\
     same_room (a1, snd a) (b1, snd b) /\ nth_error (sl_mem a1) (brk a) = Some c /\ brk a < used a1 /\
     forall f, owned a f -> moves a (a1, snd a) f (brk a :: f)) \/
  (exists e a1 b1, slice_new_datum c (fst a) = (Err e, a1) /\ slice_new_datum d (fst b) = (Err e, b1) /\
     same_room (a1, snd a) (b1, snd b) /\ forall f, owned a f -> moves a (a1, snd a) f f).
Proof.
  destruct a as [sa wa], b as [sb wb]. intros (Ef & El & Ew & Hb). unfold mem, brk in *. cbn [fst snd] in *. subst wb.
  unfold slice_new_datum. rewrite <- Ef. unfold used in Hb. destruct (sl_free sa) as [i|] eqn:Es.
  - destruct (skipn i (sl_mem sa)) as [|y rest] eqn:Ek.
    + right. assert (length (skipn i (sl_mem sa)) = 0) as Hl by (rewrite Ek; reflexivity). rewrite skipn_length in Hl.
      assert (skipn i (sl_mem sb) = []) as Ek' by (apply length_zero_iff_nil; rewrite skipn_length; lia). rewrite Ek'.
      eexists _, _, _. split; [reflexivity|]. split; [reflexivity|]. split.
      * unfold same_room, mem, brk, used. cbn. repeat split; auto.
      * intros f [H1 H2]. unfold moves, mem, brk, used in *. cbn in *. rewrite Es in *. repeat split; auto; lia.
    + left. assert (length (skipn i (sl_mem sa)) = S (length rest)) as Hl by (rewrite Ek; reflexivity). rewrite skipn_length in Hl.
      destruct (skipn i (sl_mem sb)) as [|y' rest'] eqn:Ek'.
      { assert (length (skipn i (sl_mem sb)) = 0) as Hl' by (rewrite Ek'; reflexivity). rewrite skipn_length in Hl'. lia. }
      unfold used. rewrite Es. eexists _, _. split; [reflexivity|]. split; [reflexivity|]. split; [|split; [|split]].
      * unfold same_room, mem, brk, used. cbn. rewrite !set_slot_length. repeat split; auto; lia.
      * cbn. apply set_slot_same. lia.
      * cbn. lia.
      * intros f [H1 H2]. unfold moves, mem, brk, used in *. cbn in *. rewrite Es in *. rewrite set_slot_length.
        split; [lia|]. split; [reflexivity|]. split; [constructor; [intros H; apply H2 in H; lia|exact H1]|]. split.
        -- intros j [<-|Hj]; [right; lia|auto].
        -- intros j Hj Hr. apply set_slot_other. lia.
  - right. eexists _, _, _. split; [reflexivity|]. split; [reflexivity|]. split.
    + unfold same_room, mem, brk, used. cbn. repeat split; auto.
    + intros f [H1 H2]. unfold moves, mem, brk, used in *. cbn in *. rewrite Es in *. repeat split; auto; lia.
Qed.

(** Overwriting a slot one owns. *)
Lemma write_slot (a : A) i c f : In i f -> owned a f -> moves a (SliceState (set_slot (mem a) i c) (sl_free (fst a)), snd a) f f.
Proof.
  intros Hi [H1 H2]. unfold moves, mem, brk, used. cbn. rewrite set_slot_length. repeat split; auto.
  intros j Hj _. apply set_slot_other. congruence.
Qed.
Lemma write_room (a : A) (b : B) i c : same_room a b -> same_room (SliceState (set_slot (mem a) i c) (sl_free (fst a)), snd a) b.
Proof. intros (E1 & E2 & E3 & E4). unfold same_room, mem, brk, used in *. cbn. rewrite set_slot_length. auto. Qed.
End Slots.

(** ** Computations *)
Section Sim.
Context {S1 S2 W T TT ET Pos CE : Type}.
Local Notation A := (slots T ET W).
Local Notation B := (slice_state (datum TT ET) * W)%type.
Local Notation heap := (list (cell T ET)).
Context (umax : N) (cc : classifier).
Context (so1 : stream_ops S1 A T Pos) (so2 : stream_ops S2 B TT Pos).
Context (co1 : concat_ops A T) (co2 : concat_ops B TT).
Context (bnd1 : heap -> cell T ET -> option (slot_combiner A T ET Pos CE)) (bnd2 : bindings B TT ET Pos CE).
Context (rt : heap -> T -> TT -> list nat -> Prop) (rs : heap -> S1 -> S2 -> list nat -> Prop).
Local Notation ao2 := (@slice_alloc W TT ET).
Local Notation P1 := (pstate S1 A).
Local Notation P2 := (pstate S2 B).
Local Notation E := (error Pos CE).

Definition ready (st1 : P1) (st2 : P2) (fs fx : list nat) : Prop :=
  ps_depth st1 = ps_depth st2 /\ same_room (ps_alloc st1) (ps_alloc st2) /\
  rs (mem (ps_alloc st1)) (ps_strm st1) (ps_strm st2) fs /\ owned (ps_alloc st1) (fs ++ fx).

Definition sim {X Y} (st : P1) (f : list nat) (Q : heap -> X -> Y -> list nat -> Prop)
    (r1 : res E X * P1) (r2 : res E Y * P2) : Prop :=
  let (v1, s1) := r1 in let (v2, s2) := r2 in
  match v1, v2 with
  | Ok x, Ok y => exists fs fx, ready s1 s2 fs fx /\ Q (mem (ps_alloc s1)) x y fx /\ moves (ps_alloc st) (ps_alloc s1) f (fs ++ fx)
  | Err e, Err e' => e = e' /\ exists fs, ready s1 s2 fs [] /\ moves (ps_alloc st) (ps_alloc s1) f fs
  | Panic, Panic => True
  | OutOfFuel, OutOfFuel => True
  | _, _ => False
  end.

Lemma ready_sub st1 st2 fs fx fx' : ready st1 st2 fs fx -> msub fx' fx -> ready st1 st2 fs fx'.
Proof.
  intros (D & R & Hs & O) H. split; [exact D|]. split; [exact R|]. split; [exact Hs|]. eapply owned_sub; [|exact O].
  intros x. rewrite !count_occ_app. specialize (H x). lia.
Qed.

Lemma sim_fin {X Y} st f f' (Q : heap -> X -> Y -> list nat -> Prop) r1 r2 : sim st f Q r1 r2 -> msub f f' -> sim st f' Q r1 r2.
Proof.
  unfold sim. destruct r1 as [v1 s1], r2 as [v2 s2]. intros H M. destruct v1, v2; try exact H; try contradiction.
  - destruct H as (fs & fx & H1 & H2 & H3). exists fs, fx. eauto using moves_fin.
  - destruct H as (H0 & fs & H1 & H2). split; [exact H0|]. exists fs. eauto using moves_fin.
Qed.

Lemma sim_imp {X Y} st f (Q Q' : heap -> X -> Y -> list nat -> Prop) r1 r2 : sim st f Q r1 r2 ->
  (forall h x y g, Q h x y g -> Q' h x y g) -> sim st f Q' r1 r2.
Proof.
  unfold sim. destruct r1 as [v1 s1], r2 as [v2 s2]. intros H M. destruct v1, v2; try exact H; try contradiction.
  destruct H as (fs & fx & H1 & H2 & H3). exists fs, fx. auto.
Qed.

Lemma sim_bind {X Y X' Y'} (Q : heap -> X -> Y -> list nat -> Prop) (Q' : heap -> X' -> Y' -> list nat -> Prop)
    st1 st2 f (m1 : @M S1 A Pos CE X) (m2 : @M S2 B Pos CE Y) k1 k2 :
  sim st1 f Q (m1 st1) (m2 st2) ->
  (forall x y s1 s2 fs fx, ready s1 s2 fs fx -> Q (mem (ps_alloc s1)) x y fx -> sim s1 (fs ++ fx) Q' (k1 x s1) (k2 y s2)) ->
  sim st1 f Q' (bind m1 k1 st1) (bind m2 k2 st2).
Proof.
  intros H K. unfold bind, sim in *. destruct (m1 st1) as [v1 s1], (m2 st2) as [v2 s2]. destruct v1, v2; try exact H; try contradiction.
  destruct H as (fs & fx & H1 & H2 & H3). specialize (K _ _ _ _ _ _ H1 H2).
  destruct (k1 x s1) as [w1 u1], (k2 x0 s2) as [w2 u2]. destruct w1, w2; try exact K; try contradiction.
  - destruct K as (fs' & fx' & K1 & K2 & K3). exists fs', fx'. eauto using moves_trans.
  - destruct K as (-> & fs' & K1 & K2). split; [reflexivity|]. exists fs'. eauto using moves_trans.
Qed.

Definition local_at (RR : heap -> Prop) (fr : list nat) : Prop := forall h h', RR h -> agree h h' fr -> RR h'.

Lemma local_and (R1 R2 : heap -> Prop) f1 f2 : local_at R1 f1 -> local_at R2 f2 -> local_at (fun h => R1 h /\ R2 h) (f1 ++ f2).
Proof.
  intros H1 H2 h h' [G1 G2] G. split; [apply (H1 h)|apply (H2 h)]; auto; (eapply agree_incl; [exact G|]); intros x Hx; apply in_or_app; auto.
Qed.
Lemma local_true : local_at (fun _ => True) [].
Proof. intros h h' _ _. exact I. Qed.

(** Running [m1] and [m2] while the slots [fr] are kept. *)
Lemma sim_keep {X Y} (Q : heap -> X -> Y -> list nat -> Prop) st f r1 r2 fr (RR : heap -> Prop) :
  sim st f Q r1 r2 -> owned (ps_alloc st) (f ++ fr) -> RR (mem (ps_alloc st)) -> local_at RR fr ->
  sim st (f ++ fr) (fun h x y g => exists g', g = g' ++ fr /\ Q h x y g' /\ RR h) r1 r2.
Proof.
  intros H O R L. unfold sim in *. destruct r1 as [v1 s1], r2 as [v2 s2]. destruct v1, v2; try exact H; try contradiction.
  - destruct H as (fs & fx & H1 & H2 & H3). exists fs, (fx ++ fr).
    assert (M' : moves (ps_alloc st) (ps_alloc s1) (f ++ fr) (fs ++ fx ++ fr)).
    { rewrite app_assoc. apply moves_frame; assumption. }
    split; [|split; [|exact M']].
    + destruct H1 as (D & R1 & R2 & R3). split; [exact D|]. split; [exact R1|]. split; [exact R2|].
      eapply moves_owned; [|exact M']. exact O.
    + exists fx. split; [reflexivity|]. split; [exact H2|]. eapply L; [exact R|]. eapply moves_agree; [exact O|exact H3].
  - destruct H as (H0 & fs & H1 & H2). split; [exact H0|]. exists fs. split; [exact H1|].
    eapply moves_fin; [exact H2|]. msub.
Qed.

Lemma sim_bind_keep {X Y X' Y'} (Q : heap -> X -> Y -> list nat -> Prop) (Q' : heap -> X' -> Y' -> list nat -> Prop)
    fx fr (RR : heap -> Prop) st1 st2 fs f0 (m1 : @M S1 A Pos CE X) (m2 : @M S2 B Pos CE Y) k1 k2 :
  ready st1 st2 fs f0 -> msub (fx ++ fr) f0 -> RR (mem (ps_alloc st1)) -> local_at RR fr ->
  (ready st1 st2 fs fx -> sim st1 (fs ++ fx) Q (m1 st1) (m2 st2)) ->
  (forall x y s1 s2 fs fx, ready s1 s2 fs (fx ++ fr) -> Q (mem (ps_alloc s1)) x y fx -> RR (mem (ps_alloc s1)) ->
     sim s1 (fs ++ fx ++ fr) Q' (k1 x s1) (k2 y s2)) ->
  sim st1 (fs ++ f0) Q' (bind m1 k1 st1) (bind m2 k2 st2).
Proof.
  intros R M HR L H K.
  assert (O : owned (ps_alloc st1) ((fs ++ fx) ++ fr)).
  { rewrite <- app_assoc. apply (ready_sub R M). }
  assert (R' : ready st1 st2 fs fx).
  { eapply ready_sub; [exact R|]. intros x. specialize (M x). rewrite count_occ_app in M. lia. }
  eapply sim_fin with (f:=(fs ++ fx) ++ fr).
  - eapply sim_bind; [apply (@sim_keep _ _ Q st1 (fs ++ fx) _ _ fr RR (H R') O HR L)|].
    cbn. intros x y s1 s2 fs1 fx1 R1 (g' & -> & HQ & HRR). apply K; assumption.
  - intros x. specialize (M x). rewrite !count_occ_app in *. lia.
Qed.

Lemma sim_ret {X Y} (Q : heap -> X -> Y -> list nat -> Prop) st1 st2 fs f0 fx x y :
  ready st1 st2 fs f0 -> msub fx f0 -> Q (mem (ps_alloc st1)) x y fx ->
  sim st1 (fs ++ f0) Q (ret x st1) (ret y st2).
Proof.
  intros R M HQ. cbn. exists fs, fx. split; [eapply ready_sub; eassumption|]. split; [exact HQ|].
  destruct R as (_ & _ & _ & O). eapply moves_sub; [apply moves_refl; exact O|]. intros z. specialize (M z). rewrite !count_occ_app. lia.
Qed.

Lemma sim_raise {X Y} (Q : heap -> X -> Y -> list nat -> Prop) st1 st2 fs f0 (e : E) :
  ready st1 st2 fs f0 -> sim st1 (fs ++ f0) Q (raise e st1) (raise e st2).
Proof.
  intros R. cbn. split; [reflexivity|]. exists fs. split; [eapply ready_sub; [exact R|msub]|].
  destruct R as (_ & _ & _ & O). eapply moves_sub; [apply moves_refl; exact O|msub].
Qed.

Lemma sim_map_r {X Y Z} (Q : heap -> X -> Y -> list nat -> Prop) (Q' : heap -> X -> Z -> list nat -> Prop) (g : Y -> Z)
    st1 st2 f (m1 : @M S1 A Pos CE X) (m2 : @M S2 B Pos CE Y) :
  sim st1 f Q (m1 st1) (m2 st2) -> (forall h x y f', Q h x y f' -> exists f'', msub f'' f' /\ Q' h x (g y) f'') ->
  sim st1 f Q' (m1 st1) (bind m2 (fun y => ret (g y)) st2).
Proof.
  intros H K. unfold bind, sim in *. destruct (m1 st1) as [v1 s1], (m2 st2) as [v2 s2]. destruct v1, v2; try exact H; try contradiction.
  destruct H as (fs & fx & H1 & H2 & H3). destruct (K _ _ _ _ H2) as (f'' & M & HQ). exists fs, f''.
  split; [eapply ready_sub; eassumption|]. split; [exact HQ|]. eapply moves_sub; [exact H3|].
  intros z. rewrite !count_occ_app. specialize (M z). lia.
Qed.

Lemma sim_finally {X Y} (Q : heap -> X -> Y -> list nat -> Prop) st1 st2 f (m1 : @M S1 A Pos CE X) (m2 : @M S2 B Pos CE Y) :
  sim st1 f Q (m1 st1) (m2 st2) -> sim st1 f Q (finally m1 (@decr_depth S1 A Pos CE) st1) (finally m2 (@decr_depth S2 B Pos CE) st2).
Proof.
  intros H. unfold finally, bind, sim, decr_depth in *. destruct (m1 st1) as [v1 s1], (m2 st2) as [v2 s2]. destruct v1, v2; try exact H; try contradiction.
  - destruct H as (fs & fx & (D & H1) & H2 & H3). rewrite <- D. destruct (0 <? ps_depth s1)%N; [|exact I]. exists fs, fx.
    split; [|split; [exact H2|exact H3]]. split; [cbn; reflexivity|exact H1].
  - destruct H as (H0 & fs & (D & H1) & H2). rewrite <- D. destruct (0 <? ps_depth s1)%N; [|exact I]. split; [exact H0|].
    exists fs. split; [|exact H2]. split; [cbn; reflexivity|exact H1].
Qed.

(** ** The operations *)
Hypothesis HS : stream_slots rt rs so1 so2.
Hypothesis HC : concat_slots rt co1 co2.
Hypothesis HB : bindings_slots rt bnd1 bnd2.

Lemma sim_stream {X Y E0} (g : E0 -> E) (Q : heap -> X -> Y -> list nat -> Prop) st1 st2 fs (r1 : res E0 X * (S1 * A)) (r2 : res E0 Y * (S2 * B)) :
  ready st1 st2 fs [] -> s_outcome rs (ps_alloc st1) fs Q r1 r2 ->
  sim st1 fs Q (let '(r, (s, a)) := r1 in (res_map_err g r, PState s (ps_depth st1) a))
               (let '(r, (s, a)) := r2 in (res_map_err g r, PState s (ps_depth st2) a)).
Proof.
  intros (D & R1 & R2 & R3) H. unfold s_outcome in H. destruct r1 as [v1 [s1 a1]], r2 as [v2 [s2 b1]]. rewrite app_nil_r in R3.
  destruct H as [R H]. destruct v1, v2; cbn; try exact H; try exact I.
  - destruct H as (fs' & fx & H1 & H2 & H3). exists fs', fx. split; [|auto]. repeat split; cbn; auto; try apply R; eapply moves_owned; eassumption.
  - destruct H as (-> & fs' & H1 & H2). split; [reflexivity|]. exists fs'. split; [|auto]. rewrite <- (app_nil_r fs') in H2.
    repeat split; cbn; auto; try apply R; eapply moves_owned; eassumption.
Qed.

Lemma sim_peek st1 st2 fs : ready st1 st2 fs [] -> sim st1 (fs ++ []) same (peek so1 st1) (@peek _ _ _ _ CE so2 st2).
Proof.
  intros R. rewrite app_nil_r. pose proof R as (D & R1 & R2 & R3). rewrite app_nil_r in R3.
  pose proof (sim_stream (fun e : Empty_set => match e return E with end) _ _ _ R (ss_peek HS _ _ R1 R3 R2)) as H.
  unfold peek. destruct (s_peek so1 (ps_strm st1)) as [[o1|[]| |] s1], (s_peek so2 (ps_strm st2)) as [[o2|[]| |] s2]; exact H.
Qed.
Lemma sim_next st1 st2 fs : ready st1 st2 fs [] -> sim st1 (fs ++ []) same (next so1 st1) (@next _ _ _ _ CE so2 st2).
Proof.
  intros R. rewrite app_nil_r. pose proof R as (D & R1 & R2 & R3). rewrite app_nil_r in R3.
  pose proof (sim_stream (fun e : Empty_set => match e return E with end) _ _ _ R (ss_next HS _ _ R1 R3 R2)) as H.
  unfold next. destruct (s_next so1 (ps_strm st1)) as [[o1|[]| |] s1], (s_next so2 (ps_strm st2)) as [[o2|[]| |] s2]; exact H.
Qed.
Lemma sim_next_accum st1 st2 fs : ready st1 st2 fs [] -> sim st1 (fs ++ []) same (next_accum so1 st1) (@next_accum _ _ _ _ CE so2 st2).
Proof.
  intros R. rewrite app_nil_r. pose proof R as (D & R1 & R2 & R3). rewrite app_nil_r in R3.
  exact (sim_stream (@FailedAlloc Pos CE) _ _ _ R (ss_next_accum HS _ _ R1 R3 R2)).
Qed.
Lemma sim_accum_done st1 st2 fs : ready st1 st2 fs [] -> sim st1 (fs ++ []) rt (accum_done so1 st1) (@accum_done _ _ _ _ CE so2 st2).
Proof.
  intros R. rewrite app_nil_r. pose proof R as (D & R1 & R2 & R3). rewrite app_nil_r in R3.
  exact (sim_stream (@FailedAlloc Pos CE) _ _ _ R (ss_accum_done HS _ _ R1 R3 R2)).
Qed.

(** Operations that leave the stream alone. *)
Lemma sim_value {X Y E0} (g : E0 -> E) (Q : heap -> X -> Y -> list nat -> Prop) st1 st2 fs fx (r1 : res E0 X * A) (r2 : res E0 Y * B) :
  ready st1 st2 fs fx -> outcome (ps_alloc st1) fx Q r1 r2 ->
  sim st1 (fs ++ fx) Q (let (r, a) := r1 in (res_map_err g r, PState (ps_strm st1) (ps_depth st1) a))
               (let (r, a) := r2 in (res_map_err g r, PState (ps_strm st2) (ps_depth st2) a)).
Proof.
  intros (D & R1 & R2 & R3) H. unfold outcome in H. destruct r1 as [v1 a1], r2 as [v2 b1].
  destruct H as [R H].
  assert (R3' : owned (ps_alloc st1) (fx ++ fs)) by (eapply owned_sub; [|exact R3]; msub).
  destruct v1, v2; cbn; try exact H; try exact I.
  - destruct H as (fx' & H1 & H2).
    assert (M : moves (ps_alloc st1) a1 (fs ++ fx) (fs ++ fx')).
    { eapply moves_sub; [eapply moves_fin; [eapply moves_frame; [exact R3'|exact H2]|msub]|msub]. }
    exists fs, fx'. split; [|auto]. split; [exact D|]. split; [exact R|].
    split; [|eapply moves_owned; [exact R3|exact M]]. cbn. eapply (ss_local HS); [exact R2|]. eapply moves_agree; [exact R3'|exact H2].
  - destruct H as (-> & H2). split; [reflexivity|].
    assert (M : moves (ps_alloc st1) a1 (fs ++ fx) fs).
    { eapply moves_sub; [eapply moves_fin; [eapply moves_frame; [exact R3'|exact H2]|msub]|msub]. }
    exists fs. split; [|exact M]. split; [exact D|]. split; [exact R|].
    split; [|rewrite app_nil_r; eapply moves_owned; [exact R3|exact M]]. cbn. eapply (ss_local HS); [exact R2|]. eapply moves_agree; [exact R3'|exact H2].
Qed.

Lemma sim_concat st1 st2 fs t1 u1 f1 t2 u2 f2 : ready st1 st2 fs (f1 ++ f2) ->
  rt (mem (ps_alloc st1)) t1 u1 f1 -> rt (mem (ps_alloc st1)) t2 u2 f2 ->
  sim st1 (fs ++ f1 ++ f2) rt (concat co1 t1 t2 st1) (@concat _ _ _ _ CE co2 u1 u2 st2).
Proof.
  intros R H1 H2. pose proof R as (D & R1 & R2 & R3). apply owned_app in R3 as (_ & _ & R3).
  exact (sim_value (@FailedAlloc Pos CE) _ _ _ R (@cs_concat _ _ _ _ _ _ _ HC _ _ _ _ _ _ _ _ R1 R3 H1 H2)).
Qed.

(** The reference to a datum just allocated. *)
Definition points (h : heap) (i : nat) (d : datum TT ET) (f : list nat) : Prop :=
  exists c fc, f = i :: fc /\ nth_error h i = Some c /\ holds rt h c d fc.

Lemma points_local i d f : local_at (fun h => points h i d f) f.
Proof.
  intros h h' (c & fc & -> & H1 & H2) G. exists c, fc. split; [reflexivity|]. split; [rewrite <- H1; apply G; cbn; auto|].
  eapply holds_local; [exact (cs_local HC)|exact H2|]. eapply agree_incl; [exact G|]. intros x Hx. cbn. auto.
Qed.
Lemma slot_local i c : local_at (fun h => nth_error h i = Some c) [i].
Proof. intros h h' H G. rewrite <- H. apply G. cbn. auto. Qed.
Lemma hold_local c d f : local_at (fun h => holds rt h c d f) f.
Proof. intros h h' H G. eapply holds_local; eauto using (cs_local HC). Qed.
Lemma text_local t u f : local_at (fun h => rt h t u f) f.
Proof. intros h h' H G. eapply (cs_local HC); eauto. Qed.

Lemma sim_new st1 st2 fs c d fc : ready st1 st2 fs fc -> holds rt (mem (ps_alloc st1)) c d fc ->
  sim st1 (fs ++ fc) (fun h i d' f => d' = d /\ points h i d f /\ nth_error h i = Some c)
      (s_new_datum c st1) (@new_datum S2 B TT ET Pos CE ao2 d st2).
Proof.
  intros R H. pose proof R as (D & R1 & R2 & R3). apply owned_app in R3 as (_ & _ & R3).
  pose proof (new_slot c d R1) as N.
  unfold s_new_datum, new_datum, slice_alloc; cbn [a_new_datum].
  assert (G : outcome (ps_alloc st1) fc (fun h i d' f => d' = d /\ points h i d f /\ nth_error h i = Some c)
     (let (r, s) := slice_new_datum c (fst (ps_alloc st1)) in (r, (s, snd (ps_alloc st1))))
     (let (r, s) := slice_new_datum d (fst (ps_alloc st2)) in (res_map (fun _ => d) r, (s, snd (ps_alloc st2))))).
  { destruct N as [(a1 & b1 & E1 & E2 & R' & Hn & Hlt & Hm)|(e & a1 & b1 & E1 & E2 & R' & Hm)]; rewrite E1, E2; cbn.
    - split; [exact R'|]. exists (brk (ps_alloc st1) :: fc). split; [|apply Hm; exact R3]. split; [reflexivity|].
      split; [|exact Hn]. exists c, fc. split; [reflexivity|]. split; [exact Hn|].
      eapply holds_local; [exact (cs_local HC)|exact H|]. eapply moves_agree with (f:=[]) (f1:=[brk (ps_alloc st1)]).
      + exact R3.
      + apply Hm. split; [constructor|intros i []].
    - split; [exact R'|]. split; [reflexivity|]. eapply moves_sub; [apply Hm; exact R3|msub]. }
  apply (sim_value (@FailedAlloc Pos CE) _ _ _ R) in G.
  destruct (slice_new_datum c (fst (ps_alloc st1))) as [v1 s1], (slice_new_datum d (fst (ps_alloc st2))) as [v2 s2]. exact G.
Qed.

Lemma sim_write st1 st2 fs fx i c : ready st1 st2 fs fx -> In i fx ->
  sim st1 (fs ++ fx) (fun h _ _ f => f = fx /\ nth_error h i = Some c /\
       forall j, j <> i -> nth_error h j = nth_error (mem (ps_alloc st1)) j)
    (s_write i c st1) (ret tt st2).
Proof.
  intros (D & R1 & R2 & R3) Hi. cbn. exists fs, fx.
  assert (Hf : In i (fs ++ fx)) by (apply in_or_app; auto).
  pose proof (@write_slot W T ET (ps_alloc st1) i c (fs ++ fx) Hf R3) as M. split; [|split; [|exact M]].
  - split; [exact D|]. split; [apply write_room; exact R1|]. split; [|eapply moves_owned; [exact R3|exact M]].
    cbn. eapply (ss_local HS); [exact R2|]. apply owned_app in R3 as (Hd & _). intros j Hj. apply set_slot_other.
    intros ->. eapply Hd; eassumption.
  - split; [reflexivity|]. split; [|intros j Hj; apply set_slot_other; auto]. cbn. apply set_slot_same.
    destruct R1 as (_ & _ & _ & Hb). apply R3 in Hf. unfold mem in *. lia.
Qed.

Lemma sim_call {X Y} (Q : heap -> X -> Y -> list nat -> Prop) st1 st2 fs fx (g1 : A -> (X + E) * A) (g2 : B -> (Y + E) * B) :
  ready st1 st2 fs fx ->
  outcome (ps_alloc st1) fx Q (let (r, a) := g1 (ps_alloc st1) in (as_res r, a)) (let (r, b) := g2 (ps_alloc st2) in (as_res r, b)) ->
  sim st1 (fs ++ fx) Q (call g1 st1) (call g2 st2).
Proof.
  intros R H. unfold call. apply (sim_value (fun e : E => e) _ _ _ R) in H.
  destruct (g1 (ps_alloc st1)) as [[x|e] a1], (g2 (ps_alloc st2)) as [[y|e'] b1]; exact H.
Qed.

(** ** The parser *)
Local Notation simple R m1 m2 := (forall st1 st2 fs, ready st1 st2 fs [] -> sim st1 (fs ++ []) R (m1 st1) (m2 st2)).

Ltac keep f fr RR H := eapply (@sim_bind_keep _ _ _ _ _ _ f fr RR); [exact H|msub|assumption || exact I || (split; assumption)|try exact local_true| |].
Ltac nil H := eapply (@sim_bind_keep _ _ _ _ _ _ [] [] (fun _ => True)); [exact H|msub|exact I|exact local_true| |].

Lemma ready_nil st1 st2 fs fx : ready st1 st2 fs fx -> ready st1 st2 fs [].
Proof. intros R. eapply ready_sub; [exact R|msub]. Qed.

Lemma sim_assert b : simple same (@assert S1 A Pos CE b) (@assert S2 B Pos CE b).
Proof.
  intros st1 st2 fs R. destruct b; cbn [assert]; [|exact I]. eapply sim_ret; [exact R| |split; reflexivity]. msub.
Qed.
Lemma sim_get_depth : simple same (@get_depth S1 A Pos CE) (@get_depth S2 B Pos CE).
Proof.
  intros st1 st2 fs R. pose proof R as (D & _). unfold get_depth. rewrite D.
  apply (@sim_ret _ _ same st1 st2 fs [] [] (ps_depth st2) (ps_depth st2) R); [msub|split; reflexivity].
Qed.
Lemma sim_incr_depth : simple same (@incr_depth S1 A Pos CE umax) (@incr_depth S2 B Pos CE umax).
Proof.
  intros st1 st2 fs R. pose proof R as (D & R1 & R2 & R3). unfold incr_depth. rewrite D.
  destruct (ps_depth st2 <? umax)%N; [|exact I]. cbn. exists fs, []. split; [|split; [split; reflexivity|apply moves_refl; exact R3]].
  split; [reflexivity|]. auto.
Qed.

Lemma sim_skip fuel : simple same (@skip_whitespace _ _ _ _ CE cc so1 fuel) (@skip_whitespace _ _ _ _ CE cc so2 fuel).
Proof.
  induction fuel as [|f IH]; intros st1 st2 fs R; [exact I|]. cbn [skip_whitespace].
  nil R; [apply sim_peek|]. cbn beta. intros o o' s1 s2 fs1 fx R1 [<- ->] _. cbn [app] in *.
  destruct o as [it|]; [|eapply sim_ret; [exact R1| |split; reflexivity]; msub].
  destruct (is_whitespace cc (it_ch it)); [|eapply sim_ret; [exact R1| |split; reflexivity]; msub].
  nil R1; [apply sim_next|]. cbn beta. intros o o' s3 s4 fs2 fx R2 [<- ->] _. cbn [app] in *. apply IH. exact R2.
Qed.

Lemma sim_check_end d : simple same (@check_end_char _ _ _ _ CE cc so1 d) (@check_end_char _ _ _ _ CE cc so2 d).
Proof.
  intros st1 st2 fs R. unfold check_end_char.
  nil R; [apply sim_peek|]. cbn beta. intros o o' s1 s2 fs1 fx R1 [<- ->] _. cbn [app] in *.
  nil R1; [apply sim_assert|]. cbn beta. intros _ _ s3 s4 fs2 fx R2 [_ ->] _. cbn [app] in *.
  destruct (0 <? d)%N; [eapply sim_ret; [exact R2| |split; reflexivity]; msub|].
  nil R2; [apply sim_next|]. cbn beta. intros o1 o' s5 s6 fs3 fx R3 [<- ->] _. cbn [app] in *.
  destruct o1 as [it|]; [|exact I]. apply sim_raise. exact R3.
Qed.

Lemma sim_nest_end : simple same (@nest_end _ _ _ _ CE cc so1) (@nest_end _ _ _ _ CE cc so2).
Proof.
  intros st1 st2 fs R. unfold nest_end.
  nil R; [apply sim_next|]. cbn beta. intros o o' s1 s2 fs1 fx R1 [<- ->] _. cbn [app] in *.
  destruct o as [it|]; [apply sim_assert; exact R1|apply sim_raise; exact R1].
Qed.

Lemma sim_concat_accum st1 st2 fs t u ft : ready st1 st2 fs ft -> rt (mem (ps_alloc st1)) t u ft ->
  sim st1 (fs ++ ft) rt (concat_accum so1 co1 t st1) (@concat_accum _ _ _ _ CE so2 co2 u st2).
Proof.
  intros R H. unfold concat_accum. keep (@nil nat) ft (fun h => rt h t u ft) R; [apply text_local|apply sim_accum_done|].
  cbn beta. intros a a' s1 s2 fs1 fx R1 Ha Ht. eapply sim_fin; [eapply sim_concat; [|exact Ht|exact Ha]|].
  - eapply ready_sub; [exact R1|msub].
  - msub.
Qed.

Lemma sim_text_done st1 st2 fs t u ft nl : ready st1 st2 fs ft -> rt (mem (ps_alloc st1)) t u ft ->
  sim st1 (fs ++ ft) rt (parse_text_done so1 co1 t nl st1) (@parse_text_done _ _ _ _ CE so2 co2 u nl st2).
Proof.
  intros R H. unfold parse_text_done. destruct (nl =? 0)%N; [apply sim_concat_accum; assumption|apply sim_raise; exact R].
Qed.

Lemma sim_text_loop fuel : forall m t u nl st1 st2 fs ft, ready st1 st2 fs ft -> rt (mem (ps_alloc st1)) t u ft ->
  sim st1 (fs ++ ft) rt (parse_text_loop umax cc so1 co1 fuel m t nl st1) (@parse_text_loop _ _ _ _ CE umax cc so2 co2 fuel m u nl st2).
Proof.
  induction fuel as [|f IH]; intros m t u nl st1 st2 fs ft R H; [exact I|]. cbn [parse_text_loop].
  keep (@nil nat) ft (fun h => rt h t u ft) R; [apply text_local|apply sim_peek|].
  cbn beta. intros o o' s1 s2 fs1 fx R1 [<- ->] H1. cbn [app] in *.
  destruct o as [it|]; [|apply sim_text_done; assumption]. cbn zeta.
  destruct ((nl =? 0)%N && is_end_char cc (it_ch it) m)%bool; [apply sim_text_done; assumption|].
  destruct (is_nest_escape cc (it_ch it)).
  { eapply sim_bind; [apply sim_concat_accum; eassumption|]. cbn beta. intros t' u' s3 s4 fs2 fx R2 H2.
    keep (@nil nat) fx (fun h => rt h t' u' fx) R2; [apply text_local|apply sim_next|].
    cbn beta. intros o o' s5 s6 fs3 fx' R3 [<- ->] H3. cbn [app] in *.
    keep (@nil nat) fx (fun h => rt h t' u' fx) R3; [apply text_local|apply sim_next_accum|].
    cbn beta. intros o1 o' s7 s8 fs4 fx' R4 [<- ->] H4. cbn [app] in *. apply IH; assumption. }
  destruct (is_nest_start cc (it_ch it)).
  { keep (@nil nat) ft (fun h => rt h t u ft) R1; [apply text_local|apply sim_next_accum|].
    cbn beta. intros o1 o' s7 s8 fs4 fx' R4 [<- ->] H4. cbn [app] in *. destruct (nl <? umax)%N; [apply IH; assumption|exact I]. }
  destruct (is_nest_end cc (it_ch it)).
  { destruct (0 <? nl)%N.
    - keep (@nil nat) ft (fun h => rt h t u ft) R1; [apply text_local|apply sim_next_accum|].
      cbn beta. intros o1 o' s7 s8 fs4 fx' R4 [<- ->] H4. cbn [app] in *. apply IH; assumption.
    - keep (@nil nat) ft (fun h => rt h t u ft) R1; [apply text_local|apply sim_get_depth|].
      cbn beta. intros d d' s3 s4 fs2 fx' R2 [<- ->] H2. cbn [app] in *.
      keep (@nil nat) ft (fun h => rt h t u ft) R2; [apply text_local|apply sim_check_end|].
      cbn beta. intros _ _ s5 s6 fs3 fx' R3 [_ ->] H3. cbn [app] in *. apply sim_text_done; assumption. }
  keep (@nil nat) ft (fun h => rt h t u ft) R1; [apply text_local|apply sim_next_accum|].
  cbn beta. intros o1 o' s7 s8 fs4 fx' R4 [<- ->] H4. cbn [app] in *. apply IH; assumption.
Qed.

Lemma sim_text fuel m : simple rt (@parse_text _ _ _ _ CE umax cc so1 co1 fuel m) (@parse_text _ _ _ _ CE umax cc so2 co2 fuel m).
Proof. intros st1 st2 fs R. apply sim_text_loop; [exact R|apply (cs_nil HC)]. Qed.

Lemma local_agree RR fr h h' : local_at RR fr -> RR h -> agree h h' fr -> RR h'.
Proof. intros L H G. eapply L; eassumption. Qed.

(** The three functions at once. *)
Definition next_sim fuel : Prop := forall m,
  simple (opt_holds rt) (s_parse_next umax cc so1 co1 bnd1 fuel m) (parse_next umax cc so2 co2 ao2 bnd2 fuel m).
Definition nested_sim fuel : Prop :=
  simple (opt_holds rt) (s_parse_nested umax cc so1 co1 bnd1 fuel) (parse_nested umax cc so2 co2 ao2 bnd2 fuel).
(** With the tail in slot [i]: [head] is returned, and what is in slot [i] then is the
    rest of the list. *)
Definition all_sim fuel : Prop :=
  (forall m, simple (holds rt) (s_parse_all umax cc so1 co1 bnd1 fuel m CEmptyList None) (parse_all umax cc so2 co2 ao2 bnd2 fuel m)) /\
  (forall m head i st1 st2 fs, ready st1 st2 fs [i] -> nth_error (mem (ps_alloc st1)) i = Some CEmptyList ->
     sim st1 (fs ++ [i]) (fun h c d f => c = head /\ points h i d f)
       (s_parse_all umax cc so1 co1 bnd1 fuel m head (Some i) st1) (parse_all umax cc so2 co2 ao2 bnd2 fuel m st2)).

Lemma opt_local o o' f : local_at (fun h => opt_holds rt h o o' f) f.
Proof. intros h h' H G. destruct o, o'; cbn in *; auto. eapply hold_local; eassumption. Qed.

Lemma next_step f : next_sim f -> nested_sim f -> next_sim (Datatypes.S f).
Proof.
  intros IHn IHd m st1 st2 fs R. cbn [s_parse_next parse_next].
  nil R; [destruct (is_operator_mode m); [apply sim_skip|intros R'; eapply sim_ret; [exact R'| |split; reflexivity]; msub]|].
  cbn beta. intros _ _ s1 s2 fs1 fx R1 [_ ->] _. cbn [app] in *.
  nil R1; [apply sim_peek|]. cbn beta. intros o o' s3 s4 fs2 fx R2 [<- ->] _. cbn [app] in *.
  destruct o as [it|].
  2:{ nil R2; [apply sim_get_depth|]. cbn beta. intros d d' s5 s6 fs3 fx R3 [<- ->] _. cbn [app] in *.
      destruct (d =? 0)%N; [|apply sim_raise; exact R3]. eapply sim_ret with (fx:=[]); [exact R3|msub|reflexivity]. }
  cbn zeta. destruct (is_nest_start cc (it_ch it)).
  { nil R2; [apply sim_incr_depth|]. cbn beta. intros _ _ s5 s6 fs3 fx R3 [_ ->] _. cbn [app] in *.
    eapply sim_bind; [apply sim_finally; apply IHd; exact R3|]. cbn beta.
    intros o o' s7 s8 fs4 fx R4 H4. destruct o as [c|], o' as [d|]; cbn in H4; try contradiction.
    - eapply sim_ret with (fx:=fx); [exact R4|msub|exact H4].
    - subst fx. apply IHn. exact R4. }
  destruct (is_nest_end cc (it_ch it)).
  { nil R2; [apply sim_get_depth|]. cbn beta. intros d d' s5 s6 fs3 fx R3 [<- ->] _. cbn [app] in *.
    nil R3; [apply sim_check_end|]. cbn beta. intros _ _ s7 s8 fs4 fx R4 [_ ->] _. cbn [app] in *.
    eapply sim_ret with (fx:=[]); [exact R4|msub|reflexivity]. }
  eapply sim_bind; [apply sim_text; exact R2|]. cbn beta. intros t u s5 s6 fs3 fx R3 H3.
  eapply sim_ret with (fx:=fx); [exact R3|msub|]. constructor. exact H3.
Qed.

Lemma nested_step f : next_sim f -> all_sim f -> nested_sim (Datatypes.S f).
Proof.
  intros IHn [IHa _] st1 st2 fs R. cbn [s_parse_nested parse_nested].
  nil R; [apply sim_next|]. cbn beta. intros o o' s1 s2 fs1 fx R1 [<- ->] _. cbn [app] in *.
  nil R1; [apply sim_assert|]. cbn beta. intros _ _ s3 s4 fs2 fx R2 [_ ->] _. cbn [app] in *.
  eapply sim_bind; [apply IHn; exact R2|]. cbn beta. intros op op' s5 s6 fs3 fop R3 H3.
  keep (@nil nat) fop (fun h => opt_holds rt h op op' fop) R3; [apply opt_local|apply sim_peek|].
  cbn beta. intros o1 o' s7 s8 fs4 fx R4 [<- ->] H4. cbn [app] in *.
  keep (@nil nat) fop (fun h => opt_holds rt h op op' fop) R4; [apply opt_local| |].
  { intros R'. destruct o1 as [it|]; [destruct (is_whitespace cc (it_ch it))|].
    - nil R'; [apply sim_next|]. cbn beta. intros o1 o' s9 s10 fs5 fx R5 [<- ->] _. cbn [app] in *.
      eapply sim_ret with (Q:=same) (fx:=[]); [exact R5|msub|split; reflexivity].
    - eapply sim_ret with (fx:=[]); [exact R'|msub|split; reflexivity].
    - eapply sim_ret with (fx:=[]); [exact R'|msub|split; reflexivity]. }
  cbn beta. intros _ _ s9 s10 fs5 fx R5 [_ ->] H5. cbn [app] in *.
  destruct op as [c|], op' as [d|]; cbn in H5; try contradiction.
  2:{ subst fop. nil R5; [apply sim_nest_end|]. cbn beta. intros _ _ s11 s12 fs6 fx R6 [_ ->] _. cbn [app] in *.
      eapply sim_ret with (fx:=[]); [exact R6|msub|constructor]. }
  assert (ND : NoDup fop) by (destruct R5 as (_ & _ & _ & (O5 & _)); eapply msub_nodup; [|exact O5]; msub).
  pose proof (HB H5 ND) as HBc.
  change (bind (@s_lookup S1 W T ET Pos CE bnd1 c) ?k s9) with (k (bnd1 (mem (ps_alloc s9)) c) s9). cbn beta.
  destruct (bnd1 (mem (ps_alloc s9)) c) as [[g1|g1]|], (bnd2 d) as [[g2|g2]|]; try contradiction.
  - keep (@nil nat) fop (fun h => holds rt h c d fop) R5; [apply hold_local|apply sim_text|].
    cbn beta. intros t u s11 s12 fs6 ft R6 H6 H6'.
    keep (@nil nat) (ft ++ fop) (fun h => rt h t u ft /\ holds rt h c d fop) R6;
      [apply local_and; [apply text_local|apply hold_local]|apply sim_nest_end|].
    cbn beta. intros _ _ s13 s14 fs7 fx R7 [_ ->] [H7 H7']. cbn [app] in *.
    eapply sim_fin with (f:=fs7 ++ fop ++ ft); [|msub].
    apply sim_call; [eapply ready_sub; [exact R7|msub]|]. apply HBc; try assumption.
    + apply R7.
    + destruct R7 as (_ & _ & _ & O). eapply owned_sub; [|exact O]. msub.
  - keep (@nil nat) fop (fun h => holds rt h c d fop) R5; [apply hold_local|apply IHa|].
    cbn beta. intros t u s11 s12 fs6 ft R6 H6 H6'.
    keep (@nil nat) (ft ++ fop) (fun h => holds rt h t u ft /\ holds rt h c d fop) R6;
      [apply local_and; apply hold_local|apply sim_nest_end|].
    cbn beta. intros _ _ s13 s14 fs7 fx R7 [_ ->] [H7 H7']. cbn [app] in *.
    eapply sim_fin with (f:=fs7 ++ fop ++ ft); [|msub].
    apply sim_call; [eapply ready_sub; [exact R7|msub]|]. apply HBc; try assumption.
    + apply R7.
    + destruct R7 as (_ & _ & _ & O). eapply owned_sub; [|exact O]. msub.
  - keep (@nil nat) fop (fun h => holds rt h c d fop) R5; [apply hold_local|apply IHa|].
    cbn beta. intros t u s11 s12 fs6 ft R6 H6 H6'.
    keep (@nil nat) (ft ++ fop) (fun h => holds rt h t u ft /\ holds rt h c d fop) R6;
      [apply local_and; apply hold_local|apply sim_nest_end|].
    cbn beta. intros _ _ s13 s14 fs7 fx R7 [_ ->] [H7 H7']. cbn [app] in *.
    keep fop ft (fun h => holds rt h t u ft) R7; [apply hold_local|intros R'; apply sim_new; assumption|].
    cbn beta. intros i d' s15 s16 fs8 fi R8 (-> & H8 & _) H8'.
    keep ft fi (fun h => points h i d fi) R8; [apply points_local|intros R'; apply sim_new; assumption|].
    cbn beta. intros j d' s17 s18 fs9 fj R9 (-> & H9 & _) H9'.
    destruct H9 as (cj & fcj & -> & E9 & H9). destruct H9' as (ci & fci & -> & E9' & H9').
    eapply sim_ret with (fx:=i :: fci ++ j :: fcj); [exact R9|msub|]. cbn. econstructor; eassumption.
Qed.

Lemma all_step f : next_sim f -> all_sim f -> all_sim (Datatypes.S f).
Proof.
  intros IHn [_ IHa]. split.
  - intros m st1 st2 fs R. cbn [s_parse_all parse_all].
    eapply sim_bind; [apply IHn; exact R|]. cbn beta. intros o o' s1 s2 fs1 fx R1 H1.
    destruct o as [c|], o' as [d|]; cbn in H1; try contradiction.
    2:{ subst fx. eapply sim_ret with (fx:=[]); [exact R1|msub|constructor]. }
    eapply sim_bind; [apply sim_new; eassumption|]. cbn beta. intros i d' s3 s4 fs2 fi R2 (-> & H2 & _).
    keep (@nil nat) fi (fun h => points h i d fi) R2; [apply points_local|intros R'; apply (@sim_new _ _ _ CEmptyList DEmptyList []); [exact R'|constructor]|].
    cbn beta. intros n d' s5 s6 fs3 fn R3 (-> & H3 & E3) H3'. 
    destruct H3 as (cn & fcn & -> & E3' & H3). assert (cn = CEmptyList) by congruence. subst cn. inversion H3; subst fcn.
    match goal with |- sim _ _ _ _ (bind _ ?k s6) => change (bind (fun st => (Ok (a_get_mut ao2 DEmptyList (ps_alloc st)), st)) k s6) with (k true s6) end.
    cbn beta iota.
    match goal with |- sim _ _ _ ?r _ => change r with (s_parse_all umax cc so1 co1 bnd1 f m (CList i n) (Some n) s5) end.
    eapply sim_map_r with (Q:=fun h c' d' f' => exists g, f' = g ++ fi /\ (c' = CList i n /\ points h n d' g) /\ points h i d fi).
    + assert (R4 : ready s5 s6 fs3 [n]) by (eapply ready_sub; [exact R3|msub]).
      eapply sim_fin with (f:=(fs3 ++ [n]) ++ fi); [|msub].
      apply (@sim_keep _ _ (fun h c' d' g => c' = CList i n /\ points h n d' g) s5 (fs3 ++ [n]) _ _ fi (fun h => points h i d fi)).
      * apply IHa; [exact R4|exact E3].
      * destruct R3 as (_ & _ & _ & O). eapply owned_sub; [|exact O]. msub.
      * exact H3'.
      * apply points_local.
    + intros h c' d' f' (g & -> & (-> & cn & fcn & -> & En & Hn) & ci & fci & -> & Ei & Hi).
      exists (i :: fci ++ n :: fcn). split; [msub|]. econstructor; eassumption.
  - intros m head k st1 st2 fs R Ek. cbn [s_parse_all parse_all].
    keep (@nil nat) [k] (fun h : heap => nth_error h k = Some CEmptyList) R; [apply slot_local|apply IHn|].
    cbn beta. intros o o' s1 s2 fs1 fx R1 H1 E1.
    destruct o as [c|], o' as [d|]; cbn in H1; try contradiction.
    2:{ subst fx. eapply sim_ret with (fx:=[k]); [exact R1|msub|]. split; [reflexivity|]. exists CEmptyList, []. repeat split; [exact E1|constructor]. }
    keep fx [k] (fun h : heap => nth_error h k = Some CEmptyList) R1; [apply slot_local|intros R'; apply sim_new; assumption|].
    cbn beta. intros i d' s3 s4 fs2 fi R2 (-> & H2 & _) E2.
    keep (@nil nat) (fi ++ [k]) (fun h => points h i d fi /\ nth_error h k = Some CEmptyList) R2;
      [apply local_and; [apply points_local|apply slot_local]|intros R'; apply (@sim_new _ _ _ CEmptyList DEmptyList []); [exact R'|constructor]|].
    cbn beta. intros n d' s5 s6 fs3 fn R3 (-> & H3 & E3) (H3' & E3'').
    destruct H3 as (cn & fcn & -> & E3' & H3). assert (cn = CEmptyList) by congruence. subst cn. inversion H3; subst fcn.
    match goal with |- sim _ _ _ _ (bind _ ?k s6) => change (bind (fun st => (Ok (a_get_mut ao2 DEmptyList (ps_alloc st)), st)) k s6) with (k true s6) end.
    cbn beta iota.
    match goal with |- sim ?st ?f ?Q ?r1 (?m2 s6) => change (sim st f Q r1 (bind (@ret S2 B Pos CE _ tt) (fun _ => m2) s6)) end.
    eapply sim_bind; [apply sim_write with (i:=k) (c:=CList i n); [exact R3|rewrite !in_app_iff; cbn; tauto]|].
    cbn beta. intros _ _ s7 s8 fs4 fx4 R4 (-> & E4 & E4').
    assert (O3 : owned (ps_alloc s5) ([n] ++ fi ++ [k])) by (destruct R3 as (_ & _ & _ & O); eapply owned_sub; [|exact O]; msub).
    destruct O3 as [O3 _]. rewrite nodup_cnt in O3.
    assert (NK : n <> k). { intros ->. specialize (O3 k). rewrite !count_occ_app in O3. cbn in O3. destruct (Nat.eq_dec k k); [lia|congruence]. }
    assert (H4 : points (mem (ps_alloc s7)) i d fi).
    { eapply points_local; [exact H3'|]. intros j Hj. apply E4'. intros ->. specialize (O3 k). rewrite !count_occ_app in O3.
      apply in_cnt in Hj. cbn in O3. destruct (Nat.eq_dec k k); [lia|congruence]. }
    assert (E4n : nth_error (mem (ps_alloc s7)) n = Some CEmptyList) by (rewrite E4' by exact NK; exact E3).
    eapply sim_map_r with (Q:=fun h c' d' f' => exists g, f' = g ++ fi ++ [k] /\ (c' = head /\ points h n d' g) /\
      points h i d fi /\ nth_error h k = Some (CList i n)).
    + eapply sim_fin with (f:=(fs4 ++ [n]) ++ fi ++ [k]); [|msub].
      apply (@sim_keep _ _ (fun h c' d' g => c' = head /\ points h n d' g) s7 (fs4 ++ [n]) _ _ (fi ++ [k])
               (fun h => points h i d fi /\ nth_error h k = Some (CList i n))).
      * apply IHa; [|exact E4n]. eapply ready_sub; [exact R4|msub].
      * destruct R4 as (_ & _ & _ & O). eapply owned_sub; [|exact O]. msub.
      * split; assumption.
      * apply local_and; [apply points_local|apply slot_local].
    + intros h c' d' f' (g & -> & (-> & cn & fcn & -> & En & Hn) & (ci & fci & -> & Ei & Hi) & Ek').
      exists (k :: i :: fci ++ n :: fcn). split; [msub|]. split; [reflexivity|]. exists (CList i n), (i :: fci ++ n :: fcn).
      split; [reflexivity|]. split; [exact Ek'|]. econstructor; eassumption.
Qed.

Lemma parse_sim fuel : next_sim fuel /\ nested_sim fuel /\ all_sim fuel.
Proof.
  induction fuel as [|f (IH1 & IH2 & IH3)].
  - split; [|split; [|split]]; repeat intro; exact I.
  - split; [|split]; [apply next_step|apply nested_step|apply all_step]; assumption.
Qed.
End Sim.
