(** Programs that use counted references. *)
From Coq Require Import List Arith Lia Permutation Bool.
From Verif.Model Require Import Prelude Drop DropRc RcProgram.
From Verif.Spec Require Import Drops Programs.
From Verif.Proofs Require Import HeapFacts DropRcFacts.
Import ListNotations.
Set Implicit Arguments.

Section Facts.
Context {X : Type}.
Local Notation heap := (heap X).
Local Notation node := (node nat X).
Local Notation Cell := (@Cell X).
Local Notation machine := (machine X).
Local Notation bc := (@bc X).
Implicit Types (h : heap) (K V : list nat) (m : machine).

Lemma take_perm A i : forall (l : list A) a l', take i l = Some (a, l') -> Permutation l (a :: l').
Proof.
  induction i as [|i IH]; intros [|b l] a l'; cbn; try discriminate.
  - intros [= -> ->]. reflexivity.
  - destruct (take i l) as [[c l'']|] eqn:E; [|discriminate]. intros [= -> <-]. rewrite (IH _ _ _ E). apply perm_swap.
Qed.
Lemma take_none A i : forall (l : list A), take i l = None -> length l <= i.
Proof.
  induction i as [|i IH]; intros [|b l]; cbn; try discriminate; try lia.
  destruct (take i l) as [[c l'']|] eqn:E; [discriminate|]. intros _. specialize (IH _ E). lia.
Qed.
Lemma take_some A i : forall (l : list A) p, take i l = Some p -> i < length l.
Proof.
  induction i as [|i IH]; intros [|b l] p; cbn; try discriminate; try lia.
  destruct (take i l) as [q|] eqn:E; [|discriminate]. intros _. specialize (IH _ _ E). lia.
Qed.
Lemma make_perm d K n K' : make (X := X) d K = Some (n, K') -> Permutation K (kids n ++ K').
Proof.
  destruct d as [v|i j|i j]; cbn; [intros [= <- <-]; reflexivity| |].
  all: destruct (take i K) as [[a K1]|] eqn:E1; [|discriminate]; destruct (take j K1) as [[b K2]|] eqn:E2; [|discriminate];
    intros [= <- <-]; cbn; rewrite (take_perm _ _ E1); apply perm_skip; exact (take_perm _ _ E2).
Qed.

(** ** The parts of [sound] *)
Definition wsound h V : Prop :=
  (forall x c, cell_at h x = Some c -> weak c = count V x) /\
  (forall x c, cell_at h x = Some c -> strong c <> 0 \/ weak c <> 0) /\
  (forall x, In x V -> cell_at h x <> None).
Lemma sound_intro h K V : consistent h K -> wsound h V -> sound (Machine h K V).
Proof. intros HC (H1 & H2 & H3). split; auto. Qed.
Lemma sound_inv h K V : sound (Machine h K V) -> consistent h K /\ wsound h V.
Proof. intros [H1 H2 H3 H4]. cbn in *. split; [exact H1|]. split; [exact H2|]. split; assumption. Qed.
Lemma wsound_perm h V V' : Permutation V V' -> wsound h V -> wsound h V'.
Proof.
  intros HP (H1 & H2 & H3). split; [intros x c E; rewrite (H1 _ _ E); apply count_perm; exact HP|]. split; [exact H2|].
  intros x Hx. apply H3. eapply Permutation_in; [symmetry; exact HP|exact Hx].
Qed.

(** Memory keeps its weak counts whatever is dropped. *)
Lemma wsound_history h h' V : wsound h V -> history h h' -> wsound h' V.
Proof.
  intros (H1 & H2 & H3) (HL & HH).
  assert (HN : forall x, cell_at h x = None -> count V x = 0).
  { intros x E. destruct (Nat.eq_0_gt_0_cases (count V x)) as [|P]; [assumption|]. apply count_In in P. destruct (H3 _ P E). }
  split; [|split].
  - intros x c E. specialize (HH x). destruct (cell_at h x) as [[[|s] w v]|] eqn:EC.
    + rewrite E in HH. injection HH as ->. apply (H1 _ _ EC).
    + pose proof (H1 _ _ EC) as W. cbn [weak] in W. destruct HH as [HH|(s' & n & HH)]; rewrite E in HH.
      * destruct w; [discriminate|]. injection HH as ->. exact W.
      * injection HH as ->. exact W.
    + destruct HH as [HH|(_ & s' & n & HH)]; rewrite E in HH; [discriminate|]. injection HH as ->. symmetry. apply HN. exact EC.
  - intros x c E. specialize (HH x). destruct (cell_at h x) as [[[|s] w v]|] eqn:EC.
    + rewrite E in HH. injection HH as ->. apply (H2 _ _ EC).
    + destruct HH as [HH|(s' & n & HH)]; rewrite E in HH.
      * destruct w; [discriminate|]. injection HH as ->. right. discriminate.
      * injection HH as ->. left. discriminate.
    + destruct HH as [HH|(_ & s' & n & HH)]; rewrite E in HH; [discriminate|]. injection HH as ->. left. discriminate.
  - intros x Hx. specialize (HH x). specialize (H3 _ Hx). destruct (cell_at h x) as [[[|s] w v]|] eqn:EC; [rewrite HH; discriminate| |congruence].
    destruct HH as [HH|(s' & n & HH)]; rewrite HH; [|discriminate].
    pose proof (H1 _ _ EC) as W. cbn [weak] in W. apply count_In in Hx. destruct w; [lia|discriminate].
Qed.
Lemma wsound_upd h x c oc V V' : wsound h V -> cell_at h x = Some c ->
  (forall c', oc = Some c' -> (strong c' <> 0 \/ weak c' <> 0) /\ weak c' = count V' x) ->
  (oc = None -> count V' x = 0) -> (forall y, y <> x -> count V' y = count V y) -> wsound (upd h x oc) V'.
Proof.
  intros (H1 & H2 & H3) E HO HN HV. split; [|split].
  - intros y c'. rewrite (cell_at_upd _ _ _ _ E). destruct (Nat.eqb_spec y x) as [->|NE]; intros EC.
    + apply HO. exact EC.
    + rewrite HV by exact NE. apply H1. exact EC.
  - intros y c'. rewrite (cell_at_upd _ _ _ _ E). destruct (Nat.eqb_spec y x) as [->|NE]; intros EC.
    + apply HO. exact EC.
    + eapply H2. exact EC.
  - intros y Hy. rewrite (cell_at_upd _ _ _ _ E). destruct (Nat.eqb_spec y x) as [->|NE].
    + intros EC. apply HN in EC. apply count_In in Hy. lia.
    + apply H3. apply count_In. rewrite <- HV by exact NE. apply count_In. exact Hy.
Qed.

(** ** Making a datum *)
Lemma upd_grow h c c' : upd (grow h c) (length (cells h)) (Some c') = grow h c'.
Proof.
  unfold upd, grow. cbn [cells dropped]. f_equal. induction (cells h) as [|a l IH]; cbn; [reflexivity|]. rewrite IH. reflexivity.
Qed.
Lemma grow_datum h K n : consistent h (kids n ++ K) -> consistent (grow h (Cell 1 0 (Some n))) (length (cells h) :: K).
Proof.
  intros HC. assert (HG := @consistent_grow _ h (kids n ++ K) (@temp_leaf nat X) HC eq_refl).
  set (x := length (cells h)) in *. set (g := grow h (Cell 1 0 (Some temp_leaf))) in *.
  assert (E : cell_at g x = Some (Cell 1 0 (Some temp_leaf))) by (unfold g; rewrite cell_at_grow; unfold x; rewrite Nat.eqb_refl; reflexivity).
  rewrite <- (upd_grow h (Cell 1 0 (Some temp_leaf))). fold g x.
  pose proof (consistent_out HC (Nat.le_refl (length (cells h)))) as HO. rewrite refs_count, count_app in HO.
  eapply consistent_upd; [exact HG|exact E| | |].
  - intros c' [= <-]. cbn. split; discriminate.
  - intros y. cbn [onto value kids temp_leaf branches]. rewrite !count_cons, count_app, count_nil. cbn [ostrong strong]. lia.
  - right. split.
    + assert (edges g = edges h) as -> by (unfold edges, g; rewrite of_all_grow; cbn; apply app_nil_r). fold x in HO. lia.
    + cbn [onto value]. intros HI. apply count_In in HI. fold x in HO. lia.
Qed.

(** ** References in variables *)
Lemma clone_sound h K x : consistent h K -> In x (K ++ edges h) ->
  ends (clone x) h (fun _ h' => exists s w n, cell_at h x = Some (Cell (S s) w (Some n)) /\ h' = upd h x (Some (Cell (S (S s)) w (Some n))) /\ consistent h' (x :: K)).
Proof.
  intros HC HI. destruct (consistent_live _ HC HI) as (s & w & n & E).
  eapply ends_bind; [apply (ends_read _ _ E)|]. intros ? ? (-> & ->). eapply ends_mono; [apply ends_write|]. intros [] ? ->.
  exists s, w, n. split; [exact E|]. split; [reflexivity|]. eapply consistent_upd; [exact HC|exact E| | |].
  - intros c' [= <-]. cbn. split; discriminate.
  - intros y. rewrite count_cons. cbn [onto value ostrong strong]. rewrite (Nat.eqb_sym x y). destruct (y =? x); lia.
  - left. cbn [onto value]. apply incl_refl.
Qed.
Lemma upd_weak h K x s w w' n : consistent h K -> cell_at h x = Some (Cell s w n) -> consistent (upd h x (Some (Cell s w' n))) K.
Proof.
  intros HC E. eapply consistent_upd; [exact HC|exact E| | |].
  - intros c' [= <-]. apply (cons_count HC _ E).
  - intros y. cbn [onto value ostrong strong]. lia.
  - left. cbn [onto value]. apply incl_refl.
Qed.
Lemma upd_payloads h x s w s' w' v : cell_at h x = Some (Cell s w v) -> Permutation (payloads (upd h x (Some (Cell s' w' v)))) (payloads h).
Proof. intros E. pose proof (payloads_upd _ _ (Some (Cell s' w' v)) E) as P. cbn [onto value] in P. exact (Permutation_app_inv_r _ _ _ P). Qed.
Lemma upd_bc h x s w s' w' v : cell_at h x = Some (Cell s w v) -> bc (upd h x (Some (Cell s' w' v))) = bc h.
Proof. intros E. pose proof (bc_upd _ _ (Some (Cell s' w' v)) E) as P. cbn [oweight value] in P. lia. Qed.
Lemma upd_node h x s w s' w' v y : cell_at h x = Some (Cell s w v) -> node_at (upd h x (Some (Cell s' w' v))) y = node_at h y.
Proof. intros E. unfold node_at. rewrite (cell_at_upd _ _ _ _ E). destruct (Nat.eqb_spec y x) as [->|]; [rewrite E|]; reflexivity. Qed.

(** ** Dropping *)
(** The values [vs] were not in the memory. *)
Definition went (vs : list X) K h h' : Prop := consistent h' K /\ frame K h h' /\ history h h' /\ bc h' <= bc h /\
  exists xs, dropped h' = dropped h ++ xs /\ Permutation (xs ++ payloads h') (vs ++ payloads h).
Lemma after_went K h u h' : after K h u h' -> went [] K h h'.
Proof. intros (HC & [H1 H2 H3] & HB). split; [exact HC|]. split; [exact H1|]. split; [exact H2|]. split; [exact HB|exact H3]. Qed.
Lemma went_same vs K h h' y n n' : went vs K h h' -> node_at h y = Some n -> node_at h' y = Some n' -> n' = n.
Proof.
  intros (HC & HF & _) E E'. pose proof (all_reachable _ HC E') as R. apply (frame_reach' HF) in R. rewrite (HF _ R) in E'. congruence.
Qed.

Section Drop.
Context (arc : bool) (fuel depth : nat).
Lemma ends_drop h K x : consistent h (x :: K) -> bc h < depth -> bc h * bc h + bc h < fuel -> ends (rc_drop arc fuel depth x) h (fun _ => went [] K h).
Proof.
  intros HC HD HF. eapply ends_mono; [apply (rc_drop_after arc HC HD); lia|]. intros u h' HA. exact (after_went HA).
Qed.
Lemma ends_drop_datum h K n : consistent h (kids n ++ K) -> bc h < depth -> bc h * bc h + bc h < fuel ->
  ends (drop_datum arc fuel depth n) h (fun _ => went (payload n) K h).
Proof.
  intros HC HD HF.
  assert (HB : forall a b, kids n = [a; b] -> payload n = [] ->
    ends (d_bind (rc_drop arc fuel depth a) (fun _ => rc_drop arc fuel depth b)) h (fun _ => went (payload n) K h)).
  { intros a b EK EP. rewrite EK in HC. cbn [app] in HC. rewrite EP.
    eapply ends_bind; [apply (rc_drop_after arc HC HD); lia|]. intros _ h1 (C1 & D1 & B1).
    eapply ends_mono; [apply (rc_drop_after arc C1); [lia|nia]|]. intros _ h2 (C2 & D2 & B2).
    apply after_went with (u := tt). split; [exact C2|]. split; [|lia]. eapply change_trans; [|exact D2].
    eapply change_incl; [|exact D1]. intros y Hy. right. exact Hy. }
  destruct n as [a b|a b|[v|]]; cbn [drop_datum].
  - apply HB; reflexivity.
  - apply HB; reflexivity.
  - exists tt, (Heap (cells h) (dropped h ++ [v])). split; [reflexivity|]. split; [destruct HC; split; assumption|]. split; [intros y _; reflexivity|].
    split; [apply (history_refl h)|]. split; [apply Nat.le_refl|]. exists [v]. split; reflexivity.
  - apply ends_ret. split; [exact HC|]. split; [apply frame_refl|]. split; [apply history_refl|]. split; [lia|]. exists []. rewrite app_nil_r. auto.
Qed.

(** ** One operation *)
Definition stepped (o : op X) m m' : Prop :=
  sound m' /\ bc (mem m') <= S (bc (mem m)) /\
  (exists xs, dropped (mem m') = dropped (mem m) ++ xs /\ Permutation (xs ++ payloads (mem m')) (introduces o m ++ payloads (mem m))) /\
  (forall y n n', node_at (mem m) y = Some n -> node_at (mem m') y = Some n' -> n' = n \/
     exists i d K1 K2, o = OReplace i d /\ take i (strongs m) = Some (y, K1) /\ make d K1 = Some (n', K2) /\ cell_at (mem m) y = Some (Cell 1 0 (Some n))) /\
  (forall y w, cell_at (mem m) y = Some (Cell 0 w None) -> node_at (mem m') y = None).

Lemma run_ends A (act : H A) h k (P : A -> heap -> Prop) (Q : machine -> Prop) : ends act h P -> (forall a h', P a h' -> Q (k a h')) ->
  exists m', run act h k = Ok m' /\ Q m'.
Proof. intros (a & h' & E & HP) HQ. exists (k a h'). unfold run. rewrite E. auto. Qed.
Lemma stepped_id o m : sound m -> introduces o m = [] -> stepped o m m.
Proof.
  intros HS HI. split; [exact HS|]. split; [lia|]. split; [exists []; rewrite HI, app_nil_r; auto|]. split; [intros y n n' E E'; left; congruence|].
  intros y w E. unfold node_at. rewrite E. reflexivity.
Qed.
Lemma stepped_upd o h K V K' V' x s w s' w' v : cell_at h x = Some (Cell s w v) -> introduces o (Machine h K V) = [] ->
  consistent (upd h x (Some (Cell s' w' v))) K' -> wsound (upd h x (Some (Cell s' w' v))) V' ->
  stepped o (Machine h K V) (Machine (upd h x (Some (Cell s' w' v))) K' V').
Proof.
  intros E HI HC HW. split; [apply sound_intro; assumption|]. cbn [mem strongs]. split; [rewrite (upd_bc _ _ _ _ E); lia|]. split.
  - exists []. rewrite HI, app_nil_r. split; [reflexivity|]. cbn [app]. apply (upd_payloads _ _ _ _ E).
  - split.
    + intros y n n' E1 E2. rewrite (upd_node _ _ _ _ _ E) in E2. left. congruence.
    + intros y w1 E1. rewrite (upd_node _ _ _ _ _ E). unfold node_at. rewrite E1. reflexivity.
Qed.
Lemma history_dead h h' y w : history h h' -> cell_at h y = Some (Cell 0 w None) -> node_at h' y = None.
Proof. intros (_ & HH) E. specialize (HH y). rewrite E in HH. unfold node_at. rewrite HH. reflexivity. Qed.
Lemma wsound_strong h V x s w s' v v' : wsound h V -> cell_at h x = Some (Cell s w v) -> wsound (upd h x (Some (Cell (S s') w v'))) V.
Proof.
  intros HW E. eapply wsound_upd; [exact HW|exact E| |discriminate|reflexivity]. intros c' [= <-]. split; [left; discriminate|].
  destruct HW as (W1 & _). exact (W1 _ _ E).
Qed.

(** An assignment through an exclusive reference. *)
Lemma replace_alone h x old n K2 : consistent h (x :: kids n ++ K2) -> cell_at h x = Some (Cell 1 0 (Some old)) ->
  S (bc h) < depth -> S (bc h) * S (bc h) + S (bc h) < fuel ->
  ends (d_bind (get_mut x) (fun alone : bool => if alone then d_bind (get_mut_replace x n) (drop_datum arc fuel depth) else drop_datum arc fuel depth n)) h
    (fun _ => went (payload old) (x :: K2) (upd h x (Some (Cell 1 0 (Some n))))).
Proof.
  intros HC2 E HD HF. set (h1 := upd h x (Some (Cell 1 0 (Some n)))).
  assert (C1 : consistent h1 (kids old ++ x :: K2)).
  { destruct (unreachable HC2 E) as (_ & U1 & U2). rewrite count_app in U1. eapply consistent_upd; [exact HC2|exact E| | |].
    - intros c' [= <-]. cbn. split; discriminate.
    - intros y. rewrite !count_app, !count_cons, !count_app. cbn [onto value ostrong strong]. lia.
    - right. split; [exact U2|]. cbn [onto value]. intros HIn. apply count_In in HIn. lia. }
  assert (B1 : bc h1 <= S (bc h)).
  { pose proof (bc_upd _ _ (Some (Cell 1 0 (Some n))) E) as HB. fold h1 in HB. cbn [oweight value] in HB. unfold weight in HB. destruct (branches n), (branches old); lia. }
  eapply ends_bind with (P := fun b h' => b = true /\ h' = h); [eapply ends_bind; [apply (ends_read _ _ E)|]; intros ? ? (-> & ->); apply ends_ret; auto|].
  intros ? ? (-> & ->). eapply ends_bind with (P := fun o h' => o = old /\ h' = h1).
  - eapply ends_bind; [apply (ends_read _ _ E)|]. intros ? ? (-> & ->). eapply ends_bind; [apply ends_write|]. intros _ ? ->. apply ends_ret. auto.
  - intros ? ? (-> & ->). apply ends_drop_datum; [exact C1|lia|nia].
Qed.

Theorem step_sound o m : sound m -> S (bc (mem m)) < depth -> S (bc (mem m)) * S (bc (mem m)) + S (bc (mem m)) < fuel ->
  exists m', step arc fuel depth o m = Ok m' /\ stepped o m m'.
Proof.
  intros HS HD HF. destruct m as [h K V]. cbn [mem] in HD, HF. destruct (sound_inv HS) as (HC & HW). pose proof HW as (W1 & W2 & W3).
  destruct o as [d|i|i s|i|i d|i|j|j]; cbn [step].
  - destruct (make d K) as [[n K']|] eqn:EM.
    2:{ eexists. split; [reflexivity|]. apply stepped_id; [exact HS|]. destruct d as [[v|]|? ?|? ?]; try reflexivity. discriminate EM. }
    eexists. split; [reflexivity|].
    assert (HC' : consistent h (kids n ++ K')) by (eapply consistent_perm; [apply (make_perm _ _ EM)|exact HC]).
    pose proof (grow_datum _ _ HC') as HG. fold (grow h (Cell 1 0 (Some n))). split; [apply sound_intro; [exact HG|]|split; [|split; [|split]]]; cbn [mem strongs].
    + assert (HN : count V (length (cells h)) = 0).
      { destruct (Nat.eq_0_gt_0_cases (count V (length (cells h)))) as [|P]; [assumption|]. apply count_In in P. destruct (W3 _ P). apply cell_at_out. lia. }
      split; [|split].
      * intros y c. rewrite cell_at_grow. destruct (Nat.eqb_spec y (length (cells h))) as [->|]; [intros [= <-]; cbn; symmetry; exact HN|apply W1].
      * intros y c. rewrite cell_at_grow. destruct (y =? length (cells h)); [intros [= <-]; left; discriminate|apply W2].
      * intros y Hy. rewrite cell_at_grow. destruct (y =? length (cells h)); [discriminate|apply W3; exact Hy].
    + rewrite bc_grow. cbn [oweight value]. unfold weight. destruct (branches n); lia.
    + exists []. rewrite app_nil_r. split; [reflexivity|]. unfold payloads. rewrite of_all_grow. cbn [app onto value].
      rewrite Permutation_app_comm. apply Permutation_app_tail. destruct d as [[v|]|a b|a b]; cbn in EM |- *.
      1,2: injection EM as <- <-; reflexivity.
      all: destruct (take a K) as [[? K1]|]; [|discriminate]; destruct (take b K1) as [[? K2]|]; [|discriminate]; injection EM as <- <-; reflexivity.
    + intros y n0 n' E. unfold node_at. rewrite cell_at_grow. destruct (Nat.eqb_spec y (length (cells h))) as [->|].
      * unfold node_at in E. rewrite cell_at_out in E by lia. discriminate.
      * unfold node_at in E. rewrite E. intros [= ->]. left. reflexivity.
    + intros y w E. unfold node_at. rewrite cell_at_grow. destruct (Nat.eqb_spec y (length (cells h))) as [->|]; [|rewrite E; reflexivity].
      rewrite cell_at_out in E by lia. discriminate.
  - destruct (take i K) as [[x K']|] eqn:ET; [|eexists; split; [reflexivity|]; apply stepped_id; [exact HS|reflexivity]].
    assert (HC' : consistent h (x :: K')) by (eapply consistent_perm; [apply (take_perm _ _ ET)|exact HC]).
    eapply run_ends; [apply (clone_sound _ HC' (or_introl eq_refl))|]. intros u h' (s & w & n & E & -> & C').
    eapply stepped_upd; [exact E|reflexivity|exact C'|]. eapply wsound_strong; [exact HW|exact E].
  - destruct (take i K) as [[x K']|] eqn:ET; [|eexists; split; [reflexivity|]; apply stepped_id; [exact HS|reflexivity]].
    assert (HC' : consistent h (x :: K')) by (eapply consistent_perm; [apply (take_perm _ _ ET)|exact HC]).
    destruct (consistent_live x HC' (or_introl eq_refl)) as (s0 & w0 & n & E).
    assert (EN : node_at h x = Some n) by (unfold node_at; rewrite E; reflexivity).
    destruct (branches n) as [[l r]|] eqn:EB.
    + set (y := match s with Left => l | Right => r end).
      assert (HI : In y ((x :: K') ++ edges h)).
      { apply in_or_app. right. eapply node_at_edges; [exact EN|]. rewrite (branches_kids _ EB). unfold y. destruct s; cbn; auto. }
      eapply run_ends with (P := fun ys h' => ys = [y] /\ exists s w n, cell_at h y = Some (Cell (S s) w (Some n)) /\
        h' = upd h y (Some (Cell (S (S s)) w (Some n))) /\ consistent h' (y :: x :: K')).
      * eapply ends_bind; [eapply ends_bind; [apply (ends_read _ _ E)|]; intros ? ? (-> & ->); apply ends_ret with (Q := fun a h' => a = n /\ h' = h); auto|].
        intros ? ? (-> & ->). rewrite EB. eapply ends_bind; [apply (clone_sound _ HC' HI)|]. intros u h' HP. apply ends_ret. split; [reflexivity|exact HP].
      * intros ? h' (-> & s1 & w1 & n1 & E1 & -> & C1). cbn [app]. eapply stepped_upd; [exact E1|reflexivity|exact C1|]. eapply wsound_strong; [exact HW|exact E1].
    + eapply run_ends with (P := fun ys h' => ys = [] /\ h' = h).
      * eapply ends_bind; [eapply ends_bind; [apply (ends_read _ _ E)|]; intros ? ? (-> & ->); apply ends_ret with (Q := fun a h' => a = n /\ h' = h); auto|].
        intros ? ? (-> & ->). rewrite EB. apply ends_ret. auto.
      * intros ? ? (-> & ->). cbn [app]. split; [apply sound_intro; assumption|]. split; [cbn [mem]; lia|]. split; [exists []; rewrite app_nil_r; auto|].
        cbn [mem]. split; [intros y n1 n2 E1 E2; left; congruence|]. intros y w1 E1. unfold node_at. rewrite E1. reflexivity.
  - destruct (take i K) as [[x K']|] eqn:ET; [|eexists; split; [reflexivity|]; apply stepped_id; [exact HS|reflexivity]].
    assert (HC' : consistent h (x :: K')) by (eapply consistent_perm; [apply (take_perm _ _ ET)|exact HC]).
    eapply run_ends; [apply (ends_drop HC'); [lia|nia]|]. intros u h' HWent. pose proof HWent as (C' & F' & H' & B' & L').
    split; [apply sound_intro; [exact C'|exact (wsound_history HW H')]|]. cbn [mem strongs]. split; [lia|]. split; [exact L'|].
    split; [intros y n n' E E'; left; exact (went_same _ HWent E E')|]. intros y w E. exact (history_dead _ H' E).
  - destruct (take i K) as [[x K1]|] eqn:ET.
    2:{ eexists. split; [reflexivity|]. apply stepped_id; [exact HS|]. apply take_none in ET. cbn [introduces strongs].
        destruct d as [[v|]| |]; try reflexivity. destruct (Nat.ltb_spec i (length K)); [lia|reflexivity]. }
    assert (HC1 : consistent h (x :: K1)) by (eapply consistent_perm; [apply (take_perm _ _ ET)|exact HC]).
    destruct (make d K1) as [[n K2]|] eqn:EM.
    2:{ eexists. split; [reflexivity|]. apply stepped_id; [exact HS|]. destruct d as [[v|]| |]; try reflexivity. discriminate EM. }
    assert (HI : introduces (OReplace i d) (Machine h K V) = payload n).
    { pose proof (take_some _ _ ET) as HL. cbn [introduces strongs]. destruct d as [[v|]|a b|a b]; cbn in EM.
      1,2: injection EM as <- <-; rewrite ?(proj2 (Nat.ltb_lt _ _) HL); reflexivity.
      all: destruct (take a K1) as [[? K3]|]; [|discriminate]; destruct (take b K3) as [[? K4]|]; [|discriminate]; injection EM as <- <-; reflexivity. }
    assert (HC2 : consistent h (x :: kids n ++ K2)) by (eapply consistent_perm; [apply perm_skip, (make_perm _ _ EM)|exact HC1]).
    destruct (consistent_live x HC2 (or_introl eq_refl)) as (s & w & old & E).
    assert (HSh : (s <> 0 \/ w <> 0) -> ends (d_bind (get_mut x) (fun alone : bool => if alone then d_bind (get_mut_replace x n) (drop_datum arc fuel depth) else drop_datum arc fuel depth n)) h
      (fun _ => went (payload n) (x :: K2) h)).
    { intros HO. eapply ends_bind with (P := fun b h' => b = false /\ h' = h).
      - eapply ends_bind; [apply (ends_read _ _ E)|]. intros ? ? (-> & ->). destruct s, w; try lia; apply ends_ret; auto.
      - intros ? ? (-> & ->). apply ends_drop_datum; [|lia|nia]. eapply consistent_perm; [|exact HC2]. apply Permutation_middle. }
    destruct (Nat.eq_dec s 0) as [->|NS]; [destruct w as [|w]|].
    2,3: eapply run_ends; [apply HSh; lia|]; intros u h' HWent; pose proof HWent as (C' & F' & H' & B' & L');
      split; [apply sound_intro; [exact C'|exact (wsound_history HW H')]|]; cbn [mem strongs]; split; [lia|]; rewrite HI; split; [exact L'|];
      (split; [intros y n1 n2 E1 E2; left; exact (went_same _ HWent E1 E2)|]); intros y w1 E1; exact (history_dead _ H' E1).
    set (h1 := upd h x (Some (Cell 1 0 (Some n)))).
    assert (E1 : cell_at h1 x = Some (Cell 1 0 (Some n))) by (unfold h1; rewrite (cell_at_upd _ _ _ _ E), Nat.eqb_refl; reflexivity).
    assert (B1 : bc h1 <= S (bc h)).
    { pose proof (bc_upd _ _ (Some (Cell 1 0 (Some n))) E) as HB. fold h1 in HB. cbn [oweight value] in HB. unfold weight in HB. destruct (branches n), (branches old); lia. }
    eapply run_ends; [exact (replace_alone _ _ HC2 E HD HF)|].
    { intros u h' HWent. fold h1 in HWent. pose proof HWent as (C' & F' & H' & B' & xs & L1 & L2).
      split; [apply sound_intro; [exact C'|]|]; [|cbn [mem strongs]; split; [lia|]; split; [|split]].
      * eapply wsound_history; [|exact H']. unfold h1. eapply wsound_strong; [exact HW|]. exact E.
      * exists xs. rewrite HI. split; [exact L1|]. rewrite L2. pose proof (payloads_upd _ _ (Some (Cell 1 0 (Some n))) E) as HP.
        fold h1 in HP. cbn [onto value] in HP. rewrite Permutation_app_comm, HP. apply Permutation_app_comm.
      * intros y n1 n2 EY1 EY2. destruct (Nat.eq_dec y x) as [->|NE].
        -- right. exists i, d, K1, K2. split; [reflexivity|]. split; [exact ET|]. split.
           ++ rewrite (went_same x HWent (n := n) (n' := n2)); [exact EM| |exact EY2]. unfold node_at. rewrite E1. reflexivity.
           ++ rewrite E. unfold node_at in EY1. rewrite E in EY1. cbn in EY1. congruence.
        -- left. eapply went_same; [exact HWent| |exact EY2]. unfold node_at, h1. rewrite (cell_at_upd _ _ _ _ E).
           destruct (Nat.eqb_spec y x) as [|]; [contradiction|exact EY1].
      * intros y w1 EY. eapply history_dead; [exact H'|]. unfold h1. rewrite (cell_at_upd _ _ _ _ E). destruct (Nat.eqb_spec y x) as [->|]; [|exact EY].
        rewrite E in EY. discriminate. }
  - destruct (take i K) as [[x K']|] eqn:ET; [|eexists; split; [reflexivity|]; apply stepped_id; [exact HS|reflexivity]].
    assert (HC' : consistent h (x :: K')) by (eapply consistent_perm; [apply (take_perm _ _ ET)|exact HC]).
    destruct (consistent_live x HC' (or_introl eq_refl)) as (s & w & n & E).
    eapply run_ends; [eapply ends_bind; [apply (ends_read _ _ E)|]; intros ? ? (-> & ->); apply ends_write|]. intros u h' ->.
    eapply stepped_upd; [exact E|reflexivity| |]; [exact (upd_weak _ _ HC' E)|].
    eapply wsound_upd; [exact HW|exact E| |discriminate|].
    + intros c' [= <-]. split; [left; discriminate|]. rewrite count_cons, Nat.eqb_refl. cbn [weak]. rewrite <- (W1 _ _ E). reflexivity.
    + intros y NE. rewrite count_cons. destruct (Nat.eqb_spec x y); [congruence|reflexivity].
  - destruct (take j V) as [[x V']|] eqn:ET; [|eexists; split; [reflexivity|]; apply stepped_id; [exact HS|reflexivity]].
    assert (HW' : wsound h (x :: V')) by (eapply wsound_perm; [apply (take_perm _ _ ET)|exact HW]).
    destruct (cell_at h x) as [[s w v]|] eqn:E; [|destruct (proj2 (proj2 HW') x (or_introl eq_refl) E)].
    destruct s as [|s].
    + eapply run_ends with (P := fun b h' => b = false /\ h' = h); [eapply ends_bind; [apply (ends_read _ _ E)|]; intros ? ? (-> & ->); apply ends_ret; auto|].
      intros ? ? (-> & ->). split; [apply sound_intro; assumption|]. split; [cbn [mem]; lia|]. split; [exists []; rewrite app_nil_r; auto|].
      cbn [mem]. split; [intros y n1 n2 E1 E2; left; congruence|]. intros y w1 E1. unfold node_at. rewrite E1. reflexivity.
    + eapply run_ends with (P := fun b h' => b = true /\ h' = upd h x (Some (Cell (S (S s)) w v))).
      * eapply ends_bind; [apply (ends_read _ _ E)|]; intros ? ? (-> & ->). eapply ends_bind; [apply ends_write|]. intros _ ? ->. apply ends_ret. auto.
      * intros ? ? (-> & ->). eapply stepped_upd; [exact E|reflexivity| |]; [|eapply wsound_strong; [exact HW'|exact E]].
        eapply consistent_upd; [exact HC|exact E| | |].
        -- intros c' [= <-]. pose proof (proj2 (cons_count HC _ E)) as HV. cbn [value strong] in *. split; [|discriminate]. intros HN. apply HV in HN. discriminate.
        -- intros y. rewrite count_cons. cbn [onto value ostrong strong]. rewrite (Nat.eqb_sym x y). destruct (y =? x); lia.
        -- left. apply incl_refl.
  - destruct (take j V) as [[x V']|] eqn:ET; [|eexists; split; [reflexivity|]; apply stepped_id; [exact HS|reflexivity]].
    assert (HW' : wsound h (x :: V')) by (eapply wsound_perm; [apply (take_perm _ _ ET)|exact HW]). pose proof HW' as (W1' & W2' & W3').
    destruct (cell_at h x) as [[s w v]|] eqn:E; [|destruct (W3' x (or_introl eq_refl) E)].
    pose proof (W1' _ _ E) as EW. rewrite count_cons, Nat.eqb_refl in EW. cbn [weak] in EW. destruct w as [|w]; [lia|].
    assert (HV : forall y, y <> x -> count V' y = count (x :: V') y).
    { intros y NE. rewrite count_cons. destruct (Nat.eqb_spec x y); [congruence|reflexivity]. }
    destruct (proj2 (cons_count HC _ E)) as (HV1 & HV2). cbn [value strong] in HV1, HV2.
    eapply run_ends; [eapply ends_bind; [apply (ends_read _ _ E)|]; intros ? ? (-> & ->); apply ends_write|]. intros u h' ->.
    destruct s as [|s]; [destruct w as [|w]|].
    2:{ eapply stepped_upd; [exact E|reflexivity| |]; [exact (upd_weak _ _ HC E)|]. eapply wsound_upd; [exact HW'|exact E| |discriminate|exact HV].
        intros c' [= <-]. split; [right; discriminate|]. cbn [weak]. lia. }
    2:{ assert (EE : match w with 0 | _ => Some (Cell (S s) w v) end = Some (Cell (S s) w v)) by (destruct w; reflexivity).
        cbn. eapply stepped_upd; [exact E|reflexivity| |]; [exact (upd_weak _ _ HC E)|]. eapply wsound_upd; [exact HW'|exact E| |discriminate|exact HV].
        intros c' [= <-]. split; [left; discriminate|]. cbn [weak]. lia. }
    rewrite (HV2 eq_refl) in E.
    split; [apply sound_intro|cbn [mem strongs]; split; [|split; [|split]]].
    + eapply consistent_upd; [exact HC|exact E|discriminate| |left; apply incl_refl]. intros y. cbn [onto value ostrong strong]. lia.
    + eapply wsound_upd; [exact HW'|exact E|discriminate|intros _; lia|exact HV].
    + pose proof (bc_upd _ _ None E) as HB. cbn [oweight value] in HB. lia.
    + exists []. rewrite app_nil_r. split; [reflexivity|]. cbn [app introduces]. pose proof (payloads_upd _ _ None E) as HP. cbn [onto value] in HP. rewrite !app_nil_r in HP. exact HP.
    + intros y n n' E1. unfold node_at in *. rewrite (cell_at_upd _ _ _ _ E). destruct (y =? x); [discriminate|]. intros E2. left. congruence.
    + intros y w1 E1. unfold node_at. rewrite (cell_at_upd _ _ _ _ E). destruct (y =? x); [reflexivity|]. rewrite E1. reflexivity.
Qed.

(** ** Programs *)
Theorem executes_sound N : forall (os : list (op X)) m, sound m -> bc (mem m) + length os <= N -> N < depth -> N * N + N < fuel ->
  exists vs m', executes arc fuel depth os m vs m' /\ steps arc fuel depth os m = Ok m' /\ sound m' /\
    exists xs, dropped (mem m') = dropped (mem m) ++ xs /\ Permutation (xs ++ payloads (mem m')) (vs ++ payloads (mem m)).
Proof.
  induction os as [|o os IH]; intros m HS HN HD HF.
  - exists [], m. split; [apply ex_nil|]. split; [reflexivity|]. split; [exact HS|]. exists []. rewrite app_nil_r. auto.
  - cbn [length] in HN. destruct (@step_sound o m HS) as (m1 & E1 & S1 & B1 & (xs & L1 & P1) & _); [lia|nia|].
    destruct (IH m1 S1) as (vs & m2 & EX & E2 & S2 & ys & L2 & P2); [lia|exact HD|exact HF|].
    exists (introduces o m ++ vs), m2. split; [eapply ex_step; eassumption|]. split; [cbn [steps]; rewrite E1; exact E2|]. split; [exact S2|].
    exists (xs ++ ys). split; [rewrite L2, L1; symmetry; apply app_assoc|]. rewrite <- !app_assoc, P2.
    rewrite (Permutation_app_comm xs (vs ++ _)), <- app_assoc, (Permutation_app_comm _ xs), P1, !app_assoc.
    apply Permutation_app_tail, Permutation_app_comm.
Qed.
End Drop.
End Facts.
