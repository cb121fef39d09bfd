(** The work of dropping boxed and shared trees. *)
From Coq Require Import List Arith Lia Permutation Bool.
From Verif.Model Require Import Prelude Drop DropShared DropCost.
From Verif.Spec Require Import Drops.
From Verif.Proofs Require Import DropFacts DropSharedFacts DropCostFacts.
Import ListNotations.
Set Implicit Arguments.

(** ** Boxes *)
Section Box.
Context {X : Type}.
Local Notation bref := (bref X).
Local Notation ops := (counting (H := log) (@box_ops X)).
Local Notation inner := (@DropFacts.inner X).
Local Notation ident := (@DropFacts.ident X).
Local Notation node_count := (@DropFacts.node_count X).
Local Notation node_rchain := (@DropFacts.node_rchain X).
Implicit Types (h : log (X := X)) (r l : bref).

Definition box_selected l r (sel : selection (DR := bref) (X := X)) : Prop :=
  match branches (inner l), branches (inner r) with
  | Some _, _ => sel = inl (Left, inner l, BRef (ident l) temp_leaf, node_class (inner r), r)
  | None, Some _ => sel = inl (Right, inner r, BRef (ident r) temp_leaf, node_class (inner l), l)
  | None, None => sel = inr (l, r)
  end.
Lemma pays_box_class h r : pays (class_of ops r) h (fun c _ k => c = node_class (inner r) /\ k = 1).
Proof.
  eapply pays_mono; [eapply pays_erases with (P := fun c _ => c = node_class (inner r)); [apply erases_class|]|auto].
  destruct r as [id n]. exists (node_class n), h. auto.
Qed.
Lemma pays_box_select h lock l r : lock <> Some Right ->
  pays (select ops lock (node_class (inner l)) (node_class (inner r)) l r) h (fun sel _ k => box_selected l r sel /\ k <= 2).
Proof.
  intros HL. eapply pays_mono; [eapply pays_erases with (P := fun sel _ => box_selected l r sel); [apply erases_select|]|auto].
  destruct l as [il nl], r as [ir nr]. unfold box_selected. cbn [DropFacts.inner DropFacts.ident]. unfold node_class.
  destruct (branches nl) as [[a b]|], (branches nr) as [[c d]|], lock as [[]|]; try congruence; do 2 eexists; split; reflexivity.
Qed.

Section Loop.
Context (drop : bref -> D (log (X := X) * nat) unit).
Context (HD : forall r h, branches (inner r) = None -> pays (drop r) h (fun _ _ k => k <= 1)).
Lemma pays_box_loop : forall fuel lock top h, lock <> Some Right -> branches top <> None ->
  pays (algo1_loop ops drop fuel lock top) h (fun _ _ k => k + 5 * node_rchain top <= 11 * node_count top).
Proof.
  induction fuel as [|fuel IH]; intros lock top h HL HB; [apply pays_nofuel|].
  destruct (branches top) as [[l r]|] eqn:E; [|congruence]. destruct (DropFacts.branch_facts _ E) as (C1 & _ & C3).
  cbn [algo1_loop]. rewrite E.
  eapply pays_bind; [apply pays_box_class|]. intros ? h1 ? (-> & ->).
  eapply pays_bind; [apply pays_box_class|]. intros ? h2 ? (-> & ->).
  eapply pays_bind; [apply pays_box_select; exact HL|]. intros sel h3 k (HS & HK). unfold box_selected in HS.
  rewrite (DropFacts.count_inner l), (DropFacts.count_inner r) in C1. rewrite (DropFacts.rchain_inner r) in C3.
  assert (LF : forall n, branches n = None -> node_count n = 0 /\ node_rchain n = 0).
  { intros n En. unfold DropFacts.node_count, DropFacts.node_rchain. rewrite En. auto. }
  destruct (branches (inner l)) as [[a b]|] eqn:EL; [subst sel; rewrite EL; unfold node_class|].
  - destruct (branches (inner r)) as [[c d]|] eqn:ER.
    + eapply pays_bind with (P := fun r' _ k => r' = BRef (ident l) (NList b r) /\ k = 1).
      { eapply pays_mono; [eapply pays_erases with (P := fun r' _ => r' = BRef (ident l) (NList b r)); [apply erases_counted|]|auto]. do 2 eexists. split; reflexivity. }
      intros ? h4 ? (-> & ->). eapply pays_mono; [apply IH; [destruct lock as [[]|]; congruence|discriminate]|].
      cbn beta. intros ? ? j. destruct (DropFacts.branch_facts _ EL) as (A1 & _).
      unfold DropFacts.node_count, DropFacts.node_rchain. rewrite E. cbn [branches].
      change (branch_count (BRef (ident l) (NList b r))) with (S (branch_count b + branch_count r)).
      change (DropFacts.rchain (BRef (ident l) (NList b r))) with (S (DropFacts.rchain r)).
      rewrite (DropFacts.count_inner l), A1. lia.
    + destruct (LF _ ER) as [Z1 Z2].
      eapply pays_bind; [apply HD; exact ER|]. intros ? h4 i Hi. cbn beta in Hi.
      eapply pays_bind; [apply HD; reflexivity|]. intros ? h5 j Hj. cbn beta in Hj.
      eapply pays_mono; [apply IH; congruence|]. cbn beta. intros ? ? m. rewrite C1, C3. lia.
  - destruct (LF _ EL) as [Z1 Z2]. destruct (branches (inner r)) as [[c d]|] eqn:ER; [subst sel; rewrite ER; unfold node_class; rewrite EL|subst sel].
    + eapply pays_bind; [apply HD; exact EL|]. intros ? h4 i Hi. cbn beta in Hi.
      eapply pays_bind; [apply HD; reflexivity|]. intros ? h5 j Hj. cbn beta in Hj.
      eapply pays_mono; [apply IH; congruence|]. cbn beta. intros ? ? m. rewrite C1, C3. lia.
    + destruct (LF _ ER) as [Z3 Z4].
      eapply pays_bind; [apply HD; exact ER|]. intros ? h4 i Hi. cbn beta in Hi.
      eapply pays_mono; [apply HD; exact EL|]. cbn beta. intros ? ? m. rewrite C1, C3. lia.
Qed.
End Loop.

Lemma pays_box_leaf fuel depth r h : branches (inner r) = None -> pays (box_work fuel depth r) h (fun _ _ k => k <= 1).
Proof.
  intros E. destruct depth as [|depth]; [apply pays_nofuel|].
  eapply pays_bind with (P := fun r' _ k => r' = r /\ k = 1).
  - eapply pays_bind; [apply pays_box_class|]. intros ? ? ? (-> & ->). unfold node_class. rewrite E. apply pays_ret. auto.
  - intros ? h1 ? (-> & ->). destruct r as [id n]. cbn [DropFacts.inner] in E.
    eapply pays_bind with (P := fun _ _ k => k = 0).
    + destruct n as [a b|a b|[x|]]; try discriminate E; [|apply pays_ret; reflexivity].
      eapply pays_mono; [eapply pays_erases with (P := fun _ _ => True); [apply erases_silent|do 2 eexists; split; reflexivity]|]. cbn. tauto.
    + intros ? h2 k ->. eapply pays_mono; [eapply pays_erases with (P := fun _ _ => True); [apply erases_silent|do 2 eexists; split; reflexivity]|].
      cbn. intros. lia.
Qed.
Theorem pays_box fuel depth r h : pays (box_work fuel depth r) h (fun _ _ k => k <= 11 * branch_count r + 1).
Proof.
  destruct (branches (inner r)) as [[a b]|] eqn:E.
  2:{ eapply pays_mono; [apply pays_box_leaf; exact E|]. cbn. intros. lia. }
  destruct depth as [|depth]; [apply pays_nofuel|]. destruct (DropFacts.branch_facts _ E) as (C1 & _ & C3). rewrite DropFacts.count_inner.
  eapply pays_bind with (P := fun r' _ k => r' = BRef (ident r) temp_leaf /\ k <= 11 * node_count (inner r)).
  - eapply pays_bind; [apply pays_box_class|]. intros ? h1 ? (-> & ->). unfold node_class. rewrite E.
    eapply pays_bind with (P := fun p _ k => p = (Some (inner r), BRef (ident r) temp_leaf) /\ k = 1).
    { eapply pays_mono; [eapply pays_erases with (P := fun p _ => p = (Some (inner r), BRef (ident r) temp_leaf)); [apply erases_counted|]|auto].
      destruct r as [id n]. do 2 eexists. split; reflexivity. }
    intros ? h2 ? (-> & ->). eapply pays_bind.
    + apply pays_box_loop; [intros; apply pays_box_leaf; assumption|discriminate|congruence].
    + cbn beta. intros ? h3 k HK. apply pays_ret. split; [reflexivity|]. lia.
  - intros ? h1 k (-> & HK). eapply pays_bind with (P := fun _ _ k => k = 0); [apply pays_ret; reflexivity|]. intros ? h2 ? ->.
    eapply pays_mono; [eapply pays_erases with (P := fun _ _ => True); [apply erases_silent|do 2 eexists; split; reflexivity]|].
    cbn. intros. lia.
Qed.
End Box.

(** ** Shared references, whatever their other owners do *)
Section Shared.
Context {X : Type} (oracle : nat -> bool).
Local Notation sref := (sref X).
Local Notation ops := (counting (shared_ops (X := X) oracle)).
Local Notation inner := (@DropSharedFacts.inner X).
Local Notation ident := (@DropSharedFacts.ident X).
Local Notation node_count := (@DropSharedFacts.node_count X).
Local Notation node_chain := (@DropSharedFacts.node_chain X).
Implicit Types (h : sstate X) (r l : sref).

Lemma pays_runs B A (m' : D (sstate X * nat) A) (m : D (sstate X) A) h (P : A -> list (sevent X) -> Prop) : erases B m' m -> runs m P ->
  pays m' h (fun a _ k => (exists e, P a e) /\ B k).
Proof.
  intros HE HR. eapply pays_erases with (P := fun a _ => exists e, P a e); [exact HE|]. destruct (HR h) as (a & e & k & E & HP). do 2 eexists. split; [exact E|]. eauto.
Qed.
Lemma pays_s_class h r : pays (class_of ops r) h (fun c _ k => c = node_class (inner r) /\ k = 1).
Proof.
  eapply pays_mono; [eapply pays_runs; [apply erases_class|apply runs_class]|]. cbn beta. intros c _ k ((e & _ & ->) & ->). auto.
Qed.
Lemma pays_s_take h r : pays (trytake ops r) h (fun p _ k => (p = (Some (inner r), SRef (ident r) true temp_leaf) \/ p = (None, r)) /\ k = 1).
Proof.
  eapply pays_mono; [eapply pays_runs; [apply erases_trytake|apply runs_trytake]|]. cbn beta. intros c _ k ((e & _ & HP) & ->). auto.
Qed.
Lemma pays_s_select h lock l r :
  pays (select ops lock (node_class (inner l)) (node_class (inner r)) l r) h (fun sel _ k => selected lock l r sel /\ k <= 2).
Proof.
  eapply pays_mono; [eapply pays_runs; [apply erases_select|apply runs_select]|]. cbn beta. intros c _ k ((e & _ & HP) & HK). auto.
Qed.

Section Loop.
Context (drop : sref -> D (sstate X * nat) unit) (N : nat).
Local Notation A := (5 * N + 11).
Context (HD : forall r h, s_branch_count r <= N -> pays (drop r) h (fun _ _ k => k <= A * s_branch_count r + 2)).

Definition ahead (lock : option side) (top : node sref X) : nat := match lock with Some s => node_chain s top | None => N end.

Lemma pays_s_set h id own (v n : node sref X) : pays (r_set ops (SRef id own v) n) h (fun r' _ k => r' = SRef id true n /\ k = 1).
Proof.
  intros i. cbn [r_set counting shared_ops]. unfold counted, tick, d_bind, silent. cbn [fst snd]. destruct own; cbn; [|exact I].
  exists 1. split; [lia|auto].
Qed.
Lemma pays_s_loop : forall fuel lock top h, branches top <> None -> node_count top <= N ->
  pays (algo1_loop ops drop fuel lock top) h (fun _ _ k => k + A <= A * node_count top + 5 * ahead lock top + 9).
Proof.
  induction fuel as [|fuel IH]; intros lock top h HB HN; [apply pays_nofuel|].
  destruct (branches top) as [[l r]|] eqn:E; [|congruence]. destruct (DropSharedFacts.branch_facts _ E) as (C1 & _ & C3).
  cbn [algo1_loop]. rewrite E.
  eapply pays_bind; [apply pays_s_class|]. intros ? h1 ? (-> & ->).
  eapply pays_bind; [apply pays_s_class|]. intros ? h2 ? (-> & ->).
  eapply pays_bind; [apply pays_s_select|]. intros sel h3 k (HS & HK).
  pose proof (DropSharedFacts.count_inner l) as CL. pose proof (DropSharedFacts.count_inner r) as CR.
  assert (CN : forall s n, branches n <> None -> node_count n <= N -> 1 <= node_chain s n <= N).
  { intros s n Hn HNn. unfold DropSharedFacts.node_chain. unfold DropSharedFacts.node_count in HNn. destruct (branches n) as [[a b]|]; [|congruence].
    pose proof (chain_count s a). pose proof (chain_count s b). destruct s; lia. }
  destruct sel as [[[[[[|] d] reuse] oc] other]|[l' r']].
  - destruct HS as (-> & -> & -> & -> & HB' & HL). destruct (branches (inner l)) as [[sl sr]|] eqn:EL; [|congruence].
    destruct (DropSharedFacts.branch_facts _ EL) as (A1 & _ & A3). unfold node_class in HL |- *. destruct (branches (inner r)) as [[rl rr]|] eqn:ER.
    + eapply pays_bind; [apply pays_s_set|]. intros ? h4 ? (-> & ->).
      assert (EN : node_count (NList sl (SRef (ident l) true (NList sr r))) = node_count top).
      { unfold DropSharedFacts.node_count at 1. cbn [branches].
        change (s_branch_count (SRef (ident l) true (NList sr r))) with (S (s_branch_count sr + s_branch_count r)). lia. }
      assert (EC : S (node_chain Left (NList sl (SRef (ident l) true (NList sr r)))) = node_chain Left top).
      { rewrite (C3 Left). cbn beta iota. rewrite (DropSharedFacts.chain_inner Left l), (A3 Left). cbn beta iota. reflexivity. }
      eapply pays_mono; [apply IH; [discriminate|lia]|]. cbn beta. intros ? ? j. rewrite EN.
      pose proof (CN Left top ltac:(congruence) HN).
      destruct lock as [[]|]; cbn [ahead]; [lia|destruct HL; congruence|lia].
    + eapply pays_bind; [apply HD; lia|]. intros ? h4 i Hi. cbn beta in Hi.
      eapply pays_bind; [apply HD; cbn; lia|]. intros ? h5 j Hj. cbn beta in Hj. change (s_branch_count (SRef (ident l) true temp_leaf)) with 0 in Hj.
      eapply pays_mono; [apply IH; [congruence|lia]|]. cbn beta. cbn [ahead]. intros ? ? m Hm.
      assert (1 <= ahead lock top) by (destruct lock as [s|]; cbn [ahead]; [apply CN; [congruence|exact HN]|lia]).
      rewrite <- CL in Hm. rewrite C1. nia.
  - destruct HS as (-> & -> & -> & -> & HB' & HL). destruct (branches (inner r)) as [[sl sr]|] eqn:ER; [|congruence].
    destruct (DropSharedFacts.branch_facts _ ER) as (A1 & _ & A3). unfold node_class in HL |- *. destruct (branches (inner l)) as [[ll lr]|] eqn:EL.
    + eapply pays_bind; [apply pays_s_set|]. intros ? h4 ? (-> & ->).
      assert (EN : node_count (NList (SRef (ident r) true (NList l sl)) sr) = node_count top).
      { unfold DropSharedFacts.node_count at 1. cbn [branches].
        change (s_branch_count (SRef (ident r) true (NList l sl))) with (S (s_branch_count l + s_branch_count sl)). lia. }
      assert (EC : S (node_chain Right (NList (SRef (ident r) true (NList l sl)) sr)) = node_chain Right top).
      { rewrite (C3 Right). cbn beta iota. rewrite (DropSharedFacts.chain_inner Right r), (A3 Right). cbn beta iota. reflexivity. }
      eapply pays_mono; [apply IH; [discriminate|lia]|]. cbn beta. intros ? ? j. rewrite EN.
      pose proof (CN Right top ltac:(congruence) HN).
      destruct lock as [[]|]; cbn [ahead]; [destruct HL; congruence|lia|lia].
    + eapply pays_bind; [apply HD; lia|]. intros ? h4 i Hi. cbn beta in Hi.
      eapply pays_bind; [apply HD; cbn; lia|]. intros ? h5 j Hj. cbn beta in Hj. change (s_branch_count (SRef (ident r) true temp_leaf)) with 0 in Hj.
      eapply pays_mono; [apply IH; [congruence|lia]|]. cbn beta. cbn [ahead]. intros ? ? m Hm.
      assert (1 <= ahead lock top) by (destruct lock as [s|]; cbn [ahead]; [apply CN; [congruence|exact HN]|lia]).
      rewrite <- CR in Hm. rewrite C1. nia.
  - destruct HS as (-> & ->).
    eapply pays_bind; [apply HD; lia|]. intros ? h4 i Hi. cbn beta in Hi.
    eapply pays_mono; [apply HD; lia|]. cbn beta. intros ? ? m Hm.
    assert (1 <= ahead lock top) by (destruct lock as [s|]; cbn [ahead]; [apply CN; [congruence|exact HN]|lia]).
    rewrite C1. nia.
Qed.
End Loop.

Lemma pays_s_drop N fuel : forall depth r h, s_branch_count r <= N ->
  pays (s_work oracle fuel depth r) h (fun _ _ k => k <= (5 * N + 11) * s_branch_count r + 2).
Proof.
  induction depth as [|depth IH]; intros r h HN; [apply pays_nofuel|].
  eapply pays_bind with (P := fun r' _ k => (r' = r /\ k <= 2) \/ (r' = SRef (ident r) true temp_leaf /\ k <= (5 * N + 11) * s_branch_count r + 2)).
  - eapply pays_bind; [apply pays_s_class|]. intros ? h1 ? (-> & ->). unfold node_class.
    destruct (branches (inner r)) as [[a b]|] eqn:E; [|apply pays_ret; lia || auto].
    eapply pays_bind; [apply pays_s_take|]. intros p h2 ? ([->| ->] & ->); [|apply pays_ret; auto].
    eapply pays_bind.
    + apply pays_s_loop with (N := N); [exact IH|congruence|rewrite <- DropSharedFacts.count_inner; exact HN].
    + cbn beta. intros ? h3 k HK. apply pays_ret. right. split; [reflexivity|]. cbn [ahead] in HK. rewrite <- DropSharedFacts.count_inner in HK. lia.
  - assert (SL : forall A (m : D (sstate X) A) h, runs m (fun _ _ => True) -> pays (silent m) h (fun _ _ k => k = 0)).
    { intros A m h' HR. eapply pays_mono; [eapply pays_runs; [apply erases_silent|exact HR]|]. cbn. tauto. }
    assert (HE : forall e h', pays (silent (s_happens e)) h' (fun _ _ k => k = 0)).
    { intros e h'. apply SL. eapply runs_mono; [apply runs_happens|]. auto. }
    intros r' h1 k [[-> HK]|[-> HK]].
    + destruct r as [id own n]. eapply pays_bind with (P := fun _ _ k => k = 0).
      { destruct own; [apply pays_ret; reflexivity|]. apply SL. eapply runs_mono; [apply runs_ask|auto]. }
      intros [|] h2 ? ->; [|eapply pays_mono; [apply HE|]; cbn beta; intros; lia].
      eapply pays_bind with (P := fun _ _ j => j + 2 <= (5 * N + 11) * s_branch_count (SRef id own n) + 2).
      * destruct n as [a b|a b|[x|]].
        1, 2: cbn in HN; eapply pays_bind; [apply IH; lia|]; intros ? h3 i Hi; cbn beta in Hi; eapply pays_mono; [apply IH; lia|]; cbn beta; intros ? ? j Hj; cbn [s_branch_count]; lia.
        -- eapply pays_mono; [apply HE|]. cbn beta. intros; lia.
        -- apply pays_ret. lia.
      * cbn beta. intros ? h3 j Hj. eapply pays_mono; [apply HE|]. cbn beta. intros; lia.
    + eapply pays_bind with (P := fun (l : bool) _ k => l = true /\ k = 0); [apply pays_ret; auto|]. intros ? h2 ? (-> & ->).
      eapply pays_bind with (P := fun _ _ k => k = 0); [apply pays_ret; reflexivity|]. intros ? h3 ? ->.
      eapply pays_mono; [apply HE|]. cbn beta. intros; lia.
Qed.
End Shared.
