(** A list whose dropping takes quadratic work. *)
From Coq Require Import List Arith Lia Permutation Bool.
From Verif.Model Require Import Prelude Drop DropRc DropCost.
From Verif.Spec Require Import Drops.
From Verif.Proofs Require Import HeapFacts DropRcFacts DropDeep DropCostFacts.
Import ListNotations.
Set Implicit Arguments.

Section Long.
Context {X : Type}.
Local Notation heap := (heap X).
Local Notation node := (node nat X).
Local Notation Cell := (@Cell X).
Local Notation leaf := (@temp_leaf nat X).
Implicit Types (h : heap).

(** ** Chains to the right and to the left, with one shared branch (0) on the other
    side and at the end *)
Definition shared0 h (s : nat) : Prop := exists w n, branches n <> None /\ cell_at h 0 = Some (Cell (S (S s)) w (Some n)).
Fixpoint rl h (x : nat) (xs : list nat) : Prop :=
  match xs with
  | [] => x = 0
  | y :: ys => x = y /\ exists z, cell_at h y = Some (Cell 1 0 (Some (NList 0 z))) /\ rl h z ys
  end.
Fixpoint ll h (x : nat) (xs : list nat) : Prop :=
  match xs with
  | [] => x = 0
  | y :: ys => x = y /\ exists z, cell_at h y = Some (Cell 1 0 (Some (NList z 0))) /\ ll h z ys
  end.
Definition stays (xs : list nat) h h' : Prop := forall y c, In y xs -> cell_at h y = Some c -> cell_at h' y = Some c.
Lemma rl_stays h h' xs : stays xs h h' -> forall x, rl h x xs -> rl h' x xs.
Proof.
  induction xs as [|y ys IH]; intros HS x; [auto|]. intros (-> & z & E & HR). split; [reflexivity|]. exists z.
  split; [apply HS; [left; reflexivity|exact E]|]. apply IH; [|exact HR]. intros v c Hv. apply HS. right. exact Hv.
Qed.
Lemma ll_stays h h' xs : stays xs h h' -> forall x, ll h x xs -> ll h' x xs.
Proof.
  induction xs as [|y ys IH]; intros HS x; [auto|]. intros (-> & z & E & HR). split; [reflexivity|]. exists z.
  split; [apply HS; [left; reflexivity|exact E]|]. apply IH; [|exact HR]. intros v c Hv. apply HS. right. exact Hv.
Qed.
Lemma rl_live h xs : forall x y, rl h x xs -> In y xs -> exists c, cell_at h y = Some c.
Proof. induction xs as [|v vs IH]; intros x y; [contradiction|]. intros (-> & z & E & HR) [<-|HI]; eauto. Qed.
Lemma ll_live h xs : forall x y, ll h x xs -> In y xs -> exists c, cell_at h y = Some c.
Proof. induction xs as [|v vs IH]; intros x y; [contradiction|]. intros (-> & z & E & HR) [<-|HI]; eauto. Qed.
Lemma rl_class h s x xs : shared0 h s -> rl h x xs -> exists n, branches n <> None /\ node_at h x = Some n.
Proof.
  intros (w & n & HB & E0). destruct xs as [|y ys]; [intros ->; exists n; split; [exact HB|unfold node_at; rewrite E0; reflexivity]|].
  intros (-> & z & E & _). eexists. split; [|unfold node_at; rewrite E; reflexivity]. discriminate.
Qed.
Lemma ll_class h s x xs : shared0 h s -> ll h x xs -> exists n, branches n <> None /\ node_at h x = Some n.
Proof.
  intros (w & n & HB & E0). destruct xs as [|y ys]; [intros ->; exists n; split; [exact HB|unfold node_at; rewrite E0; reflexivity]|].
  intros (-> & z & E & _). eexists. split; [|unfold node_at; rewrite E; reflexivity]. discriminate.
Qed.

Context (arc : bool).
Local Notation ops := (counting (rc_ops (X := X) arc)).

(** ** The steps *)
Lemma pays_branch h x : (exists n, branches n <> None /\ node_at h x = Some n) -> pays (class_of ops x) h (fun c h' k => c = Branch /\ h' = h /\ k = 1).
Proof.
  intros (n & HB & EN). eapply pays_mono; [eapply pays_erases; [apply erases_class|apply (ends_class arc _ _ EN)]|]. cbn beta.
  intros c h' k ((-> & ->) & ->). apply class_branch in HB. auto.
Qed.
Lemma pays_take_fails h s : shared0 h s -> pays (trytake ops 0) h (fun p h' k => p = (None, 0) /\ (forall y c, cell_at h y = Some c -> cell_at h' y = Some c) /\ k = 1).
Proof.
  intros (w & n & _ & E). destruct (take_fails arc _ _ E) as (h' & T & HK).
  eapply pays_mono; [eapply pays_erases with (P := fun p h' => p = (None, 0) /\ (forall y c, cell_at h y = Some c -> cell_at h' y = Some c)); [apply erases_trytake|eauto 6]|].
  cbn beta. tauto.
Qed.
Lemma pays_take_ok h x n : cell_at h x = Some (Cell 1 0 (Some n)) ->
  pays (trytake ops x) h (fun p h' k => exists x', p = (Some n, x') /\ cell_at h' x' = Some (Cell 1 0 (Some leaf)) /\
    (forall y c, y <> x -> cell_at h y = Some c -> cell_at h' y = Some c /\ y <> x') /\ k = 1).
Proof.
  intros E. destruct (take_ok arc _ _ E) as (x' & h' & T & L & HK).
  eapply pays_mono; [eapply pays_erases with (P := fun p h' => exists x', p = (Some n, x') /\ cell_at h' x' = Some (Cell 1 0 (Some leaf)) /\
    (forall y c, y <> x -> cell_at h y = Some c -> cell_at h' y = Some c /\ y <> x')); [apply erases_trytake|do 2 eexists; split; [exact T|]; eauto 6]|].
  cbn beta. intros p h1 k ((x1 & A & B & C) & ->). eauto 6.
Qed.
Lemma pays_set h x v : cell_at h x = Some (Cell 1 0 (Some leaf)) ->
  pays (r_set ops x v) h (fun x' h' k => x' = x /\ cell_at h' x = Some (Cell 1 0 (Some v)) /\ (forall y c, y <> x -> cell_at h y = Some c -> cell_at h' y = Some c) /\ k = 1).
Proof.
  intros E. pose proof (set_ok _ _ v E) as S1.
  eapply pays_mono; [eapply pays_erases with (P := fun x' h' => x' = x /\ h' = upd h x (Some (Cell 1 0 (Some v)))); [apply erases_counted|do 2 eexists; split; [exact S1|auto]]|].
  cbn beta. intros ? ? k ((-> & ->) & ->). split; [reflexivity|]. split; [|split; [|reflexivity]].
  - rewrite (cell_at_upd _ _ _ _ E), Nat.eqb_refl. reflexivity.
  - intros y c HN Ey. rewrite (cell_at_upd _ _ _ _ E), (proj2 (Nat.eqb_neq _ _)) by exact HN. exact Ey.
Qed.

Lemma shared0_stays h h' s : shared0 h s -> (forall c, cell_at h 0 = Some c -> cell_at h' 0 = Some c) -> shared0 h' s.
Proof. intros (w & n & HB & E) HS. exists w, n. auto. Qed.

Definition least (k : nat) : nat := 2 * (k * (k - 1)).
Section Loop.
Context (drop : nat -> D (heap * nat) unit) (bound : nat).
Context (HZ : forall h s, shared0 h (S s) -> pays (drop 0) h (fun _ h' _ => shared0 h' s /\ forall y c, y <> 0 -> cell_at h y = Some c -> cell_at h' y = Some c)).
Context (HA : forall h x, pays (drop x) h (fun _ _ _ => True)).
Context (HR : forall h s x xs, shared0 h s -> rl h x xs -> NoDup (0 :: xs) -> length xs <= s -> length xs <= bound -> pays (drop x) h (fun _ _ k => least (length xs) <= k)).
Context (HL : forall h s x xs, shared0 h s -> ll h x xs -> NoDup (0 :: xs) -> length xs <= s -> length xs <= bound -> pays (drop x) h (fun _ _ k => least (length xs) <= k)).

(** A cell is taken and set anew: what the others see. *)
Lemma fresh_chain x xs ys x' : NoDup (0 :: (x :: xs) ++ ys) -> x' <> 0 -> (forall y, In y (xs ++ ys) -> y <> x') ->
  NoDup (0 :: xs ++ x' :: ys).
Proof.
  intros ND H0 HY. inversion ND as [|? ? N1 ND1]; subst. cbn in ND1. inversion ND1 as [|? ? N2 ND2]; subst.
  constructor.
  - intros HI. apply in_app_or in HI. cbn in HI. apply N1. cbn. destruct HI as [HI|[HI|HI]]; [right; apply in_or_app; auto|congruence|right; apply in_or_app; auto].
  - apply NoDup_Add with (l := xs ++ ys) (a := x'); [apply Add_app|]. split; [exact ND2|]. intros HI. exact (HY _ HI eq_refl).
Qed.

Lemma rphase : forall fuel xs h s a ys r, shared0 h (S s) -> rl h r xs -> ll h a ys -> NoDup (0 :: xs ++ ys) ->
  length xs + length ys <= s -> length xs + length ys <= bound ->
  pays (algo1_loop ops drop fuel (Some Right) (NList a r)) h (fun _ _ k => 4 * length xs + least (length xs + length ys) <= k).
Proof.
  induction fuel as [|fuel IH]; intros xs h s a ys r H0 Hr Ha ND HS HB; [apply pays_nofuel|]. cbn [algo1_loop branches].
  eapply pays_bind; [apply pays_branch, (ll_class _ _ H0 Ha)|]. intros ? ? ? (-> & -> & ->).
  eapply pays_bind; [apply pays_branch, (rl_class _ _ H0 Hr)|]. intros ? ? ? (-> & -> & ->). cbn [select].
  destruct xs as [|y xs].
  - cbn in Hr. subst r. eapply pays_bind with (P := fun sel h' k => sel = inr (a, 0) /\ (forall y c, cell_at h y = Some c -> cell_at h' y = Some c) /\ k = 1).
    { eapply pays_bind; [apply (pays_take_fails H0)|]. intros ? h1 ? (-> & K1 & ->). apply pays_ret. auto. }
    intros ? h1 ? (-> & K1 & ->). assert (H1 : shared0 h1 (S s)) by (eapply shared0_stays; eauto).
    eapply pays_bind; [apply (HZ H1)|]. intros ? h2 k (H2 & K2). cbn [app] in ND.
    eapply pays_mono; [eapply HL with (s := s) (xs := ys); [exact H2| |exact ND|cbn in HS; lia|cbn in HB; lia]|].
    + eapply ll_stays; [|exact Ha]. intros v c Hv Ev. apply K2; [|apply K1; exact Ev]. intros ->. inversion ND; contradiction.
    + cbn beta. intros ? ? j Hj. cbn [length Nat.add]. lia.
  - destruct Hr as (-> & z & Ey & Hr). assert (NY : y <> 0) by (intros ->; inversion ND as [|? ? N1 _]; apply N1; left; reflexivity).
    eapply pays_bind with (P := fun sel h' k => exists x', sel = inl (Right, NList 0 z, x', Branch, a) /\ cell_at h' x' = Some (Cell 1 0 (Some leaf)) /\
      (forall v c, v <> y -> cell_at h v = Some c -> cell_at h' v = Some c /\ v <> x') /\ k = 1).
    { eapply pays_bind; [apply (pays_take_ok _ _ Ey)|]. intros ? h1 ? (x' & -> & L1 & K1 & ->). apply pays_ret. eauto 6. }
    intros ? h1 ? (x' & -> & L1 & K1 & ->). cbn [branches].
    eapply pays_bind; [apply (pays_set _ _ _ L1)|]. intros ? h2 ? (-> & L2 & K2 & ->).
    assert (K12 : forall v c, v <> y -> cell_at h v = Some c -> cell_at h2 v = Some c /\ v <> x').
    { intros v c Nv Ev. destruct (K1 _ _ Nv Ev) as [A B]. split; [apply K2; auto|exact B]. }
    assert (ND0 : ~ In y (xs ++ ys)) by (inversion ND as [|? ? _ ND1]; inversion ND1; assumption).
    assert (N0 : x' <> 0) by (intros ->; destruct H0 as (w & n & _ & E0); destruct (K12 0 _ ltac:(congruence) E0) as [_ F]; congruence).
    assert (ST : forall l, incl l (xs ++ ys) -> stays l h h2).
    { intros l Hl v c Hv Ev. apply K12; [|exact Ev]. intros ->. apply ND0, Hl, Hv. }
    eapply pays_mono; [apply IH with (s := s) (xs := xs) (ys := x' :: ys)|].
    + eapply shared0_stays; [exact H0|]. intros c Ec. apply K12; [congruence|exact Ec].
    + eapply rl_stays; [|exact Hr]. apply ST. intros v Hv. apply in_or_app. auto.
    + split; [reflexivity|]. exists a. split; [exact L2|]. eapply ll_stays; [|exact Ha]. apply ST. intros v Hv. apply in_or_app. auto.
    + apply fresh_chain with (x := y); [exact ND|exact N0|]. intros v Hv ->. apply in_app_or in Hv.
      assert (LV : exists c, cell_at h x' = Some c) by (destruct Hv as [Hv|Hv]; [eapply rl_live; eauto|eapply ll_live; eauto]).
      destruct LV as (c & Ec). destruct (K12 x' c) as [_ F]; [|exact Ec|congruence]. intros ->. apply ND0, in_or_app. exact Hv.
    + cbn in HS |- *. lia.
    + cbn in HB |- *. lia.
    + cbn beta. intros ? ? j Hj. cbn [length] in *. replace (S (length xs) + length ys) with (length xs + S (length ys)) by lia. lia.
Qed.
Lemma lphase : forall fuel xs h s b ys l, shared0 h (S s) -> ll h l xs -> rl h b ys -> NoDup (0 :: xs ++ ys) ->
  length xs + length ys <= s -> length xs + length ys <= bound ->
  pays (algo1_loop ops drop fuel (Some Left) (NList l b)) h (fun _ _ k => 4 * length xs + least (length xs + length ys) <= k).
Proof.
  induction fuel as [|fuel IH]; intros xs h s b ys l H0 Hl Hb ND HS HB; [apply pays_nofuel|]. cbn [algo1_loop branches].
  eapply pays_bind; [apply pays_branch, (ll_class _ _ H0 Hl)|]. intros ? ? ? (-> & -> & ->).
  eapply pays_bind; [apply pays_branch, (rl_class _ _ H0 Hb)|]. intros ? ? ? (-> & -> & ->). cbn [select].
  destruct xs as [|y xs].
  - cbn in Hl. subst l. eapply pays_bind with (P := fun sel h' k => sel = inr (0, b) /\ (forall y c, cell_at h y = Some c -> cell_at h' y = Some c) /\ k = 1).
    { eapply pays_bind; [apply (pays_take_fails H0)|]. intros ? h1 ? (-> & K1 & ->). apply pays_ret. auto. }
    intros ? h1 ? (-> & K1 & ->). assert (H1 : shared0 h1 (S s)) by (eapply shared0_stays; eauto). cbn [app] in ND.
    eapply pays_bind; [eapply HR with (s := S s) (xs := ys); [exact H1| |exact ND|cbn in HS; lia|cbn in HB; lia]|].
    { eapply rl_stays; [|exact Hb]. intros v c Hv Ev. apply K1. exact Ev. }
    intros ? h2 k Hk. cbn beta in Hk. eapply pays_mono; [apply HA|]. cbn beta. intros ? ? j _. cbn [length Nat.add]. lia.
  - destruct Hl as (-> & z & Ey & Hl). assert (NY : y <> 0) by (intros ->; inversion ND as [|? ? N1 _]; apply N1; left; reflexivity).
    eapply pays_bind with (P := fun sel h' k => exists x', sel = inl (Left, NList z 0, x', Branch, b) /\ cell_at h' x' = Some (Cell 1 0 (Some leaf)) /\
      (forall v c, v <> y -> cell_at h v = Some c -> cell_at h' v = Some c /\ v <> x') /\ k = 1).
    { eapply pays_bind; [apply (pays_take_ok _ _ Ey)|]. intros ? h1 ? (x' & -> & L1 & K1 & ->). apply pays_ret. eauto 6. }
    intros ? h1 ? (x' & -> & L1 & K1 & ->). cbn [branches].
    eapply pays_bind; [apply (pays_set _ _ _ L1)|]. intros ? h2 ? (-> & L2 & K2 & ->).
    assert (K12 : forall v c, v <> y -> cell_at h v = Some c -> cell_at h2 v = Some c /\ v <> x').
    { intros v c Nv Ev. destruct (K1 _ _ Nv Ev) as [A B]. split; [apply K2; auto|exact B]. }
    assert (ND0 : ~ In y (xs ++ ys)) by (inversion ND as [|? ? _ ND1]; inversion ND1; assumption).
    assert (N0 : x' <> 0) by (intros ->; destruct H0 as (w & n & _ & E0); destruct (K12 0 _ ltac:(congruence) E0) as [_ F]; congruence).
    assert (ST : forall l, incl l (xs ++ ys) -> stays l h h2).
    { intros l Hi v c Hv Ev. apply K12; [|exact Ev]. intros ->. apply ND0, Hi, Hv. }
    eapply pays_mono; [apply IH with (s := s) (xs := xs) (ys := x' :: ys)|].
    + eapply shared0_stays; [exact H0|]. intros c Ec. apply K12; [congruence|exact Ec].
    + eapply ll_stays; [|exact Hl]. apply ST. intros v Hv. apply in_or_app. auto.
    + split; [reflexivity|]. exists b. split; [exact L2|]. eapply rl_stays; [|exact Hb]. apply ST. intros v Hv. apply in_or_app. auto.
    + apply fresh_chain with (x := y); [exact ND|exact N0|]. intros v Hv ->. apply in_app_or in Hv.
      assert (LV : exists c, cell_at h x' = Some c) by (destruct Hv as [Hv|Hv]; [eapply ll_live; eauto|eapply rl_live; eauto]).
      destruct LV as (c & Ec). destruct (K12 x' c) as [_ F]; [|exact Ec|congruence]. intros ->. apply ND0, in_or_app. exact Hv.
    + cbn in HS |- *. lia.
    + cbn in HB |- *. lia.
    + cbn beta. intros ? ? j Hj. cbn [length] in *. replace (S (length xs) + length ys) with (length xs + S (length ys)) by lia. lia.
Qed.
End Loop.

(** ** Dropping *)
Lemma pays_any B A (m' : D (heap * nat) A) (m : D heap A) h : erases B m' m -> pays m' h (fun _ _ _ => True).
Proof.
  intros HE n. specialize (HE h n). destruct (m h) as [[a h']|e| |]; try (rewrite HE; exact I). destruct HE as (k & -> & _). eauto.
Qed.
Lemma drop_any fuel depth x h : pays (rc_work arc fuel depth x) h (fun _ _ _ => True).
Proof. eapply pays_any. apply erases_rc. Qed.
Lemma drop_zero fuel depth h s : shared0 h (S s) -> pays (rc_work arc fuel depth 0) h
  (fun _ h' _ => shared0 h' s /\ forall y c, y <> 0 -> cell_at h y = Some c -> cell_at h' y = Some c).
Proof.
  intros H0. destruct depth as [|depth]; [apply pays_nofuel|]. cbn [rc_work].
  eapply pays_bind with (P := fun x h' k => x = 0 /\ forall y c, cell_at h y = Some c -> cell_at h' y = Some c).
  - eapply pays_bind; [apply pays_branch; eapply (@rl_class h _ 0 [] H0); reflexivity|]. intros ? ? ? (-> & -> & ->).
    eapply pays_bind; [apply (pays_take_fails H0)|]. intros ? h1 ? (-> & K1 & ->). apply pays_ret. auto.
  - intros ? h1 k (-> & K1). destruct H0 as (w & n & HB & E0). pose proof (K1 _ _ E0) as E1.
    eapply pays_bind; [eapply pays_erases; [apply erases_silent|apply (ends_read _ _ E1)]|]. cbn beta. intros ? ? ? ((-> & ->) & ->).
    eapply pays_mono; [eapply pays_erases; [apply erases_silent|apply ends_write]|]. cbn beta. intros ? ? j (-> & ->). split.
    + exists w, n. split; [exact HB|]. rewrite (cell_at_upd _ _ _ _ E1), Nat.eqb_refl. reflexivity.
    + intros y c Ny Ey. rewrite (cell_at_upd _ _ _ _ E1), (proj2 (Nat.eqb_neq _ _)) by exact Ny. auto.
Qed.
Lemma pays_rest fuel depth h x P (Q : nat -> Prop) : (forall i j, Q i -> Q (i + j)) ->
  pays (algo1 ops (rc_work arc fuel depth) fuel x) h P -> (forall a h' k, P a h' k -> Q k) ->
  pays (rc_work arc fuel (S depth) x) h (fun _ _ k => Q k).
Proof.
  intros HQ HP HPQ. rewrite rc_work_step. eapply pays_bind; [exact HP|]. intros x' h' k Hk. apply HPQ in Hk.
  eapply pays_mono; [eapply pays_any, erases_rest; intros; apply erases_rc|]. cbn beta. intros. apply HQ. exact Hk.
Qed.

(** What is left to the phases, whatever the first step. *)
Lemma drop_chain fuel : forall depth,
  (forall h s x xs, shared0 h s -> rl h x xs -> NoDup (0 :: xs) -> length xs <= s -> pays (rc_work arc fuel depth x) h (fun _ _ k => least (length xs) <= k)) /\
  (forall h s x xs, shared0 h s -> ll h x xs -> NoDup (0 :: xs) -> length xs <= s -> pays (rc_work arc fuel depth x) h (fun _ _ k => least (length xs) <= k)).
Proof.
  induction depth as [|depth [IR IL]]; [split; intros; apply pays_nofuel|].
  assert (PR : forall xs h s a ys r, shared0 h (S s) -> rl h r xs -> ll h a ys -> NoDup (0 :: xs ++ ys) -> length xs + length ys <= s ->
    forall fuel', pays (algo1_loop ops (rc_work arc fuel depth) fuel' (Some Right) (NList a r)) h (fun _ _ k => 4 * length xs + least (length xs + length ys) <= k)).
  { intros xs h s a ys r A1 A2 A3 A4 A5 fuel'. apply rphase with (bound := length xs + length ys) (s := s); auto.
    - intros. apply drop_zero. assumption.
    - intros h0 s0 x0 xs0 B1 B2 B3 B4 _. apply (IL _ _ _ _ B1 B2 B3 B4). }
  assert (PL : forall xs h s b ys l, shared0 h (S s) -> ll h l xs -> rl h b ys -> NoDup (0 :: xs ++ ys) -> length xs + length ys <= s ->
    forall fuel', pays (algo1_loop ops (rc_work arc fuel depth) fuel' (Some Left) (NList l b)) h (fun _ _ k => 4 * length xs + least (length xs + length ys) <= k)).
  { intros xs h s b ys l A1 A2 A3 A4 A5 fuel'. apply lphase with (bound := length xs + length ys) (s := s); auto.
    - intros. apply drop_any.
    - intros h0 s0 x0 xs0 B1 B2 B3 B4 _. apply (IR _ _ _ _ B1 B2 B3 B4). }
  split; intros h s x xs H0 Hx ND HS.
  - destruct xs as [|y [|y2 xs]]; [eapply pays_mono; [apply drop_any|]; cbn; intros; lia|eapply pays_mono; [apply drop_any|]; cbn; intros; lia|].
    destruct s as [|s]; [cbn in HS; lia|].
    eapply pays_rest with (Q := fun k => least (length (y :: y2 :: xs)) <= k); [intros; lia| |intros a h' k Hk; exact Hk].
    destruct Hx as (-> & z & Ey & Hz).
    eapply pays_bind; [apply pays_branch; eexists; split; [|unfold node_at; rewrite Ey; reflexivity]; discriminate|]. intros ? ? ? (-> & -> & ->).
    eapply pays_bind; [apply (pays_take_ok _ _ Ey)|]. intros ? h1 ? (x1 & -> & L1 & K1 & ->).
    assert (N0 : y <> 0) by (intros ->; inversion ND as [|? ? N1 _]; apply N1; left; reflexivity).
    assert (H1 : shared0 h1 (S s)) by (eapply shared0_stays; [exact H0|]; intros c Ec; apply K1; [congruence|exact Ec]).
    assert (ND1 : NoDup (y2 :: xs) /\ ~ In y (y2 :: xs) /\ NoDup (0 :: y2 :: xs)).
    { inversion ND as [|? ? A1 A2]. inversion A2. repeat split; auto. constructor; auto. intros HI. apply A1. right. exact HI. }
    destruct ND1 as (ND1 & NY & ND0).
    assert (Hz1 : rl h1 z (y2 :: xs)) by (eapply rl_stays; [|exact Hz]; intros v c Hv Ev; apply K1; [intros ->; contradiction|exact Ev]).
    destruct Hz1 as (-> & z2 & E2 & Hz2).
    eapply pays_bind with (P := fun _ _ k => 5 + 4 * length xs + least (length xs + 1) <= k).
    2:{ intros ? h2 k Hk. apply pays_ret. unfold least in *. cbn [length] in *. nia. }
    destruct fuel as [|fuel']; [apply pays_nofuel|]. remember (rc_work arc (S fuel') depth) as drop eqn:ED. cbn [algo1_loop branches].
    eapply pays_bind; [apply pays_branch; eapply (@rl_class h1 _ 0 [] H1); reflexivity|]. intros ? ? ? (-> & -> & ->).
    eapply pays_bind; [apply pays_branch; eexists; split; [|unfold node_at; rewrite E2; reflexivity]; discriminate|]. intros ? ? ? (-> & -> & ->). cbn [select].
    assert (N2 : y2 <> 0) by (intros ->; inversion ND0 as [|? ? A1 _]; apply A1; left; reflexivity).
    eapply pays_bind with (P := fun sel h' k => exists x', sel = inl (Right, NList 0 z2, x', Branch, 0) /\ cell_at h' x' = Some (Cell 1 0 (Some leaf)) /\
      (forall v c, v <> y2 -> cell_at h1 v = Some c -> cell_at h' v = Some c /\ v <> x') /\ k = 2).
    { eapply pays_bind; [apply (pays_take_fails H1)|]. intros ? h2 ? (-> & K2 & ->).
      eapply pays_bind; [apply (pays_take_ok _ _ (K2 _ _ E2))|]. intros ? h3 ? (x' & -> & L3 & K3 & ->). apply pays_ret. exists x'. eauto 6. }
    intros ? h3 ? (x' & -> & L3 & K3 & ->). cbn [branches].
    eapply pays_bind; [apply (pays_set _ _ _ L3)|]. intros ? h4 ? (-> & L4 & K4 & ->).
    assert (K34 : forall v c, v <> y2 -> cell_at h1 v = Some c -> cell_at h4 v = Some c /\ v <> x').
    { intros v c Nv Ev. destruct (K3 _ _ Nv Ev) as [A B]. split; [apply K4; auto|exact B]. }
    assert (NX : x' <> 0) by (intros ->; destruct H1 as (w & n & _ & E0); destruct (K34 0 _ ltac:(congruence) E0) as [_ F]; congruence).
    assert (NY2 : ~ In y2 xs) by (inversion ND1; assumption).
    eapply pays_mono; [apply PR with (s := s) (xs := xs) (ys := [x'])|].
    + eapply shared0_stays; [exact H1|]. intros c Ec. apply K34; [congruence|exact Ec].
    + eapply rl_stays; [|exact Hz2]. intros v c Hv Ev. apply K34; [intros ->; contradiction|exact Ev].
    + split; [reflexivity|]. exists 0. split; [exact L4|reflexivity].
    + apply fresh_chain with (x := y2); [rewrite app_nil_r; exact ND0|exact NX|]. intros v Hv ->. rewrite app_nil_r in Hv.
      destruct (@rl_live h1 xs _ _ Hz2 Hv) as (c & Ec). destruct (K34 x' c) as [_ F]; [intros ->; contradiction|exact Ec|congruence].
    + cbn in HS |- *. lia.
    + cbn beta. cbn [length]. intros. lia.
  - destruct xs as [|y [|y2 xs]]; [eapply pays_mono; [apply drop_any|]; cbn; intros; lia|eapply pays_mono; [apply drop_any|]; cbn; intros; lia|].
    destruct s as [|s]; [cbn in HS; lia|].
    eapply pays_rest with (Q := fun k => least (length (y :: y2 :: xs)) <= k); [intros; lia| |intros a h' k Hk; exact Hk].
    destruct Hx as (-> & z & Ey & Hz).
    eapply pays_bind; [apply pays_branch; eexists; split; [|unfold node_at; rewrite Ey; reflexivity]; discriminate|]. intros ? ? ? (-> & -> & ->).
    eapply pays_bind; [apply (pays_take_ok _ _ Ey)|]. intros ? h1 ? (x1 & -> & L1 & K1 & ->).
    assert (N0 : y <> 0) by (intros ->; inversion ND as [|? ? N1 _]; apply N1; left; reflexivity).
    assert (H1 : shared0 h1 (S s)) by (eapply shared0_stays; [exact H0|]; intros c Ec; apply K1; [congruence|exact Ec]).
    assert (ND1 : NoDup (y2 :: xs) /\ ~ In y (y2 :: xs) /\ NoDup (0 :: y2 :: xs)).
    { inversion ND as [|? ? A1 A2]. inversion A2. repeat split; auto. constructor; auto. intros HI. apply A1. right. exact HI. }
    destruct ND1 as (ND1 & NY & ND0).
    assert (Hz1 : ll h1 z (y2 :: xs)) by (eapply ll_stays; [|exact Hz]; intros v c Hv Ev; apply K1; [intros ->; contradiction|exact Ev]).
    destruct Hz1 as (-> & z2 & E2 & Hz2).
    eapply pays_bind with (P := fun _ _ k => 4 + 4 * length xs + least (length xs + 1) <= k).
    2:{ intros ? h2 k Hk. apply pays_ret. unfold least in *. cbn [length] in *. nia. }
    destruct fuel as [|fuel']; [apply pays_nofuel|]. remember (rc_work arc (S fuel') depth) as drop eqn:ED. cbn [algo1_loop branches].
    eapply pays_bind; [apply pays_branch; eexists; split; [|unfold node_at; rewrite E2; reflexivity]; discriminate|]. intros ? ? ? (-> & -> & ->).
    eapply pays_bind; [apply pays_branch; eapply (@rl_class h1 _ 0 [] H1); reflexivity|]. intros ? ? ? (-> & -> & ->). cbn [select].
    assert (N2 : y2 <> 0) by (intros ->; inversion ND0 as [|? ? A1 _]; apply A1; left; reflexivity).
    eapply pays_bind with (P := fun sel h' k => exists x', sel = inl (Left, NList z2 0, x', Branch, 0) /\ cell_at h' x' = Some (Cell 1 0 (Some leaf)) /\
      (forall v c, v <> y2 -> cell_at h1 v = Some c -> cell_at h' v = Some c /\ v <> x') /\ k = 1).
    { eapply pays_bind; [apply (pays_take_ok _ _ E2)|]. intros ? h3 ? (x' & -> & L3 & K3 & ->). apply pays_ret. exists x'. eauto 6. }
    intros ? h3 ? (x' & -> & L3 & K3 & ->). cbn [branches].
    eapply pays_bind; [apply (pays_set _ _ _ L3)|]. intros ? h4 ? (-> & L4 & K4 & ->).
    assert (K34 : forall v c, v <> y2 -> cell_at h1 v = Some c -> cell_at h4 v = Some c /\ v <> x').
    { intros v c Nv Ev. destruct (K3 _ _ Nv Ev) as [A B]. split; [apply K4; auto|exact B]. }
    assert (NX : x' <> 0) by (intros ->; destruct H1 as (w & n & _ & E0); destruct (K34 0 _ ltac:(congruence) E0) as [_ F]; congruence).
    assert (NY2 : ~ In y2 xs) by (inversion ND1; assumption).
    eapply pays_mono; [apply PL with (s := s) (xs := xs) (ys := [x'])|].
    + eapply shared0_stays; [exact H1|]. intros c Ec. apply K34; [congruence|exact Ec].
    + eapply ll_stays; [|exact Hz2]. intros v c Hv Ev. apply K34; [intros ->; contradiction|exact Ev].
    + split; [reflexivity|]. exists 0. split; [exact L4|reflexivity].
    + apply fresh_chain with (x := y2); [rewrite app_nil_r; exact ND0|exact NX|]. intros v Hv ->. rewrite app_nil_r in Hv.
      destruct (@ll_live h1 xs _ _ Hz2 Hv) as (c & Ec). destruct (K34 x' c) as [_ F]; [intros ->; contradiction|exact Ec|congruence].
    + cbn in HS |- *. lia.
    + cbn beta. cbn [length]. intros. lia.
Qed.

(** ** The list *)
(** A shared branch (0) of a shared leaf (1), and a list (2 to [n + 2]) whose elements
    all are that branch, as is its tail. *)
Definition next_of (j : nat) : nat := if j =? 2 then 0 else j - 1.
Definition long (n : nat) : heap :=
  Heap (Some (Cell (n + 3) 0 (Some (NList 1 1))) :: Some (Cell 2 0 (Some (NLeaf None))) ::
    map (fun j => Some (Cell 1 0 (Some (NList 0 (next_of j))))) (seq 2 (n + 1))) [].
Lemma long_length n : length (cells (long n)) = n + 3.
Proof. cbn. rewrite map_length, seq_length. lia. Qed.
Lemma long_chain n j : 2 <= j <= n + 2 -> cell_at (long n) j = Some (Cell 1 0 (Some (NList 0 (next_of j)))).
Proof.
  intros Hj. unfold cell_at. destruct j as [|[|j]]; [lia|lia|]. cbn [long cells nth_error].
  rewrite (map_nth_error _ _ _ (d := S (S j))); [reflexivity|].
  rewrite nth_error_nth' with (d := 0) by (rewrite seq_length; lia). rewrite seq_nth by lia. reflexivity.
Qed.
Lemma long_cases n x c : cell_at (long n) x = Some c ->
  (x = 0 /\ c = Cell (n + 3) 0 (Some (NList 1 1))) \/ (x = 1 /\ c = Cell 2 0 (Some (NLeaf None))) \/
  (2 <= x <= n + 2 /\ c = Cell 1 0 (Some (NList 0 (next_of x)))).
Proof.
  intros E. destruct x as [|[|x]]; [injection E; auto|injection E; auto|].
  pose proof (cell_at_length _ _ E) as HL. rewrite long_length in HL. rewrite long_chain in E by lia. injection E as <-. right. right. split; [lia|reflexivity].
Qed.
Lemma long_edges n : edges (long n) = [1; 1] ++ flat_map (fun j => [0; next_of j]) (seq 2 (n + 1)).
Proof.
  unfold edges. rewrite of_all_onto. cbn [long cells]. cbn [flat_map onto value kids branches app].
  do 2 f_equal. rewrite !flat_map_concat_map, map_map. reflexivity.
Qed.
Lemma count_long x : forall k, count (flat_map (fun j => [0; next_of j]) (seq 2 k)) x =
  (if x =? 0 then k + (if k =? 0 then 0 else 1) else 0) + (if (2 <=? x) && (x <? k + 1) then 1 else 0).
Proof.
  induction k as [|k IH]; [rewrite count_nil; destruct (x =? 0); destruct (Nat.leb_spec 2 x), (Nat.ltb_spec x (0 + 1)); cbn; lia|].
  rewrite seq_S, flat_map_app, count_app, IH. cbn [flat_map app]. rewrite !count_cons, count_nil. unfold next_of.
  destruct (Nat.eqb_spec (2 + k) 2), (Nat.eqb_spec 0 x), (Nat.eqb_spec x 0), (Nat.eqb_spec k 0), (Nat.eqb_spec (S k) 0), (Nat.eqb_spec (2 + k - 1) x),
    (Nat.leb_spec 2 x), (Nat.ltb_spec x (k + 1)), (Nat.ltb_spec x (S k + 1)); cbn; lia.
Qed.
Lemma long_refs n x : refs [n + 2; 0] (long n) x = match x with 0 => n + 3 | 1 => 2 | _ => if x <? n + 3 then 1 else 0 end.
Proof.
  rewrite refs_count, long_edges. repeat rewrite ?count_app, ?count_cons, ?count_nil. rewrite (count_long x).
  destruct x as [|[|x]].
  - rewrite (proj2 (Nat.eqb_neq (n + 2) 0)) by lia. rewrite (proj2 (Nat.eqb_neq (n + 1) 0)) by lia. cbn. lia.
  - rewrite (proj2 (Nat.eqb_neq (n + 2) 1)) by lia. cbn. lia.
  - destruct (Nat.eqb_spec (n + 2) (S (S x))), (Nat.ltb_spec (S (S x)) (n + 3)), (Nat.leb_spec 2 (S (S x))), (Nat.ltb_spec (S (S x)) (n + 1 + 1)); cbn; lia.
Qed.
Lemma long_consistent n : consistent (long n) [n + 2; 0].
Proof.
  split.
  - intros x c E. rewrite long_refs. destruct (long_cases _ _ E) as [(-> & ->)|[(-> & ->)|(Hx & ->)]]; cbn [strong value].
    + split; [reflexivity|]. split; [discriminate|lia].
    + split; [reflexivity|]. split; discriminate.
    + destruct x as [|[|x]]; [lia|lia|]. rewrite (proj2 (Nat.ltb_lt _ _)) by lia. split; [reflexivity|]. split; discriminate.
  - intros x HI. apply count_In in HI. change (0 < refs [n + 2; 0] (long n) x) in HI. rewrite long_refs in HI.
    unfold node_at. destruct x as [|[|x]]; [discriminate|discriminate|].
    destruct (Nat.ltb_spec (S (S x)) (n + 3)); [|lia]. rewrite long_chain by lia. discriminate.
  - exists (fun x => match x with 0 => 1 | 1 => 0 | _ => x end). intros x m y. unfold node_at.
    destruct (cell_at (long n) x) as [c|] eqn:E; [|discriminate].
    destruct (long_cases _ _ E) as [(-> & ->)|[(-> & ->)|(Hx & ->)]]; cbn [value]; intros [= <-] HI; cbn in HI.
    + destruct HI as [<-|[<-|[]]]; lia.
    + contradiction.
    + destruct x as [|[|x]]; [lia|lia|]. unfold next_of in HI. destruct HI as [<-|[<-|[]]]; [lia|].
      destruct (Nat.eqb_spec (S (S x)) 2); [lia|]. cbn. destruct x; lia.
Qed.
Lemma long_rl n : forall k, k <= n -> rl (long n) (k + 2) (rev (seq 2 (k + 1))).
Proof.
  induction k as [|k IH]; intros Hk.
  - cbn. split; [reflexivity|]. exists 0. split; [apply (@long_chain n 2); lia|reflexivity].
  - replace (S k + 1) with (S (k + 1)) by lia. rewrite seq_S, rev_app_distr. cbn [rev app]. split; [lia|]. exists (k + 2). split.
    + rewrite long_chain by lia. unfold next_of. rewrite (proj2 (Nat.eqb_neq _ _)) by lia. do 4 f_equal. lia.
    + apply IH. lia.
Qed.
Theorem long_work n fuel depth h' w : rc_work arc fuel depth (n + 2) (long n, 0) = Ok (tt, (h', w)) -> 2 * ((n + 1) * n) <= w.
Proof.
  intros E. destruct (drop_chain fuel depth) as [HR _].
  assert (H0 : shared0 (long n) (n + 1)).
  { exists 0, (NList 1 1). split; [discriminate|]. unfold long, cell_at. cbn [cells nth_error]. do 3 f_equal. lia. }
  pose proof (HR _ _ _ _ H0 (long_rl (le_n n))) as P. rewrite rev_length, seq_length in P.
  assert (ND : NoDup (0 :: rev (seq 2 (n + 1)))).
  { constructor; [rewrite <- in_rev, in_seq; lia|]. apply NoDup_rev, seq_NoDup. }
  specialize (P ND (le_n _) 0). rewrite E in P. destruct P as (k & -> & P). unfold least in P. replace (n + 1 - 1) with n in P by lia. exact P.
Qed.
End Long.
