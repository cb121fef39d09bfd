(** The work of dropping counted references to what is not shared. *)
From Coq Require Import List Arith Lia Permutation Bool.
From Verif.Model Require Import Prelude Drop DropRc DropCost.
From Verif.Spec Require Import Drops.
From Verif.Proofs Require Import HeapFacts DropRcFacts DropDeep DropRcDepth DropCostFacts DropCostRc.
Import ListNotations.
Set Implicit Arguments.

Lemma pays_and H A (m : D (H * nat) A) h (P Q : A -> H -> nat -> Prop) : pays m h P -> pays m h Q ->
  pays m h (fun a h' k => P a h' k /\ Q a h' k).
Proof.
  intros HP HQ n. specialize (HP n). specialize (HQ n). destruct (m (h, n)) as [[a [h' n']]|e| |]; auto.
  destruct HP as (k & -> & HP), HQ as (k' & E & HQ). assert (k' = k) as -> by lia. eauto.
Qed.

Section Unshared.
Context {X : Type}.
Local Notation heap := (heap X).
Local Notation node := (node nat X).
Local Notation Cell := (@Cell X).
Local Notation leaf := (@temp_leaf nat X).
Local Notation bc := (@bc X).
Local Notation after := (@after X).
Implicit Types (h : heap) (K : list nat).

(** The number of branches that follow each other to the right. *)
Inductive chain h : nat -> nat -> Prop :=
| ch_leaf x n : node_at h x = Some n -> branches n = None -> chain h x 0
| ch_branch x n l r m : node_at h x = Some n -> branches n = Some (l, r) -> chain h r m -> chain h x (S m).
Lemma chain_frame K h h' x m : frame K h h' -> reach h K x -> chain h x m -> chain h' x m.
Proof.
  intros HF HR HP. revert HR. induction HP as [x n E EB|x n l r m E EB HP IH]; intros HR.
  - apply ch_leaf with (n := n); [rewrite HF; assumption|exact EB].
  - apply ch_branch with (n := n) (l := l) (r := r); [rewrite HF; assumption|exact EB|]. apply IH.
    eapply reach_kid; [exact HR|exact E|]. rewrite (branches_kids _ EB). cbn. auto.
Qed.
Lemma chain_exists h K : consistent h K -> forall x, node_at h x <> None -> exists m, chain h x m.
Proof.
  intros HC. destruct HC as [_ HR [rank HA]].
  assert (G : forall k x, rank x <= k -> node_at h x <> None -> exists m, chain h x m).
  { induction k as [|k IH]; intros x HL HN; (destruct (node_at h x) as [n|] eqn:E; [|congruence]);
      (destruct (branches n) as [[l r]|] eqn:EB; [|exists 0; eapply ch_leaf; eassumption]).
    all: assert (Hr : In r (kids n)) by (rewrite (branches_kids _ EB); cbn; auto); pose proof (HA _ _ _ E Hr).
    - lia.
    - destruct (IH r) as (m & Hm); [lia| |exists (S m); eapply ch_branch; eassumption].
      apply HR. apply in_or_app. right. eapply node_at_edges; eassumption. }
  intros x HN. eapply G; [apply le_n|exact HN].
Qed.

Lemma set_same h x n : cell_at h x = Some (Cell 1 0 (Some leaf)) ->
  ends (rc_set x n) h (fun _ h' => forall y, y <> x -> node_at h' y = node_at h y).
Proof.
  intros E. eapply ends_bind with (P := fun m h' => m = leaf /\ h' = upd h x (Some (Cell 1 0 (Some n)))).
  { unfold get_mut_replace. eapply ends_bind; [apply (ends_read _ _ E)|]. intros ? ? (-> & ->).
    eapply ends_bind; [apply ends_write|]. intros ? ? ->. apply ends_ret. auto. }
  intros ? ? (-> & ->). apply ends_ret. intros y HN. unfold node_at. rewrite (cell_at_upd _ _ _ _ E).
  destruct (Nat.eqb_spec y x); [contradiction|]. reflexivity.
Qed.

Section Others.
Context (p : nat -> bool) (K0 : list nat).
Local Notation T := (T p).
Local Notation shielded := (shielded p K0).
Local Notation after_t := (after_t p).

(** The left side is preferred, and it is always had. *)
Lemma select_left arc lock l r (nl nr : node) h K : lock <> Some Right -> consistent h (l :: r :: K) -> node_at h l = Some nl ->
  branches nl <> None -> wt h [l] = 0 ->
  ends (select (rc_ops arc) lock (node_class nl) (node_class nr) l r) h
    (fun sel _ => match sel with inl (Left, _, _, _, _) => True | _ => False end).
Proof.
  intros HL HC EN HB HW. destruct (branches nl) as [[sl sr]|] eqn:EL; [|congruence].
  assert (G : forall B (k : option node * nat -> H (X := X) B) (Q : B -> heap -> Prop),
    (forall d x' h', ends (k (Some d, x')) h' Q) -> ends (d_bind (trytake (rc_ops arc) l) k) h Q).
  { intros B k Q HK. eapply ends_bind; [apply (ends_trytake arc HC EN); congruence|]. intros [[d|] x'] h' HT; [apply HK|].
    exfalso. destruct HT as (_ & _ & _ & _ & _ & R). assert (HB' : branches nl <> None) by congruence.
    pose proof (failed_shared HC EN HB' R). lia. }
  unfold node_class at 1. rewrite EL.
  destruct lock as [[]|], (node_class nr); cbn [select]; try congruence; apply G; intros; apply ends_ret; exact I.
Qed.

Section Loop.
Context (arc : bool) (drop : nat -> D (heap * nat) unit) (bound : nat).
Local Notation ops := (counting (rc_ops (X := X) arc)).
Context (HD : forall h K x n, consistent h (x :: K) -> shielded h -> incl K0 K -> bc h <= bound -> node_at h x = Some n ->
  branches n = None -> pays (drop x) h (fun u h' k => after_t K h u h' /\ k <= 1)).

Lemma pays_unshared_loop : forall fuel lock top h K l r m, lock <> Some Right -> branches top = Some (l, r) ->
  consistent h (l :: r :: K) -> shielded h -> incl K0 K -> bc h <= bound -> T h = 0 -> wt h [l] = 0 -> wt h [r] = 0 -> chain h r m ->
  pays (algo1_loop ops drop fuel lock top) h (fun u h' k => after K h u h' /\ k + 5 * S m + 11 * bc h' <= 11 * S (bc h)).
Proof.
  induction fuel as [|fuel IH]; intros lock top h K l r m HLk EB HC HS HI HN HT HWl HWr HM; [apply pays_nofuel|].
  assert (NL : exists nl, node_at h l = Some nl).
  { destruct (consistent_live l HC (or_introl eq_refl)) as (s & w & n & E). exists n. unfold node_at. rewrite E. reflexivity. }
  assert (NR : exists nr, node_at h r = Some nr).
  { destruct (consistent_live r HC (or_intror (or_introl eq_refl))) as (s & w & n & E). exists n. unfold node_at. rewrite E. reflexivity. }
  destruct NL as (nl & NL), NR as (nr & NR).
  cbn [algo1_loop]. rewrite EB.
  eapply pays_bind; [apply (pays_class arc _ _ NL)|]. intros ? ? ? (-> & -> & ->).
  eapply pays_bind; [apply (pays_class arc _ _ NR)|]. intros ? ? ? (-> & -> & ->).
  eapply pays_bind; [eapply pays_erases; [apply erases_select|apply ends_and; [apply (ends_select arc lock HC NL NR)|apply ends_and;
    [apply (select_t arc HI lock HC HS NL NR)|]]]|].
  { instantiate (1 := fun sel _ => branches nl <> None -> match sel with inl (Left, _, _, _, _) => True | _ => False end).
    destruct (branches nl) as [[? ?]|] eqn:EL.
    - eapply ends_mono; [apply (select_left arc nr HLk HC NL); [congruence|exact HWl]|]. auto.
    - eapply ends_mono; [apply (ends_select arc lock HC NL NR)|]. intros ? ? _ F. congruence. }
  cbn beta. intros sel h1 k ((HSel & (HL1 & HW1) & HLeft) & Hk).
  destruct sel as [[[[[[|] d] reuse] oc] other]|[l' r']].
  - clear HLeft. destruct HSel as (-> & -> & -> & HB & HL & C1 & D1 & B1 & E1). destruct (branches nl) as [[sl sr]|] eqn:EL; [|congruence].
    rewrite (branches_kids _ EL) in C1, D1, HW1. cbn [app] in C1, D1. unfold node_class at 1.
    assert (HS1 : shielded h1) by (eapply shielded_change; [|exact D1|exact HS]; intros y Hy; do 3 right; auto).
    rewrite wt_cons in HW1.
    destruct (branches nr) as [[rl rr]|] eqn:ER.
    + assert (C1' : consistent h1 (reuse :: kids (@NList nat X sr r) ++ sl :: K)).
      { eapply consistent_perm; [|exact C1]. cbn. apply perm_skip. apply (Permutation_middle [sr; r] K sl). }
      assert (HB' : branches (@NList nat X sr r) <> None) by discriminate.
      assert (HI1 : incl K0 (sl :: K)) by (intros y Hy; right; auto).
      assert (HM1 : chain h1 r m) by (eapply chain_frame; [exact (ch_frame D1)|apply reach_root; do 2 right; left; reflexivity|exact HM]).
      eapply pays_bind; [eapply pays_erases; [apply erases_counted|apply ends_and; [apply ends_and; [apply (ends_set _ _ C1' E1 HB')|apply (set_t _ C1' HS1 HI1 E1)]|]]|].
      { apply set_same. exact E1. }
      cbn beta. intros ? h2 ? ((((-> & C2 & D2 & B2 & N2) & L2 & W2 & U2) & EU) & ->). cbn [kids branches] in W2. rewrite wt_cons in W2. apply wt_false in U2.
      assert (D12 : change (sl :: K) h h2).
      { eapply change_trans; [|exact D2]. eapply change_incl; [|exact D1]. intros y [Hy|Hy]; [left|right; right; right]; auto. }
      pose proof (wt_less [r] HL1). pose proof (wt_less [sl] L2).
      assert (HM2 : chain h2 reuse (S m)).
      { apply ch_branch with (n := NList sr r) (l := sr) (r := r); [exact N2|reflexivity|].
        eapply chain_frame with (K := sl :: sr :: r :: K) (h := h1); [|apply reach_root; cbn; auto|exact HM1].
        intros y Hy. apply EU. intros ->. destruct (unreachable C1 E1) as [U _]. exact (U Hy). }
      eapply pays_mono.
      * eapply IH with (m := S m) (K := K) (l := sl) (r := reuse); [|reflexivity| | |exact HI|lia|lia|lia|lia|exact HM2].
        -- destruct lock as [[]|]; congruence.
        -- eapply consistent_perm; [apply perm_swap|exact C2].
        -- eapply shielded_change; [|exact D2|exact HS1]. exact HI1.
      * cbn beta. intros ? h3 j ((C3 & D3 & B3) & Hj). split; [|lia]. split; [exact C3|]. split; [|lia].
        eapply change_trans; [|exact D3]. eapply change_incl; [|exact D12]. intros y Hy. right. exact Hy.
    + assert (C1' : consistent h1 (r :: reuse :: sl :: sr :: K)).
      { eapply consistent_perm; [|exact C1]. symmetry. apply (Permutation_middle [reuse; sl; sr] K r). }
      assert (NR1 : node_at h1 r = Some nr) by (rewrite (ch_frame D1); [exact NR|apply reach_root; do 2 right; left; reflexivity]).
      assert (m = 0) as -> by (inversion HM; subst; [reflexivity|congruence]).
      eapply pays_bind; [apply (@HD _ _ _ nr C1' HS1); [intros y Hy; do 3 right; auto|lia|exact NR1|exact ER]|].
      cbn beta. intros ? h2 i (((C2 & D2 & B2) & L2 & W2) & Hi).
      assert (HS2 : shielded h2) by (eapply shielded_change; [|exact D2|exact HS1]; intros y Hy; do 3 right; auto).
      assert (NU2 : node_at h2 reuse = Some leaf).
      { rewrite (ch_frame D2) by (apply reach_root; left; reflexivity). unfold node_at. rewrite E1. reflexivity. }
      eapply pays_bind; [apply (@HD _ _ _ leaf C2 HS2); [intros y Hy; do 2 right; auto|lia|exact NU2|reflexivity]|].
      cbn beta. intros ? h3 j (((C3 & D3 & B3) & L3 & W3) & Hj).
      assert (HS3 : shielded h3) by (eapply shielded_change; [|exact D3|exact HS2]; intros y Hy; do 2 right; auto).
      pose proof (wt_less [sl] (less_trans L2 L3)). pose proof (wt_less [sr] (less_trans L2 L3)).
      assert (HM3 : exists m', chain h3 sr m').
      { apply (chain_exists C3). apply (cons_refs C3). cbn. auto. }
      destruct HM3 as (m' & HM3).
      eapply pays_mono.
      * eapply IH with (lock := None) (K := K); [congruence|exact EL|exact C3|exact HS3|exact HI|lia|lia|lia|lia|exact HM3].
      * cbn beta. intros ? h4 q ((C4 & D4 & B4) & Hq). split; [|lia]. split; [exact C4|]. split; [|lia].
        eapply change_trans; [eapply change_incl; [|exact D1]|]. { intros y Hy. do 3 right. exact Hy. }
        eapply change_trans; [eapply change_incl; [|exact D2]|]. { intros y Hy. do 3 right. exact Hy. }
        eapply change_trans; [eapply change_incl; [|exact D3]|exact D4]. intros y Hy. do 2 right. exact Hy.
  - destruct (branches nl) as [[? ?]|] eqn:EL; [destruct HLeft; congruence|]. clear HLeft.
    destruct HSel as (-> & -> & -> & HB & HL & C1 & D1 & B1 & E1). destruct (branches nr) as [[sl sr]|] eqn:ER; [|congruence].
    rewrite (branches_kids _ ER) in C1, D1, HW1. cbn [app] in C1, D1. unfold node_class at 1. rewrite EL.
    assert (HS1 : shielded h1) by (eapply shielded_change; [|exact D1|exact HS]; intros y Hy; do 3 right; auto).
    rewrite wt_cons in HW1.
    assert (C1' : consistent h1 (l :: reuse :: sl :: sr :: K)).
    { eapply consistent_perm; [|exact C1]. symmetry. apply (Permutation_middle [reuse; sl; sr] K l). }
    assert (NL1 : node_at h1 l = Some nl) by (rewrite (ch_frame D1); [exact NL|apply reach_root; do 2 right; left; reflexivity]).
    assert (HMr : exists m', m = S m' /\ chain h sr m').
    { inversion HM as [x n E B|x n l0 r0 m' E B HP]; subst; [congruence|]. rewrite NR in E. injection E as <-. rewrite ER in B. injection B as <- <-. eauto. }
    destruct HMr as (m' & -> & HMr).
    assert (HM1 : chain h1 sr m').
    { eapply chain_frame; [exact (ch_frame D1)|apply reach_root; right; left; reflexivity|exact HMr]. }
    eapply pays_bind; [apply (@HD _ _ _ nl C1' HS1); [intros y Hy; do 3 right; auto|lia|exact NL1|exact EL]|].
    cbn beta. intros ? h2 i (((C2 & D2 & B2) & L2 & W2) & Hi).
    assert (HS2 : shielded h2) by (eapply shielded_change; [|exact D2|exact HS1]; intros y Hy; do 3 right; auto).
    assert (NU2 : node_at h2 reuse = Some leaf).
    { rewrite (ch_frame D2) by (apply reach_root; left; reflexivity). unfold node_at. rewrite E1. reflexivity. }
    eapply pays_bind; [apply (@HD _ _ _ leaf C2 HS2); [intros y Hy; do 2 right; auto|lia|exact NU2|reflexivity]|].
    cbn beta. intros ? h3 j (((C3 & D3 & B3) & L3 & W3) & Hj).
    assert (HS3 : shielded h3) by (eapply shielded_change; [|exact D3|exact HS2]; intros y Hy; do 2 right; auto).
    pose proof (wt_less [sl] (less_trans L2 L3)). pose proof (wt_less [sr] (less_trans L2 L3)).
    assert (HM3 : chain h3 sr m').
    { eapply chain_frame; [exact (ch_frame D3)|apply reach_root; cbn; auto|].
      eapply chain_frame; [exact (ch_frame D2)|apply reach_root; cbn; auto|exact HM1]. }
    eapply pays_mono.
    * eapply IH with (lock := None) (K := K); [congruence|exact ER|exact C3|exact HS3|exact HI|lia|lia|lia|lia|exact HM3].
    * cbn beta. intros ? h4 q ((C4 & D4 & B4) & Hq). split; [|lia]. split; [exact C4|]. split; [|lia].
      eapply change_trans; [eapply change_incl; [|exact D1]|]. { intros y Hy. do 3 right. exact Hy. }
      eapply change_trans; [eapply change_incl; [|exact D2]|]. { intros y Hy. do 3 right. exact Hy. }
      eapply change_trans; [eapply change_incl; [|exact D3]|exact D4]. intros y Hy. do 2 right. exact Hy.
  - clear HLeft. destruct HSel as (-> & -> & C1 & D1 & B1). destruct HW1 as (HW1 & [(HB1 & HB2)|HB1]); [|lia].
    assert (HS1 : shielded h1) by (eapply shielded_change; [|exact D1|exact HS]; intros y Hy; do 2 right; auto).
    assert (C1' : consistent h1 (r :: l :: K)) by (eapply consistent_perm; [apply perm_swap|exact C1]).
    assert (NR1 : node_at h1 r = Some nr) by (rewrite (ch_frame D1); [exact NR|apply reach_root; right; left; reflexivity]).
    assert (NL1 : node_at h1 l = Some nl) by (rewrite (ch_frame D1); [exact NL|apply reach_root; left; reflexivity]).
    assert (m = 0) as -> by (inversion HM; subst; [reflexivity|congruence]).
    eapply pays_bind; [apply (@HD _ _ _ nr C1' HS1); [intros y Hy; right; auto|lia|exact NR1|exact HB2]|].
    cbn beta. intros ? h2 i (((C2 & D2 & B2) & L2 & W2) & Hi).
    assert (HS2 : shielded h2) by (eapply shielded_change; [|exact D2|exact HS1]; intros y Hy; right; auto).
    assert (NL2 : node_at h2 l = Some nl) by (rewrite (ch_frame D2); [exact NL1|apply reach_root; left; reflexivity]).
    eapply pays_mono; [apply (@HD _ _ _ nl C2 HS2); [exact HI|lia|exact NL2|exact HB1]|].
    cbn beta. intros ? h3 j (((C3 & D3 & B3) & L3 & W3) & Hj). split; [|lia]. split; [exact C3|]. split; [|lia].
    eapply change_trans; [eapply change_incl; [|exact D1]|]. { intros y Hy. do 2 right. exact Hy. }
    eapply change_trans; [eapply change_incl; [|exact D2]|exact D3]. intros y Hy. right. exact Hy.
Qed.
End Loop.

(** Of what follows [drop] nothing is counted if a leaf or a shared reference is left. *)
Lemma pays_rest arc fuel depth h x c : cell_at h x = Some c ->
  (forall w n, c = Cell 1 w (Some n) -> branches n = None) -> pays (rest_work (X := X) arc fuel depth x) h (fun _ _ k => k = 0).
Proof.
  intros E HB.
  assert (S0 : forall A (m : D heap A) h0, pays (silent m) h0 (fun _ _ k => k = 0)).
  { intros A m h0 n. unfold silent. cbn [fst snd]. destruct (m h0) as [[? ?]|e| |]; auto. exists 0. rewrite Nat.add_0_r. auto. }
  eapply pays_bind; [eapply pays_erases; [apply erases_silent|apply (ends_read _ _ E)]|]. cbn beta. intros ? ? ? ((-> & ->) & ->).
  destruct c as [[|[|s]] w [n|]]; try apply pays_panic; try (eapply pays_mono; [apply S0|]; cbn beta; intros; lia).
  specialize (HB _ _ eq_refl).
  eapply pays_bind; [apply S0|]. cbn beta. intros ? h1 ? ->.
  eapply pays_bind with (P := fun _ _ k => k = 0).
  - destruct n as [? ?|? ?|[?|]]; try discriminate HB; [apply S0|apply pays_ret; reflexivity].
  - cbn beta. intros ? h2 ? ->. destruct w; [eapply pays_mono; [apply S0|]; cbn beta; intros; lia|apply pays_ret; lia].
Qed.
Lemma pays_leaf arc fuel depth h K x n : consistent h (x :: K) -> shielded h -> incl K0 K -> bc h * bc h + bc h + 1 <= fuel ->
  node_at h x = Some n -> branches n = None -> pays (rc_work (X := X) arc fuel depth x) h (fun u h' k => after_t K h u h' /\ k <= 1).
Proof.
  intros HC HS HI HF EN EB. destruct depth as [|depth]; [apply pays_nofuel|]. apply pays_and.
  - eapply pays_mono; [eapply pays_erases; [apply erases_rc|apply (@rc_drop_t X p K0 arc fuel (S depth) h K x HC HS HI); [|exact HF]]|].
    + rewrite (dneed_leaf p h x EN EB). lia.
    + cbn beta. tauto.
  - rewrite rc_work_step. eapply pays_bind with (P := fun x' h' k => x' = x /\ h' = h /\ k = 1).
    + eapply pays_bind; [apply (pays_class arc _ _ EN)|]. intros ? ? ? (-> & -> & ->). unfold node_class. rewrite EB. apply pays_ret. auto.
    + intros ? ? ? (-> & -> & ->). unfold node_at in EN. destruct (cell_at h x) as [c|] eqn:EC; [|discriminate].
      eapply pays_mono; [apply (pays_rest arc fuel depth _ _ EC)|cbn beta; intros; lia].
      intros w n' ->. injection EN as ->. exact EB.
Qed.

Theorem pays_unshared arc fuel depth h K x : consistent h (x :: K) -> shielded h -> incl K0 K -> bc h * bc h + bc h + 1 <= fuel ->
  T h = 0 -> wt h [x] = 0 -> pays (rc_work (X := X) arc fuel depth x) h (fun _ h' k => k + 11 * bc h' <= 11 * bc h + 1).
Proof.
  intros HC HS HI HF HT HW. destruct depth as [|depth]; [apply pays_nofuel|].
  destruct (consistent_live x HC (or_introl eq_refl)) as (s & w & n & E).
  assert (EN : node_at h x = Some n) by (unfold node_at; rewrite E; reflexivity).
  destruct (branches n) as [[l r]|] eqn:EB.
  2:{ eapply pays_mono; [apply (@pays_leaf arc fuel (S depth) h K x n HC HS HI HF EN EB)|].
      cbn beta. intros ? h' k (((_ & _ & B) & _) & Hk). lia. }
  assert (HB : branches n <> None) by congruence.
  rewrite rc_work_step.
  eapply pays_bind with (P := fun x' h' k => consistent h' (x' :: K) /\ (exists c, cell_at h' x' = Some c /\
    forall w n, c = Cell 1 w (Some n) -> branches n = None) /\ k + 11 * bc h' <= 11 * bc h).
  - eapply pays_bind; [apply (pays_class arc _ _ EN)|]. intros ? ? ? (-> & -> & ->). unfold node_class. rewrite EB.
    eapply pays_bind; [eapply pays_erases; [apply erases_trytake|apply ends_and; [apply (ends_trytake arc HC EN HB)|apply (trytake_t arc HC HS HI EN HB)]]|].
    cbn beta. intros [[d|] x'] h1 ? ((HT1 & L1 & W1) & ->); cbn [fst] in W1.
    + destruct HT1 as (-> & C1 & D1 & B1 & E1). rewrite (branches_kids _ EB) in C1, D1, W1. cbn [app] in C1, D1. rewrite wt_cons in W1.
      assert (C1' : consistent h1 (l :: r :: x' :: K)).
      { eapply consistent_perm; [|exact C1]. apply (Permutation_middle [l; r] K x'). }
      assert (HS1 : shielded h1) by (eapply shielded_change; [|exact D1|exact HS]; intros y Hy; do 2 right; auto).
      assert (HM : exists m, chain h1 r m) by (apply (chain_exists C1'); apply (cons_refs C1'); cbn; auto).
      destruct HM as (m & HM).
      eapply pays_bind.
      * eapply pays_unshared_loop with (bound := bc h) (K := x' :: K) (m := m); [|congruence|exact EB|exact C1'|exact HS1| |lia|lia|lia|lia|exact HM].
        -- intros h2 K2 y n2 HC2 HS2 HI2 HB2 HE2 HL2. eapply pays_leaf; try eassumption. nia.
        -- intros y Hy. right. auto.
      * cbn beta. intros ? h2 k ((C2 & D2 & B2) & Hk). apply pays_ret. split; [exact C2|]. split; [|lia].
        assert (EN2 : node_at h2 x' = Some leaf).
        { rewrite (ch_frame D2) by (apply reach_root; left; reflexivity). unfold node_at. rewrite E1. reflexivity. }
        unfold node_at in EN2. destruct (cell_at h2 x') as [c|]; [|discriminate]. exists c. split; [reflexivity|].
        intros w2 n2 ->. injection EN2 as ->. reflexivity.
    + exfalso. destruct HT1 as (_ & _ & _ & _ & _ & R). pose proof (failed_shared HC EN HB R). lia.
  - cbn beta. intros x' h1 k (C1 & (c & E1 & HB1) & Hk).
    destruct (consistent_live x' C1 (or_introl eq_refl)) as (s' & w' & n' & E1').
    assert (EC : c = Cell (S s') w' (Some n')) by congruence. subst c.
    eapply pays_mono; [apply pays_and; [apply (pays_rest arc fuel depth _ _ E1 HB1)|]|].
    + eapply pays_mono; [eapply pays_erases; [apply erases_rest; apply erases_rc|]|].
      * instantiate (1 := fun _ h' => bc h' <= bc h1).
        unfold rest_drop. eapply ends_bind; [apply (ends_read _ _ E1)|]. intros ? ? (-> & ->).
        destruct s' as [|s'].
        -- specialize (HB1 _ _ eq_refl).
           eapply ends_mono with (P := after K h1); [|intros ? ? HA; exact (proj2 (proj2 HA))].
           destruct n' as [a b|a b|[v|]]; try discriminate HB1.
           ++ apply (ends_release_leaf _ C1 E1 HB1). reflexivity.
           ++ apply (ends_release_leaf _ C1 E1 HB1). intros h2. cbn. rewrite app_nil_r. destruct h2; reflexivity.
        -- eapply ends_mono; [apply (ends_release_shared C1 E1)|]. intros ? ? (_ & _ & B). exact B.
      * cbn beta. intros ? ? ? (B & _). exact B.
    + cbn beta. intros ? h2 j (-> & B). lia.
Qed.
End Others.

Theorem rc_work_unshared arc fuel depth h K x h' n : consistent h (x :: K) ->
  (forall y, reach h [x] y -> shared_branch h y = false) -> bc h * bc h + bc h + 1 <= fuel ->
  rc_work arc fuel depth x (h, 0) = Ok (tt, (h', n)) -> n + 11 * bc h' <= 11 * bc h + 1.
Proof.
  intros HC HU HF E. destruct (own_exists K [x] HC) as (own & HO & HR).
  set (p := fun y => match node_at h y with Some _ => negb (existsb (Nat.eqb y) own) | None => false end).
  assert (HO' : forall y, existsb (Nat.eqb y) own = true -> In y own).
  { intros y Hy. apply existsb_exists in Hy. destruct Hy as (z & Hz & EZ). apply Nat.eqb_eq in EZ. subst. exact Hz. }
  assert (HP : shielded p K h).
  { intros y. unfold p. destruct (node_at h y) as [m|] eqn:EN; [|discriminate]. intros HN. destruct (HO _ _ EN) as [HI|]; [|assumption].
    apply negb_true_iff in HN. rewrite <- not_true_iff_false in HN. exfalso. apply HN, existsb_exists. exists y. rewrite Nat.eqb_refl. auto. }
  assert (W0 : forall l, (forall y, In y l -> shared_branch h y = false) -> wt h l = 0).
  { induction l as [|y l IH]; intros Hl; [reflexivity|]. rewrite wt_cons, IH by (intros; apply Hl; cbn; auto).
    rewrite wt_false; [reflexivity|]. apply Hl. cbn. auto. }
  assert (HT : T p h = 0).
  { apply W0. intros y HI. apply in_flat_map in HI. destruct HI as (z & _ & HI). destruct (p z) eqn:EP; [contradiction|].
    unfold p in EP. unfold onto, node_at in *. destruct (cell_at h z) as [[s w [m|]]|] eqn:EC; cbn [value] in *; try contradiction.
    apply negb_false_iff in EP. apply HU. eapply reach_kid; [apply HR, HO', EP| |exact HI]. unfold node_at. rewrite EC. reflexivity. }
  assert (HX : wt h [x] = 0).
  { apply W0. intros y [<-|[]]. apply HU. apply reach_root. cbn. auto. }
  pose proof (@pays_unshared p K arc fuel depth h K x HC HP (incl_refl K) HF HT HX 0) as P. rewrite E in P.
  destruct P as (k & -> & P). cbn [Nat.add]. exact P.
Qed.
End Unshared.
