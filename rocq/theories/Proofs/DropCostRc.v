(** The work of dropping counted references. *)
From Coq Require Import List Arith Lia Permutation Bool.
From Verif.Model Require Import Prelude Drop DropRc DropCost.
From Verif.Spec Require Import Drops.
From Verif.Proofs Require Import HeapFacts DropRcFacts DropDeep DropRcDepth DropCostFacts.
Import ListNotations.
Set Implicit Arguments.

Section Rc.
Context {X : Type}.
Local Notation heap := (heap X).
Local Notation node := (node nat X).
Local Notation Cell := (@Cell X).
Local Notation leaf := (@temp_leaf nat X).
Local Notation bc := (@bc X).
Local Notation after := (@after X).
Implicit Types (h : heap) (K : list nat).

(** ** What is taken out could not be reached by others *)
Lemma trytake_u arc h K x n : consistent h (x :: K) -> node_at h x = Some n -> branches n <> None ->
  ends (trytake (rc_ops arc) x) h (fun p _ => fst p <> None -> ~ reach h K x).
Proof.
  intros HC EN HB. destruct (consistent_live x HC (or_introl eq_refl)) as (s & w & n' & E). destruct s as [|s].
  - eapply ends_mono; [apply (ends_trytake arc HC EN HB)|]. intros p h' _ _. apply (unreachable HC E).
  - destruct (take_fails arc _ _ E) as (h' & T & _). exists (None, x), h'. split; [exact T|]. cbn. congruence.
Qed.
Definition own_side K l r h (sel : selection (DR := nat) (X := X)) (_ : heap) : Prop :=
  match sel with
  | inl (Left, _, _, _, _) => ~ reach h (r :: K) l
  | inl (Right, _, _, _, _) => ~ reach h (l :: K) r
  | inr _ => True
  end.
Section Select.
Context (arc : bool) (l r : nat) (nl nr : node) (K : list nat).
Lemma take_left_u lc rc h : consistent h (l :: r :: K) -> node_at h l = Some nl -> branches nl <> None ->
  ends (take_left (rc_ops arc) lc rc l r) h (own_side K l r h).
Proof.
  intros HC EN HB. eapply ends_bind; [apply (trytake_u arc HC EN HB)|]. intros [[d|] x'] h' HU; apply ends_ret; cbn; [|exact I].
  apply HU. discriminate.
Qed.
Lemma take_right_u lc rc h : consistent h (l :: r :: K) -> node_at h r = Some nr -> branches nr <> None ->
  ends (take_right (rc_ops arc) lc rc l r) h (own_side K l r h).
Proof.
  intros HC EN HB. assert (HC' : consistent h (r :: l :: K)) by (eapply consistent_perm; [apply perm_swap|exact HC]).
  eapply ends_bind; [apply (trytake_u arc HC' EN HB)|]. intros [[d|] x'] h' HU; apply ends_ret; cbn; [|exact I].
  apply HU. discriminate.
Qed.
Lemma take_either_u lc rc h : consistent h (l :: r :: K) -> node_at h l = Some nl -> node_at h r = Some nr ->
  branches nl <> None -> branches nr <> None -> ends (take_either (rc_ops arc) lc rc l r) h (own_side K l r h).
Proof.
  intros HC EL ER HL HR. eapply ends_bind; [apply ends_and; [apply (ends_trytake arc HC EL HL)|apply (trytake_u arc HC EL HL)]|].
  intros [[d|] x'] h' [HT HU].
  - apply ends_ret. cbn. apply HU. discriminate.
  - destruct HT as (-> & C & D & _).
    assert (ER' : node_at h' r = Some nr) by (rewrite (ch_frame D); [exact ER|apply reach_root; right; left; reflexivity]).
    eapply ends_mono; [apply (take_right_u lc rc C ER' HR)|].
    assert (FR : forall K' y, incl K' (l :: r :: K) -> reach h K' y -> reach h' K' y).
    { intros K' y HI. apply frame_reach. eapply frame_incl; [exact HI|exact (ch_frame D)]. }
    intros [[[[[[|] d] x] oc] other]|[l' r']] h2; unfold own_side; auto; intros HN HR'; apply HN; apply FR; auto; intros y; cbn; tauto.
Qed.
Lemma select_u lock h : consistent h (l :: r :: K) -> node_at h l = Some nl -> node_at h r = Some nr ->
  ends (select (rc_ops arc) lock (node_class nl) (node_class nr) l r) h (own_side K l r h).
Proof.
  intros HC EL ER. unfold node_class.
  destruct (branches nl) as [[? ?]|] eqn:BL, (branches nr) as [[? ?]|] eqn:BR; destruct lock as [[]|]; cbn [select];
    try (apply take_left_u; auto; congruence); try (apply take_right_u; auto; congruence); try (apply take_either_u; auto; congruence);
    apply ends_ret; exact I.
Qed.
End Select.

(** ** Paths to one side that others cannot reach *)
Inductive opath h K (s : side) : nat -> list nat -> Prop :=
| op_nil x : opath h K s x []
| op_cons x n l r p : node_at h x = Some n -> branches n = Some (l, r) -> ~ reach h K x ->
    opath h K s (match s with Left => l | Right => r end) p -> opath h K s x (x :: p).
Definition opath_bound h K s x m : Prop := forall p, opath h K s x p -> length p <= m.

Lemma opath_frame K K' h h' s x p : frame K' h h' -> frame K h h' -> reach h' K' x -> opath h' K s x p -> opath h K s x p.
Proof.
  intros HF HK HR HP. revert HR. induction HP as [x|x n l r p E EB HU HP IH]; intros HR; [constructor|].
  assert (E' : node_at h x = Some n) by (rewrite <- HF; [exact E|eapply frame_reach'; eauto]).
  econstructor; [exact E'|exact EB| |].
  - intros HRx. apply HU. eapply frame_reach; eauto.
  - apply IH. eapply reach_kid; [exact HR|exact E|]. rewrite (branches_kids _ EB). destruct s; cbn; auto.
Qed.
Lemma opath_step h K s x n l r m : node_at h x = Some n -> branches n = Some (l, r) -> ~ reach h K x -> opath_bound h K s x m ->
  1 <= m /\ opath_bound h K s (match s with Left => l | Right => r end) (m - 1).
Proof.
  intros E EB HU HP. assert (H1 : 1 <= m).
  { apply (HP [x]). econstructor; [exact E|exact EB|exact HU|]. destruct s; constructor. }
  split; [exact H1|]. intros p Hp. specialize (HP (x :: p)). cbn in HP. assert (S (length p) <= m); [|lia].
  apply HP. econstructor; eauto.
Qed.

Section Kept.
(** Branches that others can reach. *)
Context (keep : list nat) (ND : NoDup keep).
Definition kept h K : Prop := forall y, In y keep -> reach h K y /\ branchy (cell_at h y) = true.

Lemma branchy_node h y : branchy (cell_at h y) = match node_at h y with Some n => match branches n with Some _ => true | None => false end | None => false end.
Proof. unfold node_at. destruct (cell_at h y) as [[s w v]|]; reflexivity. Qed.
Lemma kept_change h h' K K' : incl K K' -> change K' h h' -> kept h K -> kept h' K.
Proof.
  intros HI HC HK y Hy. destruct (HK _ Hy) as [HR HB].
  assert (HF : frame K h h') by (eapply frame_incl; [exact HI|exact (ch_frame HC)]).
  split; [eapply frame_reach; eauto|]. rewrite branchy_node, (HF _ HR), <- branchy_node. exact HB.
Qed.
Lemma kept_incl h K K' : incl K K' -> kept h K -> kept h K'.
Proof. intros HI HK y Hy. destruct (HK _ Hy) as [HR HB]. split; [eapply reach_incl; eauto|exact HB]. Qed.
Lemma branchy_count h l : NoDup l -> (forall y, In y l -> branchy (cell_at h y) = true) -> length l <= bc h.
Proof.
  intros HN HB. unfold DropRcFacts.bc, branch_cells. rewrite of_all_onto, <- (count_filter (cells h) 0).
  apply NoDup_incl_length; [exact HN|]. intros y Hy. specialize (HB _ Hy).
  apply filter_In. rewrite Nat.sub_0_r. split; [|exact HB]. apply in_seq. split; [lia|].
  destruct (cell_at h y) as [c|] eqn:E; [|discriminate]. apply cell_at_length in E. lia.
Qed.
Lemma opath_keep K' h K s x : consistent h K' -> kept h K -> opath_bound h K s x (bc h - length keep).
Proof.
  intros HC HK p HP. assert (length (p ++ keep) <= bc h); [|rewrite app_length in *; lia]. destruct HC as [_ _ [rank HA]].
  assert (F : Forall (fun y => rank y <= rank x) p /\ NoDup (p ++ keep) /\ Forall (fun y => branchy (cell_at h y) = true) p).
  { induction HP as [x|x n l r p E EB HU HP IH]; [repeat constructor; exact ND|].
    assert (HL : rank (match s with Left => l | Right => r end) < rank x).
    { apply (HA _ _ _ E). rewrite (branches_kids _ EB). destruct s; cbn; auto. }
    destruct IH as (I1 & I2 & I3). split; [|split].
    - constructor; [lia|]. eapply Forall_impl; [|exact I1]. cbn. intros. lia.
    - cbn [app]. constructor; [|exact I2]. intros HI. apply in_app_or in HI. destruct HI as [HI|HI].
      + rewrite Forall_forall in I1. specialize (I1 _ HI). lia.
      + apply HU. apply HK. exact HI.
    - constructor; [|exact I3]. rewrite branchy_node, E, EB. reflexivity. }
  destruct F as (_ & F1 & F2). apply branchy_count; [exact F1|]. intros y Hy. apply in_app_or in Hy. destruct Hy as [Hy|Hy].
  - rewrite Forall_forall in F2. auto.
  - apply HK. exact Hy.
Qed.
Lemma kept_count h K : kept h K -> length keep <= bc h.
Proof. intros HK. apply branchy_count; [exact ND|]. intros y Hy. apply HK. exact Hy. Qed.

(** ** The loop *)
Section Loop.
Context (arc : bool) (drop : nat -> D (heap * nat) unit) (N : nat).
Local Notation A := (5 * N + 11).
Local Notation ops := (counting (rc_ops (X := X) arc)).
Definition paid K h (u : unit) h' (k : nat) : Prop := after K h u h' /\ k + A * bc h' <= A * bc h + 2.
Context (HD : forall h K x, consistent h (x :: K) -> kept h K -> bc h <= N + length keep -> pays (drop x) h (paid K h)).

Definition ahead lock h K l r m : Prop :=
  match lock with
  | Some s => opath_bound h K s (match s with Left => l | Right => r end) m
  | None => bc h - length keep <= m
  end.
Lemma pays_class h x n : node_at h x = Some n -> pays (class_of ops x) h (fun c h' k => c = node_class n /\ h' = h /\ k = 1).
Proof.
  intros EN. eapply pays_mono; [eapply pays_erases; [apply erases_class|apply (ends_class arc _ _ EN)]|]. cbn beta. tauto.
Qed.

Lemma pays_rc_loop : forall fuel lock top h K l r m, branches top = Some (l, r) -> consistent h (l :: r :: K) -> kept h K ->
  bc h <= N + length keep -> ahead lock h K l r m ->
  pays (algo1_loop ops drop fuel lock top) h (fun u h' k => after K h u h' /\ k + A * bc h' <= A * bc h + 5 * m + 9).
Proof.
  induction fuel as [|fuel IH]; intros lock top h K l r m EB HC HK HN HM; [apply pays_nofuel|].
  assert (NL : exists nl, node_at h l = Some nl).
  { destruct (consistent_live l HC (or_introl eq_refl)) as (s & w & n & E). exists n. unfold node_at. rewrite E. reflexivity. }
  assert (NR : exists nr, node_at h r = Some nr).
  { destruct (consistent_live r HC (or_intror (or_introl eq_refl))) as (s & w & n & E). exists n. unfold node_at. rewrite E. reflexivity. }
  destruct NL as (nl & NL), NR as (nr & NR).
  cbn [algo1_loop]. rewrite EB.
  eapply pays_bind; [apply (pays_class _ _ NL)|]. intros ? ? ? (-> & -> & ->).
  eapply pays_bind; [apply (pays_class _ _ NR)|]. intros ? ? ? (-> & -> & ->).
  eapply pays_bind; [eapply pays_erases; [apply erases_select|apply ends_and; [apply (ends_select arc lock HC NL NR)|apply (select_u arc lock HC NL NR)]]|].
  cbn beta. intros sel h1 k ((HS & HU) & Hk).
  pose proof (kept_count HK) as KC.
  destruct sel as [[[[[[|] d] reuse] oc] other]|[l' r']].
  - destruct HS as (-> & -> & -> & HB & HL & C1 & D1 & B1 & E1). destruct (branches nl) as [[sl sr]|] eqn:EL; [|congruence].
    rewrite (branches_kids _ EL) in C1, D1. cbn [app] in C1, D1. unfold node_class at 1. unfold node_class in HL. cbn in HU.
    destruct (branches nr) as [[rl rr]|] eqn:ER.
    + assert (C1' : consistent h1 (reuse :: kids (@NList nat X sr r) ++ sl :: K)).
      { eapply consistent_perm; [|exact C1]. cbn. apply perm_skip. apply (Permutation_middle [sr; r] K sl). }
      assert (HB' : branches (@NList nat X sr r) <> None) by discriminate.
      eapply pays_bind; [eapply pays_erases; [apply erases_counted|apply (ends_set _ _ C1' E1 HB')]|].
      cbn beta. intros ? h2 ? ((-> & C2 & D2 & B2 & N2) & ->).
      assert (D12 : change (sl :: K) h h2).
      { eapply change_trans; [|exact D2]. eapply change_incl; [|exact D1]. intros y [Hy|Hy]; [left|right; right; right]; auto. }
      assert (HU' : ~ reach h K l) by (intros HR; apply HU; eapply reach_incl; [|exact HR]; intros y Hy; right; exact Hy).
      assert (PB : forall k, opath_bound h K Left l k -> 1 <= k /\ opath_bound h2 K Left sl (k - 1)).
      { intros j HP. destruct (@opath_step _ _ _ _ _ _ _ _ NL EL HU' HP) as [K1 K2]. split; [exact K1|]. intros p Hp. apply K2.
        eapply opath_frame; [exact (ch_frame D12)|eapply frame_incl; [|exact (ch_frame D12)]; intros y Hy; right; exact Hy|apply reach_root; left; reflexivity|exact Hp]. }
      assert (HM' : opath_bound h K Left l m).
      { destruct lock as [[|]|]; [exact HM|destruct HL; congruence|]. intros p Hp. cbn in HM.
        pose proof (opath_keep HC HK Hp). lia. }
      destruct (PB _ HM') as [M1 M2].
      eapply pays_mono.
      * eapply IH with (m := m - 1) (K := K); [reflexivity| | |lia|].
        -- eapply consistent_perm; [apply perm_swap|exact C2].
        -- eapply kept_change; [|exact D12|exact HK]. intros y Hy. right. exact Hy.
        -- destruct lock as [[|]|]; [exact M2|destruct HL; congruence|exact M2].
      * cbn beta. intros ? h3 j ((C3 & D3 & B3) & Hj). split; [|nia]. split; [exact C3|]. split; [|lia].
        eapply change_trans; [|exact D3]. eapply change_incl; [|exact D12]. intros y Hy. right. exact Hy.
    + assert (C1' : consistent h1 (r :: reuse :: sl :: sr :: K)).
      { eapply consistent_perm; [|exact C1]. symmetry. apply (Permutation_middle [reuse; sl; sr] K r). }
      assert (K1 : kept h1 (sl :: sr :: K)).
      { apply kept_incl with (K := K); [intros y Hy; do 2 right; exact Hy|]. eapply kept_change; [|exact D1|exact HK]. intros y Hy. do 3 right. exact Hy. }
      eapply pays_bind; [apply (HD C1'); [apply kept_incl with (2 := K1); intros y Hy; right; exact Hy|lia]|]. intros ? h2 i ((C2 & D2 & B2) & Hi).
      assert (K2 : kept h2 (sl :: sr :: K)) by (eapply kept_change; [|exact D2|exact K1]; intros y Hy; right; exact Hy).
      eapply pays_bind; [apply (HD C2); [exact K2|lia]|]. intros ? h3 j ((C3 & D3 & B3) & Hj).
      assert (D03 : change K h h3).
      { eapply change_trans; [eapply change_incl; [|exact D1]|]. { intros y Hy. do 3 right. exact Hy. }
        eapply change_trans; [eapply change_incl; [|exact D2]|]. { intros y Hy. do 3 right. exact Hy. }
        eapply change_incl; [|exact D3]. intros y Hy. do 2 right. exact Hy. }
      eapply pays_mono.
      * eapply IH with (lock := None) (m := N) (K := K); [exact EL|exact C3| |lia|cbn; lia].
        eapply kept_change; [|exact D03|exact HK]. apply incl_refl.
      * cbn beta. intros ? h4 q ((C4 & D4 & B4) & Hq). split; [|nia]. split; [exact C4|]. split; [|lia].
        eapply change_trans; [exact D03|exact D4].
  - destruct HS as (-> & -> & -> & HB & HL & C1 & D1 & B1 & E1). destruct (branches nr) as [[sl sr]|] eqn:ER; [|congruence].
    rewrite (branches_kids _ ER) in C1, D1. cbn [app] in C1, D1. unfold node_class at 1. unfold node_class in HL. cbn in HU.
    destruct (branches nl) as [[ll lr]|] eqn:EL.
    + assert (C1' : consistent h1 (reuse :: kids (@NList nat X l sl) ++ sr :: K)).
      { eapply consistent_perm; [|exact C1]. cbn. apply perm_skip. apply (Permutation_trans (l' := sl :: l :: sr :: K)); [|apply perm_swap].
        apply perm_skip, perm_swap. }
      assert (HB' : branches (@NList nat X l sl) <> None) by discriminate.
      eapply pays_bind; [eapply pays_erases; [apply erases_counted|apply (ends_set _ _ C1' E1 HB')]|].
      cbn beta. intros ? h2 ? ((-> & C2 & D2 & B2 & N2) & ->).
      assert (D12 : change (sr :: K) h h2).
      { eapply change_trans; [|exact D2]. eapply change_incl; [|exact D1]. intros y [Hy|Hy]; [right; left|right; right; right]; auto. }
      assert (HU' : ~ reach h K r) by (intros HR; apply HU; eapply reach_incl; [|exact HR]; intros y Hy; right; exact Hy).
      assert (PB : forall k, opath_bound h K Right r k -> 1 <= k /\ opath_bound h2 K Right sr (k - 1)).
      { intros j HP. destruct (@opath_step _ _ _ _ _ _ _ _ NR ER HU' HP) as [K1 K2]. split; [exact K1|]. intros p Hp. apply K2.
        eapply opath_frame; [exact (ch_frame D12)|eapply frame_incl; [|exact (ch_frame D12)]; intros y Hy; right; exact Hy|apply reach_root; left; reflexivity|exact Hp]. }
      assert (HM' : opath_bound h K Right r m).
      { destruct lock as [[|]|]; [destruct HL; congruence|exact HM|]. intros p Hp. cbn in HM.
        pose proof (opath_keep HC HK Hp). lia. }
      destruct (PB _ HM') as [M1 M2].
      eapply pays_mono.
      * eapply IH with (m := m - 1) (K := K); [reflexivity|exact C2| |lia|].
        -- eapply kept_change; [|exact D12|exact HK]. intros y Hy. right. exact Hy.
        -- destruct lock as [[|]|]; [destruct HL; congruence|exact M2|exact M2].
      * cbn beta. intros ? h3 j ((C3 & D3 & B3) & Hj). split; [|nia]. split; [exact C3|]. split; [|lia].
        eapply change_trans; [|exact D3]. eapply change_incl; [|exact D12]. intros y Hy. right. exact Hy.
    + assert (C1' : consistent h1 (l :: reuse :: sl :: sr :: K)).
      { eapply consistent_perm; [|exact C1]. symmetry. apply (Permutation_middle [reuse; sl; sr] K l). }
      assert (K1 : kept h1 (sl :: sr :: K)).
      { apply kept_incl with (K := K); [intros y Hy; do 2 right; exact Hy|]. eapply kept_change; [|exact D1|exact HK]. intros y Hy. do 3 right. exact Hy. }
      eapply pays_bind; [apply (HD C1'); [apply kept_incl with (2 := K1); intros y Hy; right; exact Hy|lia]|]. intros ? h2 i ((C2 & D2 & B2) & Hi).
      assert (K2 : kept h2 (sl :: sr :: K)) by (eapply kept_change; [|exact D2|exact K1]; intros y Hy; right; exact Hy).
      eapply pays_bind; [apply (HD C2); [exact K2|lia]|]. intros ? h3 j ((C3 & D3 & B3) & Hj).
      assert (D03 : change K h h3).
      { eapply change_trans; [eapply change_incl; [|exact D1]|]. { intros y Hy. do 3 right. exact Hy. }
        eapply change_trans; [eapply change_incl; [|exact D2]|]. { intros y Hy. do 3 right. exact Hy. }
        eapply change_incl; [|exact D3]. intros y Hy. do 2 right. exact Hy. }
      eapply pays_mono.
      * eapply IH with (lock := None) (m := N) (K := K); [exact ER|exact C3| |lia|cbn; lia].
        eapply kept_change; [|exact D03|exact HK]. apply incl_refl.
      * cbn beta. intros ? h4 q ((C4 & D4 & B4) & Hq). split; [|nia]. split; [exact C4|]. split; [|lia].
        eapply change_trans; [exact D03|exact D4].
  - destruct HS as (-> & -> & C1 & D1 & B1).
    assert (C1' : consistent h1 (r :: l :: K)) by (eapply consistent_perm; [apply perm_swap|exact C1]).
    assert (K1 : kept h1 K) by (eapply kept_change; [|exact D1|exact HK]; intros y Hy; do 2 right; exact Hy).
    eapply pays_bind; [apply (HD C1'); [apply kept_incl with (2 := K1); intros y Hy; right; exact Hy|lia]|]. intros ? h2 i ((C2 & D2 & B2) & Hi).
    eapply pays_mono; [apply (HD C2); [|lia]|].
    { eapply kept_change; [|exact D2|exact K1]. intros y Hy. right. exact Hy. }
    cbn beta. intros ? h3 j ((C3 & D3 & B3) & Hj). split; [|nia]. split; [exact C3|]. split; [|lia].
    eapply change_trans; [eapply change_incl; [|exact D1]|]. { intros y Hy. do 2 right. exact Hy. }
    eapply change_trans; [eapply change_incl; [|exact D2]|exact D3]. intros y Hy. right. exact Hy.
Qed.
End Loop.

Lemma pays_rc_drop arc N fuel : forall depth h K x, consistent h (x :: K) -> kept h K -> bc h <= N + length keep ->
  pays (rc_work arc fuel depth x) h (paid N K h).
Proof.
  induction depth as [|depth IH]; intros h K x HC HK HN; [apply pays_nofuel|].
  destruct (consistent_live x HC (or_introl eq_refl)) as (s & w & n & E).
  assert (EN : node_at h x = Some n) by (unfold node_at; rewrite E; reflexivity).
  eapply pays_bind with (P := fun x' h' k => (consistent h' (x' :: K) /\ change K h h' /\ bc h' <= bc h /\
    ((exists n, node_at h' x' = Some n /\ branches n = None) \/ refs (x' :: K) h' x' <> 1)) /\ k + (5 * N + 11) * bc h' <= (5 * N + 11) * bc h + 2).
  - eapply pays_bind; [apply (pays_class arc _ _ EN)|]. intros ? ? ? (-> & -> & ->). unfold node_class.
    destruct (branches n) as [[l r]|] eqn:EB.
    2:{ apply pays_ret. split; [|lia]. split; [exact HC|]. split; [apply change_refl|]. split; [lia|]. eauto. }
    assert (HB : branches n <> None) by congruence.
    eapply pays_bind; [eapply pays_erases; [apply erases_trytake|apply (ends_trytake arc HC EN HB)]|]. cbn beta. intros [[d|] x'] h1 ? (HT & ->).
    + destruct HT as (-> & C1 & D1 & B1 & E1). rewrite (branches_kids _ EB) in C1, D1. cbn [app] in C1, D1.
      assert (C1' : consistent h1 (l :: r :: x' :: K)).
      { eapply consistent_perm; [|exact C1]. apply (Permutation_middle [l; r] K x'). }
      eapply pays_bind.
      * eapply pays_rc_loop with (N := N) (m := N) (K := x' :: K); [exact IH|exact EB|exact C1'| |lia|cbn; lia].
        apply kept_incl with (K := K); [intros y Hy; right; exact Hy|]. eapply kept_change; [|exact D1|exact HK]. intros y Hy. do 2 right. exact Hy.
      * cbn beta. intros ? h2 k ((C2 & D2 & B2) & Hk). apply pays_ret. split; [|nia]. split; [exact C2|]. split; [|split; [lia|]].
        -- eapply change_trans; [eapply change_incl; [|exact D1]|eapply change_incl; [|exact D2]]; intros y Hy; [do 2 right|right]; exact Hy.
        -- left. exists leaf. split; [|reflexivity]. rewrite (ch_frame D2) by (apply reach_root; left; reflexivity). unfold node_at. rewrite E1. reflexivity.
    + destruct HT as (-> & C1 & D1 & B1 & E1 & R1). apply pays_ret. split; [|rewrite B1; lia]. split; [exact C1|]. split; [|split; [lia|]].
      * eapply change_incl; [|exact D1]. intros y Hy. right. exact Hy.
      * right. destruct (cons_count HC _ E) as [S1 _]. rewrite E in E1. destruct (cons_count C1 _ E1) as [S2 _]. lia.
  - intros x' h1 k ((C1 & D1 & B1 & HO) & Hk). destruct (consistent_live x' C1 (or_introl eq_refl)) as (s' & w' & n' & E1).
    eapply pays_bind; [eapply pays_erases; [apply erases_silent|apply (ends_read _ _ E1)]|]. cbn beta. intros ? ? ? ((-> & ->) & ->).
    assert (G : forall m, pays m h1 (fun u h' k => after K h1 u h' /\ k = 0) -> pays m h1 (fun u h'' j => paid N K h u h'' (k + (0 + j)))).
    { intros m Hm. eapply pays_mono; [exact Hm|]. cbn beta. intros ? h2 ? ((C2 & D2 & B2) & ->). split; [|nia]. split; [exact C2|]. split; [|lia]. eapply change_trans; eauto. }
    apply G. destruct s' as [|s']; [|eapply pays_erases; [apply erases_silent|apply ends_release_shared; assumption]].
    destruct HO as [(n0 & EN0 & HB)|HO].
    + unfold node_at in EN0. rewrite E1 in EN0. injection EN0 as ->.
      assert (ER : erases (H := heap) (fun k => k = 0)
        (d_bind (silent (write x' (Some (Cell 0 w' None)))) (fun _ => d_bind (match n0 with
            | NComb a b | NList a b => d_bind (rc_work arc fuel depth a) (fun _ => rc_work arc fuel depth b)
            | NLeaf (Some v) => silent (drop_value v) | NLeaf None => d_ret tt end)
          (fun _ => match w' with 0 => silent (write x' None) | S _ => d_ret tt end)))
        (d_bind (write x' (Some (Cell 0 w' None))) (fun _ => d_bind (match n0 with NLeaf (Some v) => drop_value v | _ => d_ret tt end) (fun _ =>
          match w' with 0 => write x' None | S _ => d_ret tt end)))).
      { eapply erases_bind with (B2 := fun k => k = 0); [apply erases_silent| |cbn beta; intros; lia]. intros _.
        eapply erases_bind with (B1 := fun k => k = 0) (B2 := fun k => k = 0); [| |cbn beta; intros; lia].
        - destruct n0 as [a b|a b|[v|]]; try discriminate HB; [apply erases_silent|apply erases_ret; reflexivity].
        - intros _. destruct w'; [apply erases_silent|apply erases_ret; reflexivity]. }
      eapply pays_erases; [exact ER|]. eapply (@ends_release_leaf _ _ _ _ _ _ _ C1 E1 HB). intros h2. destruct n0 as [a b|a b|[v|]]; try discriminate HB; cbn.
      * reflexivity.
      * rewrite app_nil_r. destruct h2; reflexivity.
    + destruct (cons_count C1 _ E1) as [S1 _]. cbn [strong] in S1. congruence.
Qed.
End Kept.

(** The branches in a heap. *)
Definition branch_list h : list nat := filter (fun x => branchy (cell_at h x)) (seq 0 (length (cells h))).
Lemma branch_list_length h : length (branch_list h) = bc h.
Proof.
  unfold DropRcFacts.bc, branch_cells. rewrite of_all_onto, <- (count_filter (cells h) 0). unfold branch_list, cell_at. f_equal. apply filter_ext.
  intros x. rewrite Nat.sub_0_r. reflexivity.
Qed.

Theorem rc_work_bound arc h K x fuel depth h' n : consistent h (x :: K) -> rc_work arc fuel depth x (h, 0) = Ok (tt, (h', n)) ->
  bc h' <= bc h /\ n <= 5 * ((bc h - bc h') * (bc h - bc h')) + 11 * (bc h - bc h') + 2.
Proof.
  intros HC E.
  assert (A0 : after K h tt h').
  { pose proof (@pays_rc_drop [] (NoDup_nil _) arc (bc h) fuel depth h K x HC) as P. specialize (P ltac:(intros y []) ltac:(lia) 0).
    rewrite E in P. destruct P as (k & _ & P & _). exact P. }
  destruct A0 as (C' & D' & B'). split; [exact B'|].
  assert (ND : NoDup (branch_list h')) by apply NoDup_filter, seq_NoDup.
  assert (HK : kept (branch_list h') h K).
  { intros y Hy. apply filter_In in Hy. destruct Hy as [_ Hy]. rewrite branchy_node in Hy. destruct (node_at h' y) as [m|] eqn:EM; [|discriminate].
    assert (HR : reach h K y) by (eapply frame_reach'; [exact (ch_frame D')|eapply all_reachable; eauto]). split; [exact HR|].
    rewrite branchy_node, <- (ch_frame D' HR), EM. exact Hy. }
  pose proof (@pays_rc_drop (branch_list h') ND arc (bc h - bc h') fuel depth h K x HC HK) as P. rewrite branch_list_length in P.
  specialize (P ltac:(lia) 0). rewrite E in P. destruct P as (k & -> & _ & P). cbn [Nat.add]. nia.
Qed.
End Rc.
