(** Changes to a heap of counted references. *)
From Coq Require Import List Arith Lia Permutation Bool.
From Verif.Model Require Import Prelude Drop DropRc.
From Verif.Spec Require Import Drops.
Import ListNotations.
Set Implicit Arguments.

Section Heap.
Context {X : Type}.
Local Notation heap := (heap X).
Local Notation cell := (cell X).
Local Notation node := (node nat X).
Local Notation Cell := (@Cell X).
Implicit Types (h : heap) (K : list nat).

Definition upd h x oc : heap := Heap (update (cells h) x oc) (dropped h).
Definition grow h c : heap := Heap (cells h ++ [Some c]) (dropped h).
Definition onto {A} (f : node -> list A) (oc : option cell) : list A :=
  match oc with Some c => match value c with Some n => f n | None => [] end | None => [] end.
Definition count K x := count_occ Nat.eq_dec K x.
Definition ostrong (oc : option cell) : nat := match oc with Some c => strong c | None => 0 end.

Lemma update_nth A (l : list A) x a y : x < length l -> nth_error (update l x a) y = if y =? x then Some a else nth_error l y.
Proof.
  revert x y. induction l as [|b l IH]; intros [|x] [|y] Hx; cbn in *; try lia; auto. apply IH. lia.
Qed.
Lemma update_length A (l : list A) x a : length (update l x a) = length l.
Proof. revert x. induction l as [|b l IH]; intros [|x]; cbn; auto. Qed.
Lemma cell_at_length h x c : cell_at h x = Some c -> x < length (cells h).
Proof. unfold cell_at. destruct (nth_error _ _) eqn:E; [|discriminate]. intros _. apply nth_error_Some. congruence. Qed.
Lemma cell_at_upd h x c oc y : cell_at h x = Some c -> cell_at (upd h x oc) y = if y =? x then oc else cell_at h y.
Proof.
  intros Hc. apply cell_at_length in Hc. unfold cell_at. cbn. rewrite update_nth by assumption. destruct (y =? x); auto.
Qed.
Lemma cell_at_grow h c y : cell_at (grow h c) y = if y =? length (cells h) then Some c else cell_at h y.
Proof.
  unfold cell_at. cbn. destruct (Nat.eqb_spec y (length (cells h))) as [->|].
  - rewrite nth_error_app2, Nat.sub_diag by lia. reflexivity.
  - destruct (Nat.lt_ge_cases y (length (cells h))).
    + rewrite nth_error_app1 by assumption. reflexivity.
    + rewrite nth_error_app2 by assumption. destruct (y - length (cells h)) eqn:E; [lia|].
      rewrite (proj2 (nth_error_None (cells h) y)) by lia. destruct n0; reflexivity.
Qed.
Lemma cell_at_out h x : length (cells h) <= x -> cell_at h x = None.
Proof. intros. unfold cell_at. rewrite (proj2 (nth_error_None _ _)); auto. Qed.

Lemma of_all_onto A (f : node -> list A) h : of_all f h = flat_map (onto f) (cells h).
Proof. unfold of_all. apply flat_map_ext. intros [[s w [n|]]|]; reflexivity. Qed.
Lemma flat_map_update A B (g : A -> list B) (l : list A) x a b : nth_error l x = Some b ->
  Permutation (flat_map g (update l x a) ++ g b) (flat_map g l ++ g a).
Proof.
  revert x. induction l as [|d l IH]; intros [|x] E; try discriminate; cbn in *.
  - injection E as ->. rewrite <- app_assoc, Permutation_app_comm, (Permutation_app_comm (flat_map g l) (g b)). reflexivity.
  - rewrite <- !app_assoc. apply Permutation_app_head. apply IH. exact E.
Qed.
Lemma of_all_upd A (f : node -> list A) h x c oc : cell_at h x = Some c ->
  Permutation (of_all f (upd h x oc) ++ onto f (Some c)) (of_all f h ++ onto f oc).
Proof.
  intros E. rewrite !of_all_onto. cbn [cells upd]. apply flat_map_update.
  unfold cell_at in E. destruct (nth_error _ _); congruence.
Qed.
Lemma of_all_grow A (f : node -> list A) h c : of_all f (grow h c) = of_all f h ++ onto f (Some c).
Proof. rewrite !of_all_onto. cbn [cells grow]. rewrite flat_map_app. cbn. rewrite app_nil_r. reflexivity. Qed.
Lemma count_perm l l' x : Permutation l l' -> count l x = count l' x.
Proof. intros P. unfold count. revert x. apply (Permutation_count_occ Nat.eq_dec). exact P. Qed.
Lemma count_app l l' x : count (l ++ l') x = count l x + count l' x.
Proof. apply count_occ_app. Qed.
Lemma count_cons y l x : count (y :: l) x = (if y =? x then 1 else 0) + count l x.
Proof.
  unfold count. cbn. destruct (Nat.eq_dec y x) as [->|N]; [rewrite Nat.eqb_refl; lia|].
  rewrite (proj2 (Nat.eqb_neq y x)) by assumption. lia.
Qed.
Lemma count_In l x : In x l <-> 0 < count l x.
Proof. apply (count_occ_In Nat.eq_dec). Qed.
Lemma count_nil x : count [] x = 0. Proof. reflexivity. Qed.
Lemma refs_count K h x : refs K h x = count K x + count (edges h) x.
Proof. apply count_app. Qed.
Lemma edges_upd h x c oc y : cell_at h x = Some c ->
  count (edges (upd h x oc)) y + count (onto kids (Some c)) y = count (edges h) y + count (onto kids oc) y.
Proof. intros E. rewrite <- !count_app. apply count_perm. apply of_all_upd. exact E. Qed.

Lemma node_at_edges h x n y : node_at h x = Some n -> In y (kids n) -> In y (edges h).
Proof.
  unfold node_at, cell_at, edges. rewrite of_all_onto. intros E HI. apply in_flat_map.
  destruct (nth_error (cells h) x) as [[c|]|] eqn:EN; try discriminate.
  exists (Some c). split; [eapply nth_error_In; eauto|]. cbn. rewrite E. exact HI.
Qed.
Lemma edges_node_at h y : In y (edges h) -> exists x n, node_at h x = Some n /\ In y (kids n).
Proof.
  unfold edges. rewrite of_all_onto. intros HI. apply in_flat_map in HI. destruct HI as (oc & H1 & H2).
  apply In_nth_error in H1. destruct H1 as (x & E). destruct oc as [c|]; [|contradiction].
  cbn in H2. destruct (value c) as [n|] eqn:EV; [|contradiction].
  exists x, n. unfold node_at, cell_at. rewrite E. auto.
Qed.

(** ** Keeping the heap consistent *)
Lemma consistent_upd h K1 K2 x c oc : consistent h K1 -> cell_at h x = Some c ->
  (forall c', oc = Some c' -> (value c' = None <-> strong c' = 0)) ->
  (forall y, count K2 y + count (onto kids oc) y + (if y =? x then strong c else 0) =
             count K1 y + count (onto kids (Some c)) y + (if y =? x then ostrong oc else 0)) ->
  (incl (onto kids oc) (onto kids (Some c)) \/ (count (edges h) x = 0 /\ ~ In x (onto kids oc))) ->
  consistent (upd h x oc) K2.
Proof.
  intros [HC HR [rank HA]] E HV HS HK.
  assert (R : forall y, refs K2 (upd h x oc) y + (if y =? x then strong c else 0) = refs K1 h y + (if y =? x then ostrong oc else 0)).
  { intros y. rewrite !refs_count. specialize (HS y). pose proof (edges_upd _ _ oc y E). lia. }
  assert (N : forall y, node_at (upd h x oc) y = if y =? x then match oc with Some c => value c | None => None end else node_at h y).
  { intros y. unfold node_at. rewrite (cell_at_upd _ _ _ _ E). destruct (y =? x); auto. }
  split.
  - intros y c' E'. rewrite (cell_at_upd _ _ _ _ E) in E'. specialize (R y). destruct (Nat.eqb_spec y x) as [E0|NE]; [subst y|].
    + subst oc. split; [|auto]. destruct (HC _ _ E) as [HE _]. cbn in R. lia.
    + destruct (HC _ _ E') as [HS' HV']. split; [lia|exact HV'].
  - intros y HI. apply count_In in HI. change (0 < refs K2 (upd h x oc) y) in HI. specialize (R y). rewrite N.
    destruct (Nat.eqb_spec y x) as [E0|NE]; [subst y|].
    + destruct (HC _ _ E) as [HE _]. destruct oc as [c'|]; cbn in R; [|lia]. specialize (HV _ eq_refl).
      destruct (value c'); [discriminate|]. exfalso. pose proof (proj1 HV eq_refl). lia.
    + apply HR. apply count_In. change (0 < refs K1 h y). lia.
  - destruct HK as [HK|[HK HX]].
    + exists rank. intros z n y Hz Hy. rewrite N in Hz. destruct (Nat.eqb_spec z x) as [E0|NE]; [subst z|]; [|eauto].
      destruct oc as [c'|]; [|discriminate]. assert (HI : In y (onto kids (Some c))) by (apply HK; cbn; rewrite Hz; exact Hy).
      cbn in HI. destruct (value c) as [n0|] eqn:EV; [|contradiction].
      eapply HA; [|exact HI]. unfold node_at. rewrite E. exact EV.
    + exists (fun y => if y =? x then S (list_max (map rank (onto kids oc))) else rank y).
      intros z n y Hz Hy. rewrite N in Hz. destruct (Nat.eqb_spec z x) as [E0|NE]; [subst z|].
      * destruct oc as [c'|]; [|discriminate]. cbn [onto] in *. rewrite Hz in *.
        destruct (Nat.eqb_spec y x) as [E0|NE]; [subst y|]; [contradiction|].
        apply Nat.lt_succ_r. pose proof (proj1 (list_max_le (map rank (kids n)) _) (Nat.le_refl _)) as HF.
        rewrite Forall_forall in HF. apply HF. apply in_map. exact Hy.
      * destruct (Nat.eqb_spec y x) as [E0|NE']; [subst y|]; [|eauto].
        exfalso. pose proof (node_at_edges _ _ _ Hz Hy) as HI. apply count_In in HI. lia.
Qed.

Lemma consistent_live h K x : consistent h K -> In x (K ++ edges h) -> exists s w n, cell_at h x = Some (Cell (S s) w (Some n)).
Proof.
  intros [HC HR _] HI. specialize (HR _ HI). unfold node_at in HR. destruct (cell_at h x) as [[s w v]|] eqn:E; [|congruence].
  cbn in HR. destruct v as [n|]; [|congruence]. destruct (HC _ _ E) as [_ HV]. cbn in HV.
  destruct s as [|s]; [exfalso; pose proof (proj2 HV eq_refl); discriminate|eauto].
Qed.
Lemma consistent_out h K x : consistent h K -> length (cells h) <= x -> refs K h x = 0.
Proof.
  intros HC HL. destruct (refs K h x) eqn:E; [reflexivity|]. exfalso.
  destruct (consistent_live x HC) as (s & w & v & E'); [apply count_In; change (0 < refs K h x); lia|].
  apply cell_at_length in E'. lia.
Qed.

Lemma consistent_grow h K n : consistent h K -> kids n = [] -> consistent (grow h (Cell 1 0 (Some n))) (length (cells h) :: K).
Proof.
  intros HC HK. pose proof (consistent_out HC (Nat.le_refl _)) as HO.
  assert (EE : edges (grow h (Cell 1 0 (Some n))) = edges h) by (unfold edges; rewrite of_all_grow; cbn; rewrite HK, app_nil_r; reflexivity).
  assert (R : forall y, refs (length (cells h) :: K) (grow h (Cell 1 0 (Some n))) y = (if y =? length (cells h) then 1 else 0) + refs K h y).
  { intros y. rewrite !refs_count, EE, count_cons, (Nat.eqb_sym y). lia. }
  assert (N : forall y, node_at (grow h (Cell 1 0 (Some n))) y = if y =? length (cells h) then Some n else node_at h y).
  { intros y. unfold node_at. rewrite cell_at_grow. destruct (y =? _); auto. }
  destruct HC as [HC HR [rank HA]]. split.
  - intros y c E. rewrite cell_at_grow in E. rewrite R. destruct (Nat.eqb_spec y (length (cells h))) as [E0|NE]; [subst y|].
    + injection E as <-. cbn. rewrite HO. split; [auto|]. split; discriminate.
    + apply HC. exact E.
  - intros y HI. rewrite N. apply count_In in HI. fold (refs (length (cells h) :: K) (grow h (Cell 1 0 (Some n))) y) in HI.
    change (0 < refs (length (cells h) :: K) (grow h (Cell 1 0 (Some n))) y) in HI. rewrite R in HI.
    destruct (Nat.eqb_spec y (length (cells h))) as [E0|NE]; [subst y|]; [discriminate|]. apply HR. apply count_In. exact HI.
  - exists rank. intros z m y Hz Hy. rewrite N in Hz. destruct (Nat.eqb_spec z (length (cells h))) as [E0|NE]; [subst z|]; [|eauto].
    injection Hz as <-. rewrite HK in Hy. contradiction.
Qed.

Lemma refs_perm K K' h x : Permutation K K' -> refs K h x = refs K' h x.
Proof. intros P. rewrite !refs_count. f_equal. apply count_perm. exact P. Qed.
Lemma consistent_perm K K' h : Permutation K K' -> consistent h K -> consistent h K'.
Proof.
  intros P [HC HR HA]. split; auto.
  - intros x c E. rewrite <- (refs_perm h x P). auto.
  - intros x HI. apply HR. apply (Permutation_in (l := K' ++ edges h)); [|exact HI]. apply Permutation_app_tail. symmetry. exact P.
Qed.

(** ** What cannot be reached *)
Lemma reach_live h K0 K x : consistent h K0 -> incl K K0 -> reach h K x -> In x (K0 ++ edges h).
Proof.
  intros HC HI HR. induction HR as [x Hx|x n y HR IH Hx Hy]; apply in_or_app; [left; auto|right]. eapply node_at_edges; eauto.
Qed.
Lemma reach_app h K1 K2 x : reach h (K1 ++ K2) x <-> reach h K1 x \/ reach h K2 x.
Proof.
  split.
  - intros HR. induction HR as [x Hx|x n y HR IH Hx Hy].
    + apply in_app_or in Hx. destruct Hx; [left|right]; apply reach_root; assumption.
    + destruct IH; [left|right]; eapply reach_kid; eauto.
  - intros [HR|HR]; induction HR as [x Hx|x n y HR IH Hx Hy].
    1, 3: apply reach_root; apply in_or_app; auto.
    all: eapply reach_kid; eauto.
Qed.
Lemma reach_incl h K1 K2 x : incl K1 K2 -> reach h K1 x -> reach h K2 x.
Proof. intros HI HR. induction HR as [x Hx|x n y HR IH Hx Hy]; [apply reach_root; auto|eapply reach_kid; eauto]. Qed.
Lemma unreachable h K x w v : consistent h (x :: K) -> cell_at h x = Some (Cell 1 w v) -> ~ reach h K x /\ count K x = 0 /\ count (edges h) x = 0.
Proof.
  intros [HC _ _] E. destruct (HC _ _ E) as [HS _]. cbn [strong] in HS. rewrite refs_count, count_cons, Nat.eqb_refl in HS.
  split; [|lia]. intros HR. inversion HR as [? HI|? n ? HR' Hx Hy]; subst.
  - apply count_In in HI. lia.
  - pose proof (node_at_edges _ _ _ Hx Hy) as HI. apply count_In in HI. lia.
Qed.
Lemma all_reachable h K x n : consistent h K -> node_at h x = Some n -> reach h K x.
Proof.
  intros HC. pose proof HC as [HCC HR [rank HA]]. unfold node_at at 1. intros E.
  assert (HI : In x (K ++ edges h)).
  { destruct (cell_at h x) as [c|] eqn:EC; [|discriminate]. destruct (HCC _ _ EC) as [HS HV]. apply count_In.
    change (0 < refs K h x). rewrite <- HS. destruct (strong c); [|lia]. rewrite (proj2 HV eq_refl) in E. discriminate. }
  clear E. remember (list_max (map rank (K ++ edges h)) - rank x) as m eqn:Em.
  assert (HM : list_max (map rank (K ++ edges h)) - rank x <= m) by lia. clear Em. revert x HI HM.
  pose proof (proj1 (list_max_le (map rank (K ++ edges h)) _) (Nat.le_refl _)) as HF. rewrite Forall_forall in HF.
  induction m as [|m IH]; intros x HI HM; apply in_app_or in HI; destruct HI as [HI|HI]; try (apply reach_root; exact HI);
    destruct (edges_node_at _ _ HI) as (p & k & Hp & Hk); pose proof (HA _ _ _ Hp Hk) as HL.
  all: assert (HP : In p (K ++ edges h)).
  1, 3: unfold node_at in Hp; destruct (cell_at h p) as [c|] eqn:EC; [|discriminate]; destruct (HCC _ _ EC) as [HS HV]; apply count_In;
    change (0 < refs K h p); rewrite <- HS; destruct (strong c); [rewrite (proj2 HV eq_refl) in Hp; discriminate|lia].
  all: assert (HB : rank p <= list_max (map rank (K ++ edges h))) by (apply HF; apply in_map; exact HP).
  - lia.
  - eapply reach_kid; [|exact Hp|exact Hk]. apply IH; [exact HP|lia].
Qed.

(** ** What happens to the cells *)
Definition gone (w : nat) : option cell := match w with 0 => None | S _ => Some (Cell 0 w None) end.
Definition history h h' : Prop :=
  length (cells h) <= length (cells h') /\
  forall x, match cell_at h x with
            | Some (DropRc.Cell (S _) w _) => cell_at h' x = gone w \/ exists s n, cell_at h' x = Some (Cell (S s) w n)
            | Some c => cell_at h' x = Some c
            | None => cell_at h' x = None \/ (length (cells h) <= x /\ exists s n, cell_at h' x = Some (Cell (S s) 0 n))
            end.
Lemma history_refl h : history h h.
Proof. split; [lia|]. intros x. destruct (cell_at h x) as [[[|s] w v]|]; auto. right. eauto. Qed.
Lemma history_trans h1 h2 h3 : history h1 h2 -> history h2 h3 -> history h1 h3.
Proof.
  intros [L1 H1] [L2 H2]. split; [lia|]. intros x. specialize (H1 x). specialize (H2 x).
  destruct (cell_at h1 x) as [[[|s] w v]|] eqn:E1.
  - rewrite H1 in H2. exact H2.
  - destruct H1 as [H1|(s' & n & H1)]; rewrite H1 in H2.
    + destruct w; cbn in *; [|auto]. left. destruct H2 as [H2|[H2 _]]; [exact H2|]. apply cell_at_length in E1. lia.
    + exact H2.
  - destruct H1 as [H1|(HL & s & n & H1)]; rewrite H1 in H2.
    + destruct H2 as [H2|(H2 & H3)]; [auto|]. right. split; [lia|auto].
    + destruct H2 as [H2|H2]; [left; exact H2|]. right. auto.
Qed.

(** The datums reached from [K] stay as they are. *)
Definition frame K h h' : Prop := forall x, reach h K x -> node_at h' x = node_at h x.
Lemma frame_reach K h h' x : frame K h h' -> reach h K x -> reach h' K x.
Proof.
  intros HF HR. induction HR as [x Hx|x n y HR IH Hx Hy]; [apply reach_root; exact Hx|].
  eapply reach_kid; [exact IH| |exact Hy]. rewrite HF; assumption.
Qed.
Lemma frame_reach' K h h' x : frame K h h' -> reach h' K x -> reach h K x.
Proof.
  intros HF HR. induction HR as [x Hx|x n y HR IH Hx Hy]; [apply reach_root; exact Hx|].
  rewrite HF in Hx by assumption. eapply reach_kid; [exact IH|exact Hx|exact Hy].
Qed.
Lemma frame_trans K h1 h2 h3 : frame K h1 h2 -> frame K h2 h3 -> frame K h1 h3.
Proof. intros F1 F2 x HR. rewrite F2 by (eapply frame_reach; eauto). apply F1. exact HR. Qed.
Lemma frame_refl K h : frame K h h. Proof. intros x _. reflexivity. Qed.
Lemma frame_incl K1 K2 h h' : incl K1 K2 -> frame K2 h h' -> frame K1 h h'.
Proof. intros HI HF x HR. apply HF. eapply reach_incl; eauto. Qed.

Record change K h h' : Prop := {
  ch_frame : frame K h h';
  ch_history : history h h';
  ch_log : exists xs, dropped h' = dropped h ++ xs /\ Permutation (xs ++ payloads h') (payloads h) }.
Lemma change_refl K h : change K h h.
Proof. split; [apply frame_refl|apply history_refl|]. exists []. rewrite app_nil_r. auto. Qed.
Lemma change_trans K h1 h2 h3 : change K h1 h2 -> change K h2 h3 -> change K h1 h3.
Proof.
  intros [A1 A2 (xs & A3 & A4)] [B1 B2 (ys & B3 & B4)]. split; [eapply frame_trans; eauto|eapply history_trans; eauto|].
  exists (xs ++ ys). rewrite B3, A3, app_assoc. split; [reflexivity|]. rewrite <- app_assoc, B4. exact A4.
Qed.
Lemma change_incl K1 K2 h h' : incl K1 K2 -> change K2 h h' -> change K1 h h'.
Proof. intros HI [A B C]. split; auto. eapply frame_incl; eauto. Qed.
End Heap.
