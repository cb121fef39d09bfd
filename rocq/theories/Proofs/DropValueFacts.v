(** Dropping datums that are held by value, and bare references. *)
From Coq Require Import List Arith Lia Permutation Bool.
From Verif.Model Require Import Prelude Drop DropRc DropCost DropValue.
From Verif.Spec Require Import Drops DropValues.
From Verif.Proofs Require Import DropFacts HeapFacts DropRcFacts DropRcDepth DropCostFacts DropCostTree.
Import ListNotations.
Set Implicit Arguments.

Local Ltac by_silent := eapply erases_le; [apply erases_silent|intros; exact I].

Local Ltac counts := intros; repeat rewrite ?count_app, ?count_cons, ?count_nil; cbn [onto value strong ostrong kids temp_leaf branches];
  repeat match goal with |- context [?a =? ?b] => destruct (Nat.eqb_spec a b); subst end; rewrite ?count_nil; try lia.

(** ** Boxes *)
Section Box.
Context {X : Type}.
Implicit Types (rs : list (node (bref X) X + X)).

Lemma box_results fuel depth : forall rs h, 2 <= depth ->
  (forall r, In r (flat_map fields rs) -> 2 * branch_count r <= fuel) ->
  exists evs, box_results_drop fuel depth rs h = Ok (tt, h ++ evs) /\ Permutation evs (all_contents rs).
Proof.
  intros rs h HD. destruct depth as [|[|depth]]; [lia|lia|]. clear HD. revert h.
  induction rs as [|r rs IH]; intros h HF; [exists []; rewrite app_nil_r; auto|].
  assert (HR : exists evs, result_drop (box_drop fuel (S (S depth))) (fun x => happens (Dropped x)) r h = Ok (tt, h ++ evs) /\
    Permutation evs (flat_map contents (fields r) ++ map (@Dropped X) (held r))).
  { assert (HB : forall a b, In a (fields r) -> In b (fields r) -> exists evs,
      d_bind (box_drop fuel (S (S depth)) a) (fun _ => box_drop fuel (S (S depth)) b) h = Ok (tt, h ++ evs) /\ Permutation evs (contents a ++ contents b)).
    { intros a b Ha Hb. destruct (@box_drop_spec X fuel depth a h) as (e1 & E1 & P1); [apply HF; cbn; apply in_or_app; auto|].
      destruct (@box_drop_spec X fuel depth b (h ++ e1)) as (e2 & E2 & P2); [apply HF; cbn; apply in_or_app; auto|].
      exists (e1 ++ e2). unfold d_bind. rewrite E1, E2, app_assoc. split; [reflexivity|]. apply Permutation_app; assumption. }
    destruct r as [[a b|a b|[x|]]|x]; cbn [result_drop datum_drop fields held flat_map map app].
    - rewrite !app_nil_r. apply HB; cbn; auto.
    - rewrite !app_nil_r. apply HB; cbn; auto.
    - exists [Dropped x]. split; [reflexivity|auto].
    - exists []. rewrite app_nil_r. split; [reflexivity|auto].
    - exists [Dropped x]. split; [reflexivity|auto]. }
  destruct HR as (e1 & E1 & P1). destruct (IH (h ++ e1)) as (e2 & E2 & P2).
  { intros r' Hr'. apply HF. cbn. apply in_or_app. auto. }
  exists (e1 ++ e2). split; [|cbn; apply Permutation_app; assumption].
  unfold box_results_drop in *. cbn [results_drop]. unfold d_bind. rewrite E1, E2, app_assoc. reflexivity.
Qed.

Lemma erases_results fuel depth : forall rs, erases any (box_results_work fuel depth rs) (box_results_drop fuel depth rs).
Proof.
  induction rs as [|r rs IH]; [apply erases_ret; exact I|]. eapply erases_then with (B1 := any); [|intros; exact IH].
  destruct r as [[a b|a b|[x|]]|x]; cbn [result_drop datum_drop].
  - eapply erases_then; [apply erases_box|intros; apply erases_box].
  - eapply erases_then; [apply erases_box|intros; apply erases_box].
  - by_silent.
  - apply erases_ret. exact I.
  - by_silent.
Qed.

Lemma pays_results fuel depth : forall rs h,
  pays (box_results_work fuel depth rs) h (fun _ _ k => k <= 11 * all_branches rs + length (flat_map fields rs)).
Proof.
  induction rs as [|r rs IH]; intros h; [apply pays_ret; lia|].
  eapply pays_bind with (P := fun _ _ k => k <= 11 * list_sum (map branch_count (fields r)) + length (fields r)).
  - assert (HB : forall a b, pays (d_bind (box_work fuel depth a) (fun _ => box_work fuel depth b)) h
      (fun _ _ k => k <= 11 * list_sum (map (@branch_count X) [a; b]) + length [a; b])).
    { intros a b. eapply pays_bind; [apply pays_box|]. intros ? h1 k1 H1. eapply pays_mono; [apply pays_box|].
      intros ? h2 k2 H2. cbn [map list_sum fold_right length]. cbn in H1, H2. lia. }
    assert (HS : forall x, pays (silent (happens (Dropped x))) h (fun _ _ k => k <= 11 * 0 + 0)).
    { intros x. eapply pays_mono; [eapply pays_erases with (P := fun _ _ => True); [apply erases_silent|do 2 eexists; split; reflexivity]|].
      cbn. intros; lia. }
    destruct r as [[a b|a b|[x|]]|x]; cbn [result_drop datum_drop fields].
    + apply HB.
    + apply HB.
    + apply HS.
    + apply pays_ret. cbn. lia.
    + apply HS.
  - intros ? h1 k1 H1. eapply pays_mono; [apply IH|]. intros ? h2 k2 H2. unfold all_branches in *. cbn [flat_map].
    rewrite map_app, list_sum_app, app_length. lia.
Qed.
End Box.

(** ** Counted references *)
Section Counted.
Context {X : Type}.
Local Notation heap := (heap X).
Local Notation Cell := (@Cell X).
Local Notation bc := (@bc X).
Implicit Types (h : heap) (K : list nat).

(** As [after], and the values [vs] are dropped too. *)
Definition after_v (vs : list X) K h (_ : unit) h' : Prop :=
  consistent h' K /\ frame K h h' /\ history h h' /\ bc h' <= bc h /\
  exists xs zs, dropped h' = dropped h ++ zs /\ Permutation zs (vs ++ xs) /\ Permutation (xs ++ payloads h') (payloads h).

Lemma after_v_of K h u h' : after K h u h' -> after_v [] K h u h'.
Proof. intros (C & [F Y (xs & E & P)] & B). repeat (split; [assumption|]). exists xs, xs. auto. Qed.
Lemma after_v_trans vs1 vs2 K K1 h u h1 v h2 : incl K K1 -> after_v vs1 K1 h u h1 -> after_v vs2 K h1 v h2 -> after_v (vs1 ++ vs2) K h v h2.
Proof.
  intros HI (C1 & F1 & Y1 & B1 & xs1 & zs1 & E1 & P1 & Q1) (C2 & F2 & Y2 & B2 & xs2 & zs2 & E2 & P2 & Q2).
  split; [exact C2|]. split; [eapply frame_trans; [eapply frame_incl; [exact HI|exact F1]|exact F2]|].
  split; [eapply history_trans; eauto|]. split; [lia|]. exists (xs1 ++ xs2), (zs1 ++ zs2). rewrite E2, E1, app_assoc. split; [reflexivity|]. split.
  - rewrite P1, P2. rewrite <- !app_assoc. apply Permutation_app_head. rewrite !app_assoc. apply Permutation_app_tail. apply Permutation_app_comm.
  - rewrite <- app_assoc, Q2. exact Q1.
Qed.
Lemma after_v_drop_value K h x : consistent h K -> ends (drop_value x) h (fun u h' => after_v [x] K h u h' /\ cells h' = cells h).
Proof.
  intros HC. exists tt, (Heap (cells h) (dropped h ++ [x])). split; [reflexivity|]. split; [|reflexivity].
  split; [destruct HC as [A B C]; split; [exact A|exact B|exact C]|]. split; [intros y _; reflexivity|].
  split; [exact (history_refl h)|]. split; [apply Nat.le_refl|]. exists [], [x]. auto.
Qed.

(** To the specification. *)
Lemma after_v_let_go vs K1 K h u h' : consistent h (K1 ++ K) -> after_v vs K h u h' -> let_go vs K h h'.
Proof.
  intros HC (C' & F & L & B & xs & zs & E & P & Q).
  assert (HR : released K h (Heap (cells h') (dropped h ++ xs))).
  { apply (@after_released_many X h K1 K u _ HC). split; [destruct C' as [A1 A2 A3]; split; [exact A1|exact A2|exact A3]|].
    split; [|exact B]. split; [exact F|exact L|]. exists xs. split; [reflexivity|exact Q]. }
  destruct HR as [R1 R2 R3 R4 R5 R6]. split; [exact C'|exact R2|exact R3|exact R4|exact R5|].
  exists zs. split; [exact E|]. rewrite P, <- app_assoc. apply Permutation_app_head. exact Q.
Qed.

(** Any way of dropping a reference that keeps an invariant. *)
Section Drop.
Context (drop : nat -> H (X:=X) unit) (K0 : list nat) (I : heap -> Prop).
Context (HI : forall h h', cells h' = cells h -> I h -> I h').
Context (HD : forall h K x, consistent h (x :: K) -> I h -> incl K0 K -> ends (drop x) h (fun u h' => after K h u h' /\ I h')).

Lemma pair_ends h K a b : consistent h (a :: b :: K) -> I h -> incl K0 K ->
  ends (d_bind (drop a) (fun _ => drop b)) h (fun u h' => after_v [] K h u h' /\ I h').
Proof.
  intros HC H0 HK. eapply ends_bind; [apply (HD HC H0); intros y Hy; right; auto|]. intros u h1 (A1 & I1).
  pose proof A1 as (C1 & _). eapply ends_mono; [apply (HD C1 I1 HK)|]. intros v h2 (A2 & I2). split; [|exact I2].
  change (@nil X) with (@nil X ++ []). eapply after_v_trans; [|apply after_v_of; exact A1|apply after_v_of; exact A2]. intros y Hy. right. exact Hy.
Qed.
Lemma datum_ends h K n : consistent h (kids n ++ K) -> I h -> incl K0 K ->
  ends (datum_drop drop (@drop_value X) n) h (fun u h' => after_v (payload n) K h u h' /\ I h').
Proof.
  intros HC H0 HK. destruct n as [a b|a b|[x|]]; cbn [datum_drop payload].
  - apply pair_ends; assumption.
  - apply pair_ends; assumption.
  - eapply ends_mono; [apply (@after_v_drop_value K h x HC)|]. intros u h' (A & E). split; [exact A|eauto].
  - apply ends_ret. split; [|exact H0]. apply after_v_of. split; [exact HC|]. split; [apply change_refl|apply Nat.le_refl].
Qed.
Lemma results_ends : forall rs h K, consistent h (flat_map fields rs ++ K) -> I h -> incl K0 K ->
  ends (results_drop drop (@drop_value X) rs) h (fun u h' => after_v (flat_map held rs) K h u h' /\ I h').
Proof.
  induction rs as [|r rs IH]; intros h K HC H0 HK.
  - apply ends_ret. split; [|exact H0]. apply after_v_of. split; [exact HC|]. split; [apply change_refl|apply Nat.le_refl].
  - cbn [results_drop]. set (K1 := flat_map fields rs ++ K). assert (HK1 : incl K K1) by (intros y Hy; apply in_or_app; auto).
    eapply ends_bind with (P := fun u h' => after_v (held r) K1 h u h' /\ I h').
    + cbn [flat_map] in HC. rewrite <- app_assoc in HC. fold K1 in HC.
      assert (HKK : incl K0 K1) by (intros y Hy; auto).
      destruct r as [n|x]; cbn [result_drop].
      * assert (EF : fields (inl n) = kids n) by (destruct n as [a b|a b|[x|]]; reflexivity).
        assert (EH : held (inl n) = payload n) by (destruct n as [a b|a b|[x|]]; reflexivity).
        rewrite EH. rewrite EF in HC. apply datum_ends; assumption.
      * eapply ends_mono; [apply (@after_v_drop_value K1 h x HC)|]. intros u h' (A & E). split; [exact A|eauto].
    + intros u h1 (A1 & I1). pose proof A1 as (C1 & _). eapply ends_mono; [apply (IH h1 K C1 I1 HK)|]. intros v h2 (A2 & I2).
      split; [|exact I2]. cbn [flat_map]. eapply after_v_trans; [exact HK1|exact A1|exact A2].
Qed.

(** A bare reference. *)
Lemma bare_ends (finish : node nat X -> H (X:=X) unit) h K x :
  (forall n, finish n = datum_drop drop (@drop_value X) n) ->
  (forall w n, cell_at h x = Some (Cell 1 w (Some n)) -> I (upd h x (Some (Cell 0 w None)))) ->
  consistent h (x :: K) -> incl K0 K ->
  ends (d_bind (read x) (fun c => match c with
        | DropRc.Cell (S (S s)) w v => write x (Some (Cell (S s) w v))
        | DropRc.Cell 1 w (Some n) =>
            d_bind (write x (Some (Cell 0 w None))) (fun _ =>
            d_bind (finish n) (fun _ => match w with 0 => write x None | S _ => d_ret tt end))
        | _ => d_panic
        end)) h (after K h).
Proof.
  intros HF HU HC HK. destruct (consistent_live x HC (or_introl eq_refl)) as (s & w & n & E).
  eapply ends_bind; [apply (ends_read _ _ E)|]. intros ? ? (-> & ->). destruct s as [|s]; [|apply ends_release_shared; assumption].
  set (h1 := upd h x (Some (Cell 0 w None))). destruct (unreachable HC E) as (U1 & U2 & U3).
  assert (E1 : forall y, cell_at h1 y = if y =? x then Some (Cell 0 w None) else cell_at h y) by (intros; apply (cell_at_upd _ _ _ _ E)).
  assert (C1 : consistent h1 (kids n ++ K)).
  { eapply consistent_upd; [exact HC|exact E|..]; [intros c' [= <-]; cbn; tauto|counts|left; intros y []]. }
  assert (F1 : frame K h h1).
  { intros y HR. unfold node_at. rewrite E1. destruct (Nat.eqb_spec y x); [subst; contradiction|reflexivity]. }
  assert (P1 : Permutation (payload n ++ payloads h1) (payloads h)).
  { pose proof (of_all_upd payload _ _ (Some (Cell 0 w None)) E) as P. cbn [onto value] in P. rewrite app_nil_r in P.
    rewrite Permutation_app_comm. exact P. }
  assert (B1 : bc h1 <= bc h).
  { pose proof (bc_upd _ _ (Some (Cell 0 w None)) E) as P. cbn [oweight value] in P. unfold h1. lia. }
  eapply ends_bind; [apply ends_write|]. intros ? ? ->. fold h1.
  eapply ends_bind; [rewrite HF; apply (datum_ends _ C1 (HU _ _ E) HK)|]. intros ? h2 (A2 & _).
  destruct A2 as (C2 & F2 & Y2 & B2 & xs & zs & L2 & Z2 & Q2).
  assert (E2 : cell_at h2 x = Some (Cell 0 w None)).
  { destruct Y2 as (_ & Y2). specialize (Y2 x). rewrite E1, Nat.eqb_refl in Y2. exact Y2. }
  assert (NX : forall y, reach h K y -> y <> x) by (intros y HR ->; contradiction).
  assert (PL : forall h', payloads h' = payloads h2 -> dropped h' = dropped h2 -> exists ys, dropped h' = dropped h ++ ys /\ Permutation (ys ++ payloads h') (payloads h)).
  { intros h' EP EL. exists zs. rewrite EL, L2. split; [reflexivity|]. rewrite EP, Z2, <- app_assoc, Q2. exact P1. }
  assert (HH : forall h', length (cells h') = length (cells h2) -> cell_at h' x = gone w -> (forall y, y <> x -> cell_at h' y = cell_at h2 y) -> history h h').
  { intros h' EL EX EY. destruct Y2 as (YL & Y2). split.
    - rewrite EL. cbn in YL. rewrite update_length in YL. exact YL.
    - intros y. destruct (Nat.eq_dec y x) as [->|N]; [rewrite E; left; exact EX|]. rewrite (EY _ N). specialize (Y2 y).
      rewrite E1, (proj2 (Nat.eqb_neq y x) N) in Y2. cbn [h1 upd cells] in Y2. unfold h1 in Y2. cbn [cells upd] in Y2. rewrite update_length in Y2. exact Y2. }
  destruct w as [|w].
  - exists tt, (upd h2 x None). split; [reflexivity|].
    assert (E3 : forall y, cell_at (upd h2 x None) y = if y =? x then None else cell_at h2 y) by (intros; apply (cell_at_upd _ _ _ _ E2)).
    split; [eapply consistent_upd; [exact C2|exact E2|..]; [discriminate|counts|left; intros y []]|]. split; [split|].
    + intros y HR. rewrite <- (F1 _ HR), <- (F2 _ (frame_reach F1 HR)). unfold node_at. rewrite E3, (proj2 (Nat.eqb_neq y x) (NX _ HR)). reflexivity.
    + apply HH; [cbn; apply update_length|rewrite E3, Nat.eqb_refl; reflexivity|].
      intros y N. rewrite E3, (proj2 (Nat.eqb_neq y x) N). reflexivity.
    + destruct (PL h2 eq_refl eq_refl) as (ys & G1 & G2). exists ys. split; [exact G1|]. rewrite <- G2. apply Permutation_app_head.
      pose proof (of_all_upd payload _ _ None E2) as P. cbn [onto value] in P. rewrite !app_nil_r in P. exact P.
    + pose proof (bc_upd _ _ None E2) as P. cbn [oweight value] in P. lia.
  - apply ends_ret. split; [exact C2|]. split; [split|lia].
    + eapply frame_trans; eauto.
    + apply HH; auto.
    + apply PL; reflexivity.
Qed.
End Drop.

(** ** Invariants *)
Definition coarse (fuel depth : nat) h : Prop := bc h < depth /\ bc h * bc h + bc h + 1 <= fuel.
Lemma coarse_drop arc fuel depth h K x : consistent h (x :: K) -> coarse fuel depth h ->
  ends (rc_drop arc fuel depth x) h (fun u h' => after K h u h' /\ coarse fuel depth h').
Proof.
  intros HC (H1 & H2). eapply ends_mono; [apply (rc_drop_after arc HC H1 H2)|]. intros u h' HA. split; [exact HA|].
  destruct HA as (_ & _ & B). split; [lia|nia].
Qed.
Definition fine (p : nat -> bool) K0 (fuel depth : nat) h : Prop := shielded p K0 h /\ 2 + T p h <= depth /\ bc h * bc h + bc h + 1 <= fuel.
Lemma fine_drop p K0 arc fuel depth h K x : consistent h (x :: K) -> fine p K0 fuel depth h -> incl K0 K ->
  ends (rc_drop arc fuel depth x) h (fun u h' => after K h u h' /\ fine p K0 fuel depth h').
Proof.
  intros HC (H1 & H2 & H3) HK. eapply ends_mono; [apply (@rc_drop_t X p K0 arc fuel depth h K x HC H1 HK); [|exact H3]|].
  - pose proof (dneed_le p h x). lia.
  - intros u h' (HA & _ & HT). split; [exact HA|]. destruct HA as (_ & D & B). split; [eapply shielded_change; eauto|]. split; [lia|nia].
Qed.
Lemma fine_cells p K0 fuel depth h h' : cells h' = cells h -> fine p K0 fuel depth h -> fine p K0 fuel depth h'.
Proof.
  intros E (H1 & H2 & H3). destruct h as [c d], h' as [c' d']. cbn in E. subst c'. split; [|split; [exact H2|exact H3]].
  intros x Hx. apply (@frame_reach X K0 (Heap c d) (Heap c d')); [intros y _; reflexivity|]. auto.
Qed.
Lemma fine_upd p K fuel depth h x w n : consistent h (x :: K) -> cell_at h x = Some (Cell 1 w (Some n)) ->
  fine p K fuel depth h -> fine p K fuel depth (upd h x (Some (Cell 0 w None))).
Proof.
  intros HC E (H1 & H2 & H3). destruct (unreachable HC E) as (U1 & U2 & U3).
  assert (HP : p x = false) by (apply (not_shielded H1 (incl_refl K) U1)).
  destruct (@upd_take X p h x w n (Some (Cell 0 w None)) HP E eq_refl) as (_ & HT); [intros c' [= <-]; cbn; lia|].
  pose proof (bc_upd _ _ (Some (Cell 0 w None)) E) as PB. cbn [oweight value] in PB.
  split; [|split; [lia|nia]]. intros y Hy. apply (@frame_reach X K h); [|auto].
  intros z HR. unfold node_at. rewrite (cell_at_upd _ _ _ _ E). destruct (Nat.eqb_spec z x); [subst; contradiction|reflexivity].
Qed.

(** ** All together *)
Theorem results_coarse arc fuel depth (rs : list (node nat X + X)) h K : consistent h (flat_map fields rs ++ K) -> coarse fuel depth h ->
  exists h', rc_results_drop arc fuel depth rs h = Ok (tt, h') /\ let_go (flat_map held rs) K h h'.
Proof.
  intros HC HI. destruct (@results_ends (rc_drop arc fuel depth) [] (coarse fuel depth)) with (rs := rs) (h := h) (K := K) as ([] & h' & E & A & _);
    [|intros; apply coarse_drop; assumption|exact HC|exact HI|intros y []|].
  - intros h1 h2 E. unfold coarse, bc, branch_cells, of_all. rewrite E. auto.
  - exists h'. split; [exact E|]. eapply after_v_let_go; eauto.
Qed.
Theorem results_fine arc fuel depth (rs : list (node nat X + X)) h K own : consistent h (flat_map fields rs ++ K) ->
  (forall y n, node_at h y = Some n -> In y own \/ reach h K y) -> 2 + shared_refs h own <= depth -> bc h * bc h + bc h + 1 <= fuel ->
  exists h', rc_results_drop arc fuel depth rs h = Ok (tt, h') /\ let_go (flat_map held rs) K h h'.
Proof.
  intros HC HO HD HF. destruct (own_T own HO) as (p & HP & HT).
  destruct (@results_ends (rc_drop arc fuel depth) K (fine p K fuel depth)) with (rs := rs) (h := h) (K := K) as ([] & h' & E & A & _);
    [apply fine_cells|intros; apply fine_drop; assumption|exact HC|split; [exact HP|split; [lia|exact HF]]|apply incl_refl|].
  exists h'. split; [exact E|]. eapply after_v_let_go; eauto.
Qed.
Theorem bare_fine arc fuel depth h K x own : consistent h (x :: K) ->
  (forall y n, node_at h y = Some n -> In y own \/ reach h K y) -> 2 + shared_refs h own <= depth -> bc h * bc h + bc h + 1 <= fuel ->
  exists h', bare_drop arc fuel depth x h = Ok (tt, h') /\ released K h h'.
Proof.
  intros HC HO HD HF. destruct (own_T own HO) as (p & HP & HT).
  destruct (@bare_ends (rc_drop arc fuel depth) K (fine p K fuel depth)) with
    (finish := datum_drop (rc_drop arc fuel depth) (@drop_value X)) (h := h) (K := K) (x := x) as ([] & h' & E & A);
    [apply fine_cells|intros; apply fine_drop; assumption|reflexivity| |exact HC|apply incl_refl|].
  - intros w n E. apply (fine_upd HC E). split; [exact HP|split; [lia|exact HF]].
  - exists h'. split; [exact E|]. apply (after_released HC A).
Qed.
Theorem bare_coarse arc fuel depth h K x : consistent h (x :: K) -> coarse fuel depth h ->
  exists h', bare_drop arc fuel depth x h = Ok (tt, h') /\ released K h h'.
Proof.
  intros HC HI.
  destruct (@bare_ends (rc_drop arc fuel depth) [] (coarse fuel depth)) with
    (finish := datum_drop (rc_drop arc fuel depth) (@drop_value X)) (h := h) (K := K) (x := x) as ([] & h' & E & A);
    [|intros; apply coarse_drop; assumption|reflexivity| |exact HC|intros y []|].
  - intros h1 h2 E. unfold coarse, bc, branch_cells, of_all. rewrite E. auto.
  - intros w n E. destruct HI as (H1 & H2). pose proof (bc_upd _ _ (Some (Cell 0 w None)) E) as PB. cbn [oweight value] in PB. split; [lia|nia].
  - exists h'. split; [exact E|]. apply (after_released HC A).
Qed.
End Counted.
