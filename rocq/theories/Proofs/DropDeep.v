(** Counted references whose dropping recurses deeply. *)
From Coq Require Import List Arith Lia Permutation Bool.
From Verif.Model Require Import Prelude Drop DropRc.
From Verif.Spec Require Import Drops.
From Verif.Proofs Require Import HeapFacts DropRcFacts.
Import ListNotations.
Set Implicit Arguments.

Local Ltac straight := cbn [m_bind m_ret m_panic m_nofuel direct].
Section Deep.
Context {X : Type}.
Local Notation heap := (heap X).
Local Notation Cell := (@Cell X).
Local Notation leaf := (@temp_leaf nat X).
Implicit Types (h : heap).

(** A shared branch (0) of a shared leaf (1); a list (2 to [n + 1]) whose elements
    all are that branch; and a branch of the list and the shared branch ([n + 2]). *)
Definition comb (n : nat) : heap :=
  Heap (Some (Cell (n + 2) 0 (Some (NList 1 1))) :: Some (Cell 3 0 (Some (NLeaf None))) ::
    map (fun k => Some (Cell 1 0 (Some (NList 0 k)))) (seq 1 n) ++ [Some (Cell 1 0 (Some (NList (S n) 0)))]) [].

Lemma comb_length n : length (cells (comb n)) = n + 3.
Proof. cbn. rewrite app_length, map_length, seq_length. cbn. lia. Qed.
Lemma comb_chain n k : 1 <= k <= n -> cell_at (comb n) (S k) = Some (Cell 1 0 (Some (NList 0 k))).
Proof.
  intros Hk. unfold cell_at. destruct k as [|k]; [lia|]. cbn. rewrite nth_error_app1 by (rewrite map_length, seq_length; lia).
  rewrite (map_nth_error _ _ _ (d := S k)); [reflexivity|].
  rewrite nth_error_nth' with (d := 0) by (rewrite seq_length; lia). rewrite seq_nth by lia. reflexivity.
Qed.
Lemma comb_top n : cell_at (comb n) (n + 2) = Some (Cell 1 0 (Some (NList (S n) 0))).
Proof.
  unfold cell_at. rewrite Nat.add_comm. cbn. rewrite nth_error_app2 by (rewrite map_length, seq_length; lia).
  rewrite map_length, seq_length, Nat.sub_diag. reflexivity.
Qed.
Lemma comb_out n x : n + 3 <= x -> cell_at (comb n) x = None.
Proof. intros. apply cell_at_out. rewrite comb_length. assumption. Qed.

Lemma comb_edges n : edges (comb n) = [1; 1] ++ flat_map (fun k => [0; k]) (seq 1 n) ++ [S n; 0].
Proof.
  unfold edges. rewrite of_all_onto. cbn [comb cells]. cbn [flat_map]. rewrite flat_map_app. cbn [onto value kids branches app flat_map].
  do 3 f_equal. rewrite !flat_map_concat_map, map_map. reflexivity.
Qed.
Lemma count_spine n x : forall a, 1 <= a -> count (flat_map (fun k => [0; k]) (seq a n)) x =
  if x =? 0 then n else if (a <=? x) && (x <? a + n) then 1 else 0.
Proof.
  induction n as [|n IH]; intros a Ha; cbn [seq flat_map].
  - rewrite count_nil. destruct (x =? 0); [reflexivity|]. destruct (Nat.leb_spec a x), (Nat.ltb_spec x (a + 0)); cbn; auto; lia.
  - rewrite count_app, IH, !count_cons, count_nil by lia.
    destruct (Nat.eqb_spec 0 x), (Nat.eqb_spec x 0), (Nat.eqb_spec a x), (Nat.leb_spec (S a) x), (Nat.ltb_spec x (S a + n)), (Nat.leb_spec a x), (Nat.ltb_spec x (a + S n));
      cbn; lia.
Qed.
Lemma comb_refs n x : refs [n + 2; 0] (comb n) x =
  match x with 0 => n + 2 | 1 => 3 | _ => if x <? n + 3 then 1 else 0 end.
Proof.
  rewrite refs_count, comb_edges. repeat rewrite ?count_app, ?count_cons, ?count_nil. rewrite (count_spine n x) by lia.
  destruct x as [|[|x]].
  - rewrite (proj2 (Nat.eqb_neq (n + 2) 0)) by lia. cbn. lia.
  - rewrite (proj2 (Nat.eqb_neq (n + 2) 1)) by lia. destruct n as [|n]; cbn; reflexivity.
  - destruct (Nat.eqb_spec (n + 2) (S (S x))), (Nat.ltb_spec (S (S x)) (n + 3)), (Nat.eqb_spec (S n) (S (S x))), (Nat.leb_spec 1 (S (S x))),
      (Nat.ltb_spec (S (S x)) (1 + n)); cbn; lia.
Qed.

Lemma comb_cases n x c : cell_at (comb n) x = Some c ->
  (x = 0 /\ c = Cell (n + 2) 0 (Some (NList 1 1))) \/ (x = 1 /\ c = Cell 3 0 (Some (NLeaf None))) \/
  (exists k, 1 <= k <= n /\ x = S k /\ c = Cell 1 0 (Some (NList 0 k))) \/ (x = n + 2 /\ c = Cell 1 0 (Some (NList (S n) 0))).
Proof.
  intros E. destruct x as [|[|x]]; [injection E; auto|injection E; auto|].
  destruct (Nat.lt_ge_cases (S (S x)) (n + 2)).
  - rewrite comb_chain in E by lia. injection E as <-. right. right. left. exists (S x). split; [lia|auto].
  - destruct (Nat.eq_dec (S (S x)) (n + 2)) as [EX|]; [rewrite EX in *|].
    + rewrite comb_top in E. injection E as <-. auto.
    + rewrite comb_out in E by lia. discriminate.
Qed.

Lemma comb_consistent n : consistent (comb n) [n + 2; 0].
Proof.
  split.
  - intros x c E. rewrite comb_refs. destruct (comb_cases _ _ E) as [(-> & ->)|[(-> & ->)|[(k & Hk & -> & ->)|(-> & ->)]]]; cbn [strong value].
    + split; [reflexivity|]. split; [discriminate|lia].
    + split; [reflexivity|]. split; discriminate.
    + destruct k as [|k]; [lia|]. rewrite (proj2 (Nat.ltb_lt _ _)) by lia. split; [reflexivity|]. split; discriminate.
    + rewrite Nat.add_comm. cbn [Nat.add]. rewrite (proj2 (Nat.ltb_lt _ _)) by lia. split; [reflexivity|]. split; discriminate.
  - intros x HI. apply count_In in HI. change (0 < refs [n + 2; 0] (comb n) x) in HI. rewrite comb_refs in HI.
    unfold node_at. destruct x as [|[|x]]; [discriminate|discriminate|].
    destruct (Nat.ltb_spec (S (S x)) (n + 3)); [|lia].
    destruct (Nat.eq_dec (S (S x)) (n + 2)) as [->|]; [rewrite comb_top; discriminate|rewrite comb_chain by lia; discriminate].
  - exists (fun x => match x with 0 => 1 | 1 => 0 | _ => x end). intros x m y. unfold node_at.
    destruct (cell_at (comb n) x) as [c|] eqn:E; [|discriminate].
    destruct (comb_cases _ _ E) as [(-> & ->)|[(-> & ->)|[(k & Hk & -> & ->)|(-> & ->)]]]; cbn [value]; intros [= <-] HI; cbn in HI.
    + destruct HI as [<-|[<-|[]]]; lia.
    + contradiction.
    + destruct k as [|k]; [lia|]. destruct HI as [<-|[<-|[]]]; [lia|]. destruct k; lia.
    + rewrite Nat.add_comm. cbn. destruct HI as [<-|[<-|[]]]; [|lia]. destruct n; lia.
Qed.

(** ** The operations, on the cells that matter *)
Definition kept h h' x : Prop := forall y c, y <> x -> cell_at h y = Some c -> cell_at h' y = Some c.

Lemma take_ok arc h x n : cell_at h x = Some (Cell 1 0 (Some n)) ->
  exists x' h', trytake (rc_ops arc) x h = Ok ((Some n, x'), h') /\ cell_at h' x' = Some (Cell 1 0 (Some leaf)) /\
    (forall y c, y <> x -> cell_at h y = Some c -> cell_at h' y = Some c /\ y <> x').
Proof.
  intros E. destruct arc.
  - set (h1 := grow h (Cell 1 0 (Some leaf))). pose proof (cell_at_length _ _ E) as HL.
    assert (E1 : cell_at h1 x = Some (Cell 1 0 (Some n))) by (unfold h1; rewrite cell_at_grow, (proj2 (Nat.eqb_neq _ _)) by lia; exact E).
    exists (length (cells h)), (upd h1 x None). split; [|split].
    + unfold trytake. cbn [r_try_replace rc_ops]. unfold rc_try_replace, d_bind, fresh, try_unwrap, d_bind, read. fold (grow h (Cell 1 0 (Some leaf))). fold h1.
      rewrite E1. reflexivity.
    + rewrite (cell_at_upd _ _ _ _ E1), (proj2 (Nat.eqb_neq _ _)) by lia. unfold h1. rewrite cell_at_grow, Nat.eqb_refl. reflexivity.
    + intros y c NE Ey. pose proof (cell_at_length _ _ Ey). rewrite (cell_at_upd _ _ _ _ E1), (proj2 (Nat.eqb_neq _ _)) by lia.
      unfold h1. rewrite cell_at_grow, (proj2 (Nat.eqb_neq _ _)) by lia. split; [exact Ey|lia].
  - exists x, (upd h x (Some (Cell 1 0 (Some leaf)))). split; [|split].
    + unfold trytake. cbn [r_try_replace rc_ops]. unfold try_replace_optim, d_bind, read. rewrite E. cbn [strong weak Nat.eqb].
      unfold get_mut_replace, d_bind, read. rewrite E. reflexivity.
    + rewrite (cell_at_upd _ _ _ _ E), Nat.eqb_refl. reflexivity.
    + intros y c NE Ey. rewrite (cell_at_upd _ _ _ _ E), (proj2 (Nat.eqb_neq _ _)) by lia. auto.
Qed.
Lemma take_fails arc h x s w v : cell_at h x = Some (Cell (S (S s)) w v) ->
  exists h', trytake (rc_ops arc) x h = Ok ((None, x), h') /\ (forall y c, cell_at h y = Some c -> cell_at h' y = Some c).
Proof.
  intros E. destruct arc.
  - set (h1 := grow h (Cell 1 0 (Some leaf))). pose proof (cell_at_length _ _ E) as HL.
    assert (E1 : cell_at h1 x = Some (Cell (S (S s)) w v)) by (unfold h1; rewrite cell_at_grow, (proj2 (Nat.eqb_neq _ _)) by lia; exact E).
    assert (E2 : cell_at h1 (length (cells h)) = Some (Cell 1 0 (Some leaf))) by (unfold h1; rewrite cell_at_grow, Nat.eqb_refl; reflexivity).
    exists (upd h1 (length (cells h)) None). split.
    + unfold trytake. cbn [r_try_replace rc_ops]. unfold rc_try_replace, d_bind, fresh, try_unwrap, d_bind, read. fold (grow h (Cell 1 0 (Some leaf))). fold h1.
      rewrite E1. cbn [d_ret]. rewrite E2. reflexivity.
    + intros y c Ey. pose proof (cell_at_length _ _ Ey). rewrite (cell_at_upd _ _ _ _ E2), (proj2 (Nat.eqb_neq _ _)) by lia.
      unfold h1. rewrite cell_at_grow, (proj2 (Nat.eqb_neq _ _)) by lia. exact Ey.
  - exists h. split; [|auto]. unfold trytake. cbn [r_try_replace rc_ops]. unfold try_replace_optim, d_bind, read. rewrite E. reflexivity.
Qed.
Lemma class_is arc h x s w n : cell_at h x = Some (Cell s w (Some n)) -> class_of (rc_ops arc) x h = Ok (node_class n, h).
Proof. intros E. unfold class_of. straight. unfold d_bind. cbn [r_deref rc_ops]. unfold deref, d_bind, read. rewrite E. reflexivity. Qed.
Lemma set_ok h x n : cell_at h x = Some (Cell 1 0 (Some leaf)) -> rc_set x n h = Ok (x, upd h x (Some (Cell 1 0 (Some n)))).
Proof. intros E. unfold rc_set, d_bind, get_mut_replace, d_bind, read. rewrite E. reflexivity. Qed.

Lemma rc_drop_deep arc fuel : forall k depth h x s w, depth <= k -> x <> 0 ->
  cell_at h x = Some (Cell 1 0 (Some (NList (S k) 0))) ->
  cell_at h 0 = Some (Cell (S (S s)) w (Some (NList 1 1))) ->
  (forall j, 1 <= j <= k -> S j <> x /\ cell_at h (S j) = Some (Cell 1 0 (Some (NList 0 j)))) ->
  rc_drop arc fuel depth x h = OutOfFuel.
Proof.
  induction k as [|k IH]; intros depth h x s w HD NE Ex E0 HC; (destruct depth as [|depth]; [reflexivity|]); [lia|].
  destruct (take_ok arc _ _ Ex) as (x1 & h1 & T1 & L1 & K1).
  assert (E01 : cell_at h1 0 = Some (Cell (S (S s)) w (Some (NList 1 1))) /\ 0 <> x1) by (apply K1; auto). destruct E01 as [E01 _].
  assert (HC1 : forall j, 1 <= j <= S k -> cell_at h1 (S j) = Some (Cell 1 0 (Some (NList 0 j)))) by (intros j Hj; destruct (HC _ Hj) as [A B]; apply K1; auto).
  destruct (take_ok arc _ _ (HC1 (S k) ltac:(lia))) as (x2 & h2 & T2 & L2 & K2).
  assert (E02 : cell_at h2 0 = Some (Cell (S (S s)) w (Some (NList 1 1))) /\ 0 <> x2) by (apply K2; auto).
  assert (HC2 : forall j, 1 <= j <= k -> cell_at h2 (S j) = Some (Cell 1 0 (Some (NList 0 j))) /\ S j <> x2) by (intros j Hj; apply K2; [lia|apply HC1; lia]).
  set (h3 := upd h2 x2 (Some (Cell 1 0 (Some (NList (S k) 0))))).
  assert (E03 : cell_at h3 0 = Some (Cell (S (S s)) w (Some (NList 1 1)))).
  { unfold h3. rewrite (cell_at_upd _ _ _ _ L2), (proj2 (Nat.eqb_neq _ _)) by apply E02. apply E02. }
  assert (E3 : cell_at h3 x2 = Some (Cell 1 0 (Some (NList (S k) 0)))) by (unfold h3; rewrite (cell_at_upd _ _ _ _ L2), Nat.eqb_refl; reflexivity).
  destruct (take_fails arc _ _ E03) as (h4 & T4 & K4).
  assert (DEEP : rc_drop arc fuel depth x2 h4 = OutOfFuel).
  { apply IH with (s := s) (w := w); [lia| |apply K4; exact E3|apply K4; exact E03|].
    - intros ->. apply (proj2 E02). reflexivity.
    - intros j Hj. destruct (HC2 _ Hj) as [A B]. split; [exact B|]. apply K4. unfold h3. rewrite (cell_at_upd _ _ _ _ L2), (proj2 (Nat.eqb_neq _ _)) by exact B. exact A. }
  cbn [rc_drop]. straight. unfold d_bind at 1, algo1. straight. straight. unfold d_bind at 1. rewrite (class_is arc _ _ Ex). cbn [node_class branches]. straight. unfold d_bind at 1.
  change (node_class (NList (S (S k)) 0)) with Branch. cbv iota beta. rewrite T1. straight. unfold d_bind at 1.
  destruct fuel as [|fuel']; [reflexivity|].
  remember (rc_drop arc (S fuel') depth) as drop eqn:ED. cbn [algo1_loop branches].
  straight. unfold d_bind at 1. rewrite (class_is arc _ _ (HC1 (S k) ltac:(lia))). change (node_class (NList 0 (S k))) with Branch.
  straight. unfold d_bind at 1. rewrite (class_is arc _ _ E01). change (node_class (NList 1 1)) with Branch.
  straight. unfold d_bind at 1. unfold select, take_either. straight. straight. unfold d_bind at 1. rewrite T2. cbn [branches d_ret]. cbv iota beta. unfold d_ret. cbv iota beta. cbn [branches].
  straight. unfold d_bind at 1. cbn [r_set rc_ops]. rewrite (set_ok _ _ _ L2). fold h3.
  destruct fuel' as [|fuel'']; [reflexivity|]. cbn [algo1_loop branches].
  straight. unfold d_bind at 1. rewrite (class_is arc _ _ E03). change (node_class (NList 1 1)) with Branch.
  straight. unfold d_bind at 1. rewrite (class_is arc _ _ E3). change (node_class (NList (S k) 0)) with Branch.
  straight. unfold d_bind at 1, select, take_left. straight. straight. unfold d_bind at 1. rewrite T4. cbv iota beta. unfold d_ret. cbv iota beta.
  straight. unfold d_bind at 1. rewrite DEEP. reflexivity.
Qed.

Theorem comb_deep arc fuel n depth : depth <= n -> rc_drop arc fuel depth (n + 2) (comb n) = OutOfFuel.
Proof.
  intros HD. apply rc_drop_deep with (k := n) (s := n) (w := 0); [exact HD|lia|apply comb_top| |].
  - cbn. rewrite Nat.add_comm. reflexivity.
  - intros j Hj. split; [lia|]. apply comb_chain. exact Hj.
Qed.

(** ** The references to shared branches in it *)
Lemma comb_own n y m : node_at (comb n) y = Some m -> In y (seq 2 (n + 1)) \/ reach (comb n) [0] y.
Proof.
  unfold node_at. destruct (cell_at (comb n) y) as [c|] eqn:E; [|discriminate]. intros _.
  destruct (comb_cases _ _ E) as [(-> & _)|[(-> & _)|[(k & Hk & -> & _)|(-> & _)]]].
  - right. apply reach_root. left. reflexivity.
  - right. eapply reach_kid; [apply reach_root; left; reflexivity|reflexivity|left; reflexivity].
  - left. apply in_seq. lia.
  - left. apply in_seq. lia.
Qed.
Lemma comb_shared_at n y : shared_branch (comb n) y = (y =? 0).
Proof.
  unfold shared_branch. destruct (cell_at (comb n) y) as [c|] eqn:E.
  - destruct (comb_cases _ _ E) as [(-> & ->)|[(-> & ->)|[(k & Hk & -> & ->)|(-> & ->)]]].
    + rewrite Nat.add_comm. reflexivity.
    + reflexivity.
    + reflexivity.
    + rewrite Nat.add_comm. reflexivity.
  - destruct y; [discriminate|reflexivity].
Qed.
Lemma comb_shared n : shared_refs (comb n) (seq 2 (n + 1)) = S n.
Proof.
  unfold shared_refs. rewrite seq_app, flat_map_app, filter_app, app_length.
  assert (G : forall k a, 1 <= a -> a + k <= S n -> length (filter (shared_branch (comb n))
    (flat_map (fun x => match node_at (comb n) x with Some m => kids m | None => [] end) (seq (S a) k))) = k).
  { induction k as [|k IH]; intros a Ha Hk; [reflexivity|]. cbn [seq flat_map]. unfold node_at at 1. rewrite comb_chain by lia. cbn [value kids branches].
    cbn [app filter]. rewrite !comb_shared_at. destruct a as [|a]; [lia|]. cbn [Nat.eqb length]. rewrite IH by lia. reflexivity. }
  rewrite (G n 1) by lia. cbn [seq flat_map Nat.add]. replace (S (S n)) with (n + 2) by lia. unfold node_at. rewrite comb_top. cbn [value kids branches app filter].
  rewrite !comb_shared_at. cbn [Nat.eqb length]. lia.
Qed.
End Deep.
