(** Programs with many threads: what holds all the time. *)
From Coq Require Import List Arith Lia Permutation Bool Relations.
From Verif.Model Require Import Prelude Drop DropRc DropArc.
From Verif.Spec Require Import Drops Threads.
From Verif.Proofs Require Import HeapFacts HeapLink DropRcFacts ThreadFacts.
Import ListNotations.
Set Implicit Arguments.

Section Runs.
Context {X : Type}.
Local Notation heap := (heap X).
Local Notation node := (node nat X).
Local Notation Cell := (@Cell X).
Local Notation leaf := (@temp_leaf nat X).
Local Notation prog := (prog X).
Local Notation token := (@token X).
Local Notation env := (@env X).
Local Notation world := (world X).
Implicit Types (h : heap) (K W : list nat) (g G : list token).

Definition fin : unit -> list token -> Prop := fun _ g => g = [].
Definition good (w : world) (gs : list (list token)) : Prop :=
  Forall2 (fun p g => safe p g fin) (running w) gs /\ inv (mem w) (concat gs) (Env (strongs w) (weaks w) [] (made w)).

(** ** What is below a reference *)
Lemma unfolds_exists h K x : consistent h K -> node_at h x <> None -> exists t, unfolds h x t.
Proof.
  intros HC. destruct (cons_acyclic HC) as (rank & HR). remember (rank x) as k eqn:Ek. revert x Ek.
  induction k as [k IH] using lt_wf_ind. intros x -> HN. destruct (node_at h x) as [n|] eqn:EN; [|congruence].
  destruct (branches n) as [[a b]|] eqn:EB.
  - assert (EK : kids n = [a; b]) by (unfold kids; rewrite EB; reflexivity).
    assert (HB : forall y, In y [a; b] -> exists t, unfolds h y t).
    { intros y Hy. rewrite <- EK in Hy. eapply IH; [eapply HR; eauto|reflexivity|]. apply (cons_refs HC). apply in_or_app. right. eapply node_at_edges; eauto. }
    destruct (HB a) as (ta & Ua); [cbn; auto|]. destruct (HB b) as (tb & Ub); [cbn; auto|]. exists (TBranch ta tb), n. eauto 8.
  - exists TLeaf, n. auto.
Qed.

Lemma unfolds_unique h t : forall x t', unfolds h x t -> unfolds h x t' -> t' = t.
Proof.
  induction t as [|l IHl r IHr]; intros x [|l' r'] (n & E & HT) (n' & E' & HT'); rewrite E in E'; injection E' as <-; auto.
  - destruct HT' as (a & b & EB & _). congruence.
  - destruct HT as (a & b & EB & _). congruence.
  - destruct HT as (a & b & EB & U1 & U2), HT' as (a' & b' & EB' & U1' & U2'). rewrite EB in EB'. injection EB' as <- <-. f_equal; eauto.
Qed.
Lemma ample_of h x t fuel depth : unfolds h x t -> tsize t < depth -> tsize t * tsize t <= fuel -> ample h x fuel depth.
Proof. intros HU HD HF t' HU'. rewrite (@unfolds_unique h t x t' HU HU'). auto. Qed.

(** ** The steps of the rest of the program *)
Lemma inv_env h G K W V M K' W' : Permutation K K' -> Permutation W W' -> inv h G (Env K W V M) -> inv h G (Env K' W' V M).
Proof.
  intros PK PW [IS IW IV IH]. cbn [e_strong e_weak e_vals e_made] in *. split; cbn [e_strong e_weak e_vals e_made]; auto.
  - eapply consistent_perm; [apply Permutation_app_head; exact PK|exact IS].
  - eapply weak_counts_perm; [apply Permutation_app_head; exact PW|exact IW].
Qed.

Lemma inv_begin h G K W M x : inv h G (Env (x :: K) W [] M) -> exists t, unfolds h x t /\ inv h (Ref x t :: G) (Env K W [] M).
Proof.
  intros [IS IW IV IH]. cbn [e_strong e_weak e_vals e_made] in *.
  destruct (@unfolds_exists h _ x IS) as (t & HU).
  { apply (cons_refs IS). apply in_or_app. left. apply in_or_app. right. left. reflexivity. }
  exists t. split; [exact HU|]. split; cbn [e_strong e_weak e_vals e_made]; auto.
  cbn [grefs flat_map trefs app]. eapply consistent_perm; [|exact IS]. symmetry. apply Permutation_middle.
Qed.

(** The cell of a reference that others have is not one that only a drop has. *)
Lemma not_mine h G (E : env) x : inv h G E -> reach h (e_strong E) x -> ~ exclusive h (grefs G) x.
Proof.
  intros [IS IW IV IH] HR HX. eapply exclusive_apart; [|exact HX|exact HR]. eapply consistent_perm; [|exact IS]. apply Permutation_app_comm.
Qed.
Lemma reach_cell h K K0 x : consistent h K0 -> incl K K0 -> reach h K x -> exists s w n, cell_at h x = Some (Cell (S s) w (Some n)).
Proof. intros HC HI HR. eapply consistent_live; [exact HC|]. eapply reach_live; eauto. Qed.

(** Another count. *)
Lemma recount h G K K' W W' V M x s (w : nat) v s' (w' : nat) : inv h G (Env K W V M) -> cell_at h x = Some (Cell s w v) ->
  (forall y, count K' y + (if y =? x then s else 0) = count K y + (if y =? x then s' else 0)) -> (s = 0 <-> s' = 0) ->
  (forall y, count W' y + (if y =? x then w else 0) = count W y + (if y =? x then w' else 0)) -> (s' = 0 -> 0 < w') ->
  ~ exclusive h (grefs G) x ->
  inv (set_cell h x (Cell s' w' v)) G (Env K' W' V M).
Proof.
  intros HI EC HK HZ HW HP HN. pose proof HI as [IS IW IV IH]. cbn [e_strong e_weak e_vals e_made] in *.
  change (set_cell h x (Cell s' w' v)) with (upd h x (Some (Cell s' w' v))).
  destruct (cons_count IS _ EC) as (_ & HV). cbn [value strong] in HV.
  split; cbn [e_strong e_weak e_vals e_made].
  - eapply consistent_upd; [exact IS|exact EC| | |left; apply incl_refl].
    + intros c [= <-]. cbn [value strong]. tauto.
    + intros y. change (onto kids (Some (Cell s' w' v))) with (onto kids (Some (Cell s w v))). cbn [strong ostrong]. rewrite !count_app. specialize (HK y). lia.
  - eapply weak_upd; [exact EC|exact IW| |].
    + intros y NE. rewrite !count_app. specialize (HW y). destruct (Nat.eqb_spec y x); [congruence|lia].
    + specialize (IW x). rewrite EC in IW. cbn [weak strong] in *. split; [|exact HP]. specialize (HW x). rewrite Nat.eqb_refl in HW.
      change (w = count (gimps G ++ W) x /\ (s = 0 -> 0 < w)) in IW. rewrite count_app in *. lia.
  - pose proof (payloads_upd h x (Some (Cell s' w' v)) EC) as P. change (onto payload (Some (Cell s' w' v))) with (onto payload (Some (Cell s w v))) in P.
    apply Permutation_app_inv_r in P. rewrite <- IV. change (dropped (upd h x (Some (Cell s' w' v)))) with (dropped h).
    apply Permutation_app_head, Permutation_app_tail. exact P.
  - eapply holds_guar; [|exact IH]. split.
    + eapply upd_frame; [exact EC|]. right. eexists. split; reflexivity.
    + intros y HX. rewrite (cell_at_upd _ _ _ _ EC). destruct (Nat.eqb_spec y x) as [->|]; [contradiction|reflexivity].
Qed.

Lemma upd_grow h c c' : upd (grow h c) (length (cells h)) (Some c') = grow h c'.
Proof. unfold upd, grow. cbn [cells dropped]. f_equal. induction (cells h) as [|o l IH]; cbn; [reflexivity|]. f_equal. exact IH. Qed.

Lemma inv_new h G K W M n : inv h G (Env (kids n ++ K) W [] M) -> inv (grow h (Cell 1 0 (Some n))) G (Env (length (cells h) :: K) W [] (M ++ payload n)).
Proof.
  intros HI. pose proof HI as [IS IW IV IH]. cbn [e_strong e_weak e_vals e_made] in *. set (x := length (cells h)).
  assert (EX : cell_at h x = None) by (apply cell_at_out; unfold x; lia).
  assert (NX : node_at h x = None) by (unfold node_at; rewrite EX; reflexivity).
  split; cbn [e_strong e_weak e_vals e_made].
  - pose proof (@consistent_grow _ _ _ leaf IS eq_refl) as C1. fold x in C1.
    assert (EC : cell_at (grow h (Cell 1 0 (Some leaf))) x = Some (Cell 1 0 (Some leaf))) by (rewrite cell_at_grow; unfold x; rewrite Nat.eqb_refl; reflexivity).
    destruct (unreachable C1 EC) as (_ & N1 & N2). rewrite !count_app in N1.
    rewrite <- (upd_grow h (Cell 1 0 (Some leaf)) (Cell 1 0 (Some n))). eapply consistent_upd; [exact C1|exact EC| | |].
    + intros c [= <-]. cbn. split; discriminate.
    + intros y. change (onto kids (Some (Cell 1 0 (Some n)))) with (kids n). change (onto kids (Some (Cell 1 0 (Some leaf)))) with (@nil nat).
      cbn [strong ostrong]. fold x. rewrite !count_cons, !count_app, !count_cons, count_nil. lia.
    + right. split; [exact N2|]. change (onto kids (Some (Cell 1 0 (Some n)))) with (kids n). intros HX. apply count_In in HX. fold x in HX. lia.
  - intros y. rewrite cell_at_grow. destruct (Nat.eqb_spec y (length (cells h))) as [->|]; [|apply IW]. cbn. split; [|discriminate].
    specialize (IW x). rewrite EX in IW. symmetry. apply count_occ_not_In. exact IW.
  - unfold payloads. rewrite of_all_grow. change (onto payload (Some (Cell 1 0 (Some n)))) with (payload n). rewrite <- IV. unfold payloads.
    change (dropped (grow h (Cell 1 0 (Some n)))) with (dropped h). rewrite <- !app_assoc. do 2 apply Permutation_app_head. rewrite app_nil_r. apply Permutation_app_comm.
  - eapply holds_guar; [|exact IH]. eapply grow_guar; [exact IS|]. apply incl_appl, incl_refl.
Qed.

Lemma inv_assign h G K W M x n n' : inv h G (Env (x :: kids n' ++ K) W [] M) -> cell_at h x = Some (Cell 1 0 (Some n)) ->
  inv (Heap (cells (set_cell h x (Cell 1 0 (Some n')))) (dropped h ++ payload n)) G (Env (x :: kids n ++ K) W [] (M ++ payload n')).
Proof.
  intros HI EC. pose proof HI as [IS IW IV IH]. cbn [e_strong e_weak e_vals e_made] in *. set (c := Cell 1 0 (Some n')).
  assert (IS' : consistent h (x :: grefs G ++ kids n' ++ K)) by (eapply consistent_perm; [symmetry; apply Permutation_middle|exact IS]).
  destruct (unreachable IS' EC) as (NR & N1 & N2). rewrite !count_app in N1.
  set (h1 := upd h x (Some c)). set (h2 := Heap _ _).
  assert (CE : forall y, cell_at h2 y = cell_at h1 y) by reflexivity.
  split; cbn [e_strong e_weak e_vals e_made].
  - assert (C1 : consistent h1 (grefs G ++ x :: kids n ++ K)).
    { eapply consistent_upd; [exact IS|exact EC| | |].
      + intros c0 [= <-]. cbn. split; discriminate.
      + intros y. change (onto kids (Some c)) with (kids n'). change (onto kids (Some (Cell 1 0 (Some n)))) with (kids n). cbn [strong ostrong c].
        rewrite !count_app, !count_cons, !count_app. lia.
      + right. split; [exact N2|]. change (onto kids (Some c)) with (kids n'). intros HX. apply count_In in HX. lia. }
    destruct C1 as [C1 C2 C3]. split; [exact C1|exact C2|exact C3].
  - apply (@weak_upd _ h x (Cell 1 0 (Some n)) (Some c) (gimps G ++ W) (gimps G ++ W) EC IW); [reflexivity|].
    specialize (IW x). rewrite EC in IW. cbn [weak strong c] in *. split; [apply IW|discriminate].
  - pose proof (payloads_upd h x (Some c) EC) as P. change (onto payload (Some c)) with (payload n') in P. change (onto payload (Some (Cell 1 0 (Some n)))) with (payload n) in P.
    change (payloads h2) with (payloads h1). fold h1 in P. cbn [dropped h2]. rewrite <- IV. rewrite app_nil_r, <- !app_assoc. apply Permutation_app_head.
    rewrite !app_assoc. rewrite (Permutation_app_comm (payload n)). rewrite P. rewrite <- !app_assoc. apply Permutation_app_head. apply Permutation_app_comm.
  - assert (GU : guar (grefs G) h h1).
    { eapply upd_guar; [exact EC| |]; left; intros HR; apply NR; (eapply reach_incl; [|exact HR]); intros y Hy; apply in_or_app; auto. }
    eapply holds_guar; [|exact IH]. destruct GU as [F O]. split; [exact F|exact O].
Qed.

(** A datum in the place of a leaf. *)
Lemma inv_link h G K W M x o n' : inv h G (Env (kids n' ++ K) W [] M) -> exclusive h K x -> cell_at h x = Some (Cell 1 0 (Some (NLeaf o))) ->
  inv (Heap (cells (set_cell h x (Cell 1 0 (Some n')))) (dropped h ++ payload (NLeaf (DR:=nat) o))) G (Env K W [] (M ++ payload n')).
Proof.
  intros HI HX EC. pose proof HI as [IS IW IV IH]. cbn [e_strong e_weak e_vals e_made] in *. set (c := Cell 1 0 (Some n')).
  assert (NR : ~ reach h (grefs G ++ kids n') x) by (eapply exclusive_apart; [|exact HX]; rewrite <- app_assoc; exact IS).
  set (h1 := upd h x (Some c)). set (h2 := Heap _ _).
  split; cbn [e_strong e_weak e_vals e_made].
  - assert (C1 : consistent h1 (grefs G ++ K)).
    { eapply consistent_assign; [|exact EC|].
      - eapply consistent_perm; [|exact IS]. rewrite !app_assoc. apply Permutation_app_tail. apply Permutation_app_comm.
      - intros HR. apply NR. eapply reach_incl; [|exact HR]. apply incl_appr, incl_refl. }
    destruct C1 as [C1 C2 C3]. split; [exact C1|exact C2|exact C3].
  - apply (@weak_upd _ h x (Cell 1 0 (Some (NLeaf o))) (Some c) (gimps G ++ W) (gimps G ++ W) EC IW); [reflexivity|].
    specialize (IW x). rewrite EC in IW. cbn [weak strong c] in *. split; [apply IW|discriminate].
  - pose proof (payloads_upd h x (Some c) EC) as P. change (onto payload (Some c)) with (payload n') in P.
    change (onto payload (Some (Cell 1 0 (Some (NLeaf o))))) with (payload (X:=X) (NLeaf (DR:=nat) o)) in P. set (old := payload (NLeaf o)) in *.
    change (payloads h2) with (payloads h1). fold h1 in P. cbn [dropped h2]. fold old. rewrite <- IV. rewrite app_nil_r, <- !app_assoc. apply Permutation_app_head.
    rewrite !app_assoc. rewrite (Permutation_app_comm old). rewrite P. rewrite <- !app_assoc. apply Permutation_app_head. apply Permutation_app_comm.
  - assert (GU : guar (grefs G) h h1).
    { eapply upd_guar; [exact EC| |]; left; intros HR; apply NR; (eapply reach_incl; [|exact HR]); apply incl_appl, incl_refl. }
    eapply holds_guar; [|exact IH]. destruct GU as [F O]. split; [exact F|exact O].
Qed.

(** ** A step of a drop *)
Lemma good_drop w w' gs : good w gs -> drop_step w w' -> exists gs', good w' gs' /\ guar (strongs w) (mem w) (mem w').
Proof.
  intros (HS & HI) HD. destruct HD as [h h' K W ps qs mk B m k b EM]. cbn [running mem strongs weaks made] in *.
  apply Forall2_app_inv_l in HS. destruct HS as (g1 & g2' & H1 & H2 & ->). inversion H2 as [|? g ? g2 HP H2']; subst.
  assert (HI' : inv h (g ++ concat g1 ++ concat g2) (Env K W [] mk)).
  { eapply shift_perm; [|exact HI]. rewrite concat_app. cbn [concat]. rewrite !app_assoc. apply Permutation_app_tail. apply Permutation_app_comm. }
  destruct (@safe_frame _ _ _ (concat g1 ++ concat g2) _ _ HP h _ HI') as (b' & h2 & g' & E1 & I1 & G1 & S1).
  rewrite EM in E1. injection E1 as <- <-. cbn [e_strong] in G1.
  (* the rest is as it was *)
  destruct (HP h _ (inv_in _ _ HI')) as (b2 & h2 & g3 & E2 & I2 & G2 & S2). rewrite EM in E2. injection E2 as <- <-.
  exists (g1 ++ g3 :: g2). split; [|exact G1]. split; cbn [running mem strongs weaks made].
  - apply Forall2_app; [exact H1|]. constructor; assumption.
  - assert (HF : Forall (holds h') (concat g1 ++ concat g2)).
    { eapply holds_guar; [eapply guar_incl; [|exact G2]; cbn; intros y Hy; apply in_or_app; auto|]. destruct HI' as [_ _ _ HH]. apply Forall_app in HH. tauto. }
    eapply shift_perm; [|exact (inv_out I2 HF)]. rewrite concat_app. cbn [concat]. rewrite !app_assoc. apply Permutation_app_tail. apply Permutation_app_comm.
Qed.

Lemma good_client w w' gs : good w gs -> client_step w w' -> exists gs', good w' gs'.
Proof.
  intros (HS & HI) HC. destruct HC; cbn [running mem strongs weaks made] in *.
  - pose proof (inv_env H (Permutation_refl _) HI) as HI'. destruct (inv_begin HI') as (t & HU & HB). exists ([Ref x t] :: gs).
    split; cbn [running mem strongs weaks made]; [|exact HB]. constructor; [|exact HS]. destruct (H0 _ HU). apply safe_drop; assumption.
  - exists gs. split; cbn [running mem strongs weaks made]; [exact HS|]. destruct (reach_cell (i_strong HI) (incl_appr _ (incl_refl _)) H) as (s0 & w0 & n0 & EC). rewrite EC in H0. injection H0 as <- <- <-.
    eapply recount; [exact HI|exact EC| | | | |].
    + intros y. rewrite count_cons, (Nat.eqb_sym x y). destruct (y =? x); lia.
    + lia.
    + intros y. destruct (y =? x); lia.
    + discriminate.
    + eapply not_mine; [exact HI|exact H].
  - exists gs. split; cbn [running mem strongs weaks made]; [exact HS|]. destruct (reach_cell (i_strong HI) (incl_appr _ (incl_refl _)) H) as (s0 & w0 & n0 & EC). rewrite EC in H0. injection H0 as <- <- <-.
    eapply recount; [exact HI|exact EC| | | | |].
    + intros y. destruct (y =? x); lia.
    + lia.
    + intros y. rewrite count_cons, (Nat.eqb_sym x y). destruct (y =? x); lia.
    + discriminate.
    + eapply not_mine; [exact HI|exact H].
  - assert (W1 : w <> 0).
    { pose proof (i_weak HI x) as IW. rewrite H0 in IW. destruct IW as (IW & _). change (w = count (gimps (concat gs) ++ W) x) in IW. rewrite count_app in IW.
      apply count_In in H. lia. }
    exists gs. split; cbn [running mem strongs weaks made]; [exact HS|]. eapply recount; [exact HI|exact H0| | | | |].
    + intros y. rewrite count_cons, (Nat.eqb_sym x y). destruct (y =? x); lia.
    + lia.
    + intros y. destruct (y =? x); lia.
    + discriminate.
    + intros HX. destruct (exclusive_cell HX) as (v0 & Ey). rewrite H0 in Ey. congruence.
  - assert (W1 : w <> 0).
    { pose proof (i_weak HI x) as IW. rewrite H0 in IW. destruct IW as (IW & _). change (w = count (gimps (concat gs) ++ W) x) in IW. rewrite count_app in IW.
      apply count_In in H. lia. }
    exists gs. split; cbn [running mem strongs weaks made]; [exact HS|]. eapply recount; [exact HI|exact H0| | | | |].
    + intros y. destruct (y =? x); lia.
    + lia.
    + intros y. rewrite count_cons, (Nat.eqb_sym x y). destruct (y =? x); lia.
    + lia.
    + intros HX. destruct (exclusive_cell HX) as (v0 & Ey). rewrite H0 in Ey. congruence.
  - pose proof (inv_env (Permutation_refl _) H HI) as HI'.
    assert (HI2 : inv h ([Imp x] ++ concat gs) (Env K W' [] mk)).
    { destruct HI' as [IS IW IV IH]. split; cbn [e_strong e_weak e_vals e_made] in *; auto.
      - cbn [gimps flat_map timps app]. eapply weak_counts_perm; [|exact IW]. symmetry. apply Permutation_middle.
      - constructor; [exact I|exact IH]. }
    destruct (@safe_frame _ _ _ (concat gs) _ _ (@safe_dec_weak _ x) h _ HI2) as (b' & h2 & g' & E1 & I1 & G1 & S1).
    cbv [atomic p_bind] in E1. rewrite H0 in E1. injection E1 as <- <-. destruct S1 as (g2 & SH & g3 & -> & ->). exists gs.
    split; cbn [running mem strongs weaks made]; [exact HS|]. apply SH. exact I1.
  - pose proof (inv_env H (Permutation_refl _) HI) as HI'. exists gs. split; cbn [running mem strongs weaks made]; [exact HS|].
    cbv [fresh] in H0. injection H0 as <- <-. apply inv_new. exact HI'.
  - pose proof (inv_env H (Permutation_refl _) HI) as HI'. exists gs. split; cbn [running mem strongs weaks made]; [exact HS|].
    apply inv_assign; assumption.
  - pose proof (inv_env H (Permutation_refl _) HI) as HI'. exists gs. split; cbn [running mem strongs weaks made]; [exact HS|].
    apply inv_link; assumption.
Qed.

Lemma good_orderly (w : world) : orderly w -> exists gs, good w gs.
Proof.
  intros [OD OS OW OV]. exists (map (fun _ => []) (running w)).
  assert (EC : concat (map (fun _ : prog unit => @nil token) (running w)) = []) by (clear; induction (running w) as [|p ps IH]; [reflexivity|exact IH]).
  split.
  - clear OS OW OV EC. induction (running w) as [|p ps IH]; cbn; [constructor|]. constructor; [|apply IH; intros q Hq; apply OD; right; exact Hq].
    rewrite (OD p) by (left; reflexivity). apply safe_ret. reflexivity.
  - rewrite EC. split; cbn [grefs gimps gvals flat_map app e_strong e_weak e_vals e_made]; auto. rewrite app_nil_r. exact OV.
Qed.
Lemma good_done (w : world) gs : good w gs -> (forall p, In p (running w) -> p = Done tt) -> orderly w.
Proof.
  intros (HS & HI) HD. assert (SH : shift (concat gs) []).
  { clear HI. induction HS as [|p g ps gs' HP HS IH]; [apply shift_refl|]. cbn [concat]. rewrite (HD p) in HP by (left; reflexivity).
    destruct HP as (g' & SH & HF). unfold fin in HF. subst g'. eapply shift_trans; [apply shift_frame; exact SH|]. apply IH. intros q Hq. apply HD. right. exact Hq. }
  apply SH in HI. destruct HI as [IS IW IV IH]. cbn [grefs gimps gvals flat_map app e_strong e_weak e_vals e_made] in *. split; auto.
  rewrite app_nil_r in IV. exact IV.
Qed.
Lemma good_step w w' gs : good w gs -> step w w' -> exists gs', good w' gs'.
Proof.
  intros HG [HD|HC].
  - destruct (good_drop HG HD) as (gs' & HG' & _). eauto.
  - eapply good_client; eauto.
Qed.
Lemma good_steps w w' : steps w w' -> orderly w -> exists gs, good w' gs.
Proof.
  intros HS HO. induction HS as [w|w w1 w2 HS IH HT]; [apply good_orderly; exact HO|]. destruct (IH HO) as (gs & HG). eapply good_step; eauto.
Qed.
Lemma good_progress (w : world) gs p : good w gs -> In p (running w) -> p = Done tt \/ exists B (m : H B) k b h', p = Atomic m k /\ m (mem w) = Ok (b, h').
Proof.
  intros (HS & HI) HP. apply in_split in HP. destruct HP as (ps & qs & ER). rewrite ER in HS. apply Forall2_app_inv_l in HS. destruct HS as (g1 & g2' & H1 & H2 & ->).
  inversion H2 as [|? g ? g2 HP H2']; subst. destruct p as [[]| | |B m k]; [auto|destruct HP|destruct HP|]. right.
  assert (HI' : inv (mem w) (g ++ concat g1 ++ concat g2) (Env (strongs w) (weaks w) [] (made w))).
  { eapply shift_perm; [|exact HI]. rewrite concat_app. cbn [concat]. rewrite !app_assoc. apply Permutation_app_tail. apply Permutation_app_comm. }
  destruct (HP _ _ (inv_in _ _ HI')) as (b & h' & g' & E1 & _). exists B, m, k, b, h'. auto.
Qed.

(** ** The drops come to an end *)
Definition child (p' p : prog unit) : Prop := match p with Atomic m k => exists v, p' = k v | _ => False end.
Definition later (ps' ps : list (prog unit)) : Prop := exists a b p p', child p' p /\ ps = a ++ p :: b /\ ps' = a ++ p' :: b.
Lemma child_acc : forall p, Acc child p.
Proof.
  induction p as [a| | |B m k IH]; constructor; intros p' HC; try destruct HC. subst p'. apply IH.
Qed.
Lemma later_acc : forall ps, Acc later ps.
Proof.
  induction ps as [|p ps IH].
  - constructor. intros ps' (a & b & p & p' & _ & E & _). destruct a; discriminate.
  - revert ps IH. induction (child_acc p) as [p _ IHp]. intros ps HA. induction HA as [ps HA IHA]. constructor.
    intros ps' (a & b & q & q' & HC & E & ->). destruct a as [|q1 a]; cbn in E; injection E as -> ->.
    + apply IHp; [exact HC|constructor; exact HA].
    + cbn. apply IHA. exists a, b, q, q'. auto.
Qed.
Lemma drop_acc : forall w : world, Acc (fun w' w => drop_step w w') w.
Proof.
  intros w. pose proof (later_acc (running w)) as HA. remember (running w) as ps eqn:E. revert w E. induction HA as [ps _ IH]. intros w ->. constructor. intros w' HD.
  destruct HD. eapply IH; [|reflexivity]. cbn [running]. do 4 eexists. split; [|split; reflexivity]. eexists. reflexivity.
Qed.
Lemma run_out w gs : good w gs -> exists w', clos_refl_trans _ (@drop_step X) w w' /\ orderly w' /\ strongs w' = strongs w /\ weaks w' = weaks w /\ made w' = made w.
Proof.
  revert gs. induction (drop_acc w) as [w _ IH]. intros gs HG.
  assert (D : (forall p, In p (running w) -> p = Done tt) \/ exists w', drop_step w w' /\ strongs w' = strongs w /\ weaks w' = weaks w /\ made w' = made w).
  { assert (D : forall ps, incl ps (running w) -> (forall p, In p ps -> p = Done tt) \/ exists B (m : H B) k b h', In (Atomic m k) ps /\ m (mem w) = Ok (b, h')).
    { induction ps as [|p ps IHp]; intros HI; [left; intros p []|]. destruct (good_progress p HG (HI p (or_introl eq_refl))) as [->|(B & m & k & b & h' & -> & E)].
      - destruct IHp as [HD|(B & m & k & b & h' & HN & E)]; [intros q Hq; apply HI; right; exact Hq| |].
        + left. intros q [<-|Hq]; auto.
        + right. exists B, m, k, b, h'. split; [right; exact HN|exact E].
      - right. exists B, m, k, b, h'. split; [left; reflexivity|exact E]. }
    destruct (D _ (incl_refl _)) as [HD|(B & m & k & b & h' & HN & E)]; [auto|right].
    apply in_split in HN. destruct HN as (ps & qs & ER). destruct w as [h K W rs mk]. cbn [running mem strongs weaks made] in *. subst rs.
    exists (World h' K W (ps ++ k b :: qs) mk). split; [apply step_drop; exact E|auto]. }
  destruct D as [HD|(w1 & HD & E1 & E2 & E3)].
  - exists w. split; [apply rt_refl|]. split; [eapply good_done; eauto|auto].
  - destruct (good_drop HG HD) as (gs' & HG' & _). destruct (IH _ HD _ HG') as (w2 & R & O & F1 & F2 & F3). exists w2.
    split; [eapply rt_trans; [apply rt_step; exact HD|exact R]|]. split; [exact O|]. rewrite F1, F2, F3. auto.
Qed.
End Runs.
