(** Memory and drops in any order, and references that others have. *)
From Coq Require Import List Arith Bool Lia Permutation.
From Verif.Model Require Import Prelude Drop DropRc DropArc.
From Verif.Spec Require Import Drops Threads.
From Verif.Proofs Require Import HeapFacts HeapLink DropRcFacts ThreadFacts ThreadRuns.
Import ListNotations.
Set Implicit Arguments.

Section Pool.
Context {X : Type}.
Local Notation heap := (heap X).
Local Notation Cell := (@Cell X).
Local Notation prog := (prog X).
Local Notation world := (world X).
Implicit Types (h : heap) (K W L : list nat) (ps : list (prog unit)).

Definition pool h K W ps mk : Prop := exists gs, good (World h K W ps mk) gs.

Lemma pool_perm h K K' W ps ps' mk : Permutation K K' -> Permutation ps ps' -> pool h K W ps mk -> pool h K' W ps' mk.
Proof.
  intros PK PP (gs & HS & HI). cbn [running mem strongs weaks made] in *. apply (inv_env PK (Permutation_refl _)) in HI.
  assert (exists gs', Forall2 (fun p g => safe p g fin) ps' gs' /\ Permutation gs gs') as (gs' & HS' & PG).
  { clear HI. revert gs HS. induction PP as [|p ps ps' PP IH|p q ps|ps1 ps2 ps3 P1 IH1 P2 IH2]; intros gs HS.
    - exists gs. split; [exact HS|reflexivity].
    - inversion HS as [|? g ? gs0 Hp HS0]; subst. destruct (IH _ HS0) as (gs' & A & B). exists (g :: gs'). split; constructor; assumption.
    - inversion HS as [|? g ? gs0 Hp HS0]; subst. inversion HS0 as [|? g' ? gs1 Hq HS1]; subst. exists (g' :: g :: gs1). split; [repeat constructor; assumption|apply perm_swap].
    - destruct (IH1 _ HS) as (gs1 & A1 & B1). destruct (IH2 _ A1) as (gs2 & A2 & B2). exists gs2. split; [exact A2|etransitivity; eassumption]. }
  exists gs'. split; [exact HS'|]. eapply shift_perm; [|exact HI]. clear - PG.
  induction PG as [|x l l' P IH|x y l|l1 l2 l3 P1 IH1 P2 IH2]; cbn; [constructor|apply Permutation_app_head, IH| |etransitivity; eassumption].
  rewrite !app_assoc. apply Permutation_app_tail, Permutation_app_comm.
Qed.
Lemma pool_consistent h K W ps mk : pool h K W ps mk -> exists L, consistent h (K ++ L).
Proof.
  intros (gs & _ & [IS _ _ _]). cbn in IS. eexists. eapply consistent_perm; [|exact IS]. apply Permutation_app_comm.
Qed.
Lemma pool_done h K W ps mk : pool h K W ps mk -> pool h K W (Done tt :: ps) mk.
Proof. intros (gs & HS & HI). exists ([] :: gs). split; [|exact HI]. constructor; [|exact HS]. apply safe_ret. reflexivity. Qed.
Lemma pool_undone h K W ps mk : pool h K W (Done tt :: ps) mk -> pool h K W ps mk.
Proof.
  intros (gs & HS & HI). cbn [running mem strongs weaks made] in *. inversion HS as [|? g ? gs0 Hp HS0]; subst. destruct Hp as (g' & SH & HF). unfold fin in HF. subst g'.
  exists gs0. split; [exact HS0|]. cbn [concat] in HI. apply (shift_frame (concat gs0) SH) in HI. exact HI.
Qed.
Lemma pool_begin h K W ps mk x fuel depth : pool h (x :: K) W ps mk -> ample h x fuel depth -> pool h K W (arc_drop fuel depth x :: ps) mk.
Proof. intros (gs & HG) HA. eapply good_client; [exact HG|]. eapply step_begin; [reflexivity|exact HA]. Qed.
Lemma pool_new h K W ps mk n : pool h (kids n ++ K) W ps mk -> pool (grow h (Cell 1 0 (Some n))) (length (cells h) :: K) W ps (mk ++ payload n).
Proof. intros (gs & HS & HI). exists gs. split; [exact HS|]. apply inv_new. exact HI. Qed.
Lemma pool_link h K W ps mk x o n : pool h (kids n ++ K) W ps mk -> exclusive h K x -> cell_at h x = Some (Cell 1 0 (Some (NLeaf o))) ->
  pool (Heap (cells (set_cell h x (Cell 1 0 (Some n)))) (dropped h ++ payload (NLeaf (DR:=nat) o))) K W ps (mk ++ payload n).
Proof. intros (gs & HS & HI) HX HC. exists gs. split; [exact HS|]. apply inv_link; assumption. Qed.
Lemma pool_step h h' K W ps mk B (m : H B) k b : pool h K W (Atomic m k :: ps) mk -> m h = Ok (b, h') -> pool h' K W (k b :: ps) mk /\ guar K h h'.
Proof.
  intros (gs & HG) HM. destruct (good_drop HG (@step_drop _ h h' K W [] ps mk B m k b HM)) as (gs' & HG' & G). split; [exists gs'; exact HG'|exact G].
Qed.
Lemma pool_progress h K W ps mk p : pool h K W (p :: ps) mk -> p = Done tt \/ exists B (m : H B) k b h', p = Atomic m k /\ m h = Ok (b, h').
Proof. intros (gs & HG). apply (good_progress p HG). left. reflexivity. Qed.
Lemma pool_ample h K W ps mk x : pool h (x :: K) W ps mk -> exists fuel depth, ample h x fuel depth.
Proof.
  intros (gs & _ & HI). destruct (inv_begin HI) as (t & HU & _). exists (tsize t * tsize t), (S (tsize t)). eapply ample_of; [exact HU|lia|lia].
Qed.

(** Others have [P] and do [qs]. *)
Definition framed (w : world) P qs : world := World (mem w) (strongs w ++ P) (weaks w) (running w ++ qs) (made w).
Lemma client_frame w w' P qs : client_step w w' -> client_step (framed w P qs) (framed w' P qs).
Proof.
  intros HC. assert (I : forall K, incl K (K ++ P)) by (intros K; apply incl_appl, incl_refl).
  destruct HC; unfold framed; cbn [running mem strongs weaks made app].
  - apply step_begin; [apply (Permutation_app_tail P) in H; exact H|assumption].
  - apply step_clone; [|assumption]. eapply reach_incl; [apply I|assumption].
  - apply step_downgrade; [|assumption]. eapply reach_incl; [apply I|assumption].
  - apply step_upgrade; assumption.
  - apply step_weak_clone; assumption.
  - eapply step_weak_drop; eassumption.
  - eapply step_new; [|eassumption]. rewrite app_assoc. apply Permutation_app_tail. assumption.
  - rewrite <- app_assoc. apply step_assign; [|assumption]. apply (Permutation_app_tail P) in H. cbn in H. rewrite <- app_assoc in H. exact H.
  - apply step_link; [|eapply exclusive_incl; [apply I|eassumption]|assumption]. rewrite app_assoc. apply Permutation_app_tail. assumption.
Qed.
Lemma drop_frame w w' P qs : drop_step w w' -> drop_step (framed w P qs) (framed w' P qs).
Proof.
  intros HD. destruct HD; unfold framed; cbn [running mem strongs weaks made app]. rewrite <- !app_assoc. cbn [app]. apply step_drop. assumption.
Qed.
Lemma same_cells_guar K h h1 h2 : cells h1 = cells h2 -> guar K h h1 -> guar K h h2.
Proof.
  intros EC [F O]. assert (E : forall x, cell_at h2 x = cell_at h1 x) by (intros x; unfold cell_at; rewrite EC; reflexivity). split.
  - intros x Hx. unfold node_at. rewrite E. apply F. exact Hx.
  - intros x Hx. rewrite E. apply O. exact Hx.
Qed.
Lemma value_guar K h x c c' : cell_at h x = Some c -> value c' = value c -> ~ exclusive h K x -> guar K h (upd h x (Some c')).
Proof.
  intros EC EV N. split; [eapply upd_frame; [exact EC|right; eauto]|]. intros y HX. rewrite (cell_at_upd _ _ _ _ EC). destruct (Nat.eqb_spec y x) as [->|]; [contradiction|reflexivity].
Qed.
Lemma client_guar w w' P qs gs : good (framed w P qs) gs -> client_step w w' -> guar P (mem w) (mem w').
Proof.
  intros (HS & HI) HC. pose proof (i_strong HI) as IS. cbn [framed e_strong mem strongs] in IS.
  assert (CP : consistent (mem w) (P ++ (strongs w ++ grefs (concat gs)))).
  { eapply consistent_perm; [|exact IS]. rewrite (Permutation_app_comm (strongs w) P), Permutation_app_comm, app_assoc. reflexivity. }
  assert (NX : forall x, reach (mem w) (strongs w) x -> ~ exclusive (mem w) P x).
  { intros x HR HX. apply (@exclusive_apart _ (mem w) (strongs w) (P ++ grefs (concat gs)) x); [|eapply exclusive_incl; [|exact HX]; apply incl_appl, incl_refl|exact HR].
    eapply consistent_perm; [|exact IS]. rewrite Permutation_app_comm, <- app_assoc. reflexivity. }
  assert (NW : forall x s w0 v, In x (weaks w) -> cell_at (mem w) x = Some (Cell s w0 v) -> ~ exclusive (mem w) P x).
  { intros x s w0 v HW EC HX. destruct (exclusive_cell HX) as (v0 & Ey). rewrite EC in Ey. injection Ey as -> -> ->.
    pose proof (i_weak HI x) as IW. cbn [framed e_weak mem weaks] in IW. rewrite EC in IW. destruct IW as (IW & _). cbn [weak] in IW. change (0 = count (gimps (concat gs) ++ weaks w) x) in IW.
    rewrite count_app in IW. apply count_In in HW. lia. }
  assert (XP : forall x, exclusive (mem w) (strongs w) x -> ~ reach (mem w) P x).
  { intros x HX. eapply exclusive_apart; [exact CP|]. eapply exclusive_incl; [|exact HX]. apply incl_appl, incl_refl. }
  destruct HC; cbn [framed running mem strongs weaks made] in *.
  - apply guar_refl.
  - eapply value_guar; [eassumption|reflexivity|apply NX; assumption].
  - eapply value_guar; [eassumption|reflexivity|apply NX; assumption].
  - eapply value_guar; [eassumption|reflexivity|eapply NW; eassumption].
  - eapply value_guar; [eassumption|reflexivity|eapply NW; eassumption].
  - pose proof (inv_env (Permutation_refl _) H HI) as HI'.
    assert (HI2 : inv h ([Imp x] ++ concat gs) (Env (K ++ P) W' [] mk)).
    { destruct HI' as [IS' IW IV IH]. split; cbn [e_strong e_weak e_vals e_made] in *; auto.
      - cbn [gimps flat_map timps app]. eapply weak_counts_perm; [|exact IW]. symmetry. apply Permutation_middle.
      - constructor; [exact I|exact IH]. }
    destruct (@safe_frame _ _ _ (concat gs) _ _ (@safe_dec_weak _ x) h _ HI2) as (b' & h2 & g' & E1 & I1 & G1 & S1).
    cbv [atomic p_bind] in E1. rewrite H0 in E1. injection E1 as <- <-. cbn [e_strong] in G1. eapply guar_incl; [|exact G1]. apply incl_appr, incl_refl.
  - cbv [fresh] in H0. injection H0 as <- <-. eapply grow_guar; [exact CP|apply incl_appl, incl_refl].
  - assert (NR : ~ reach h P x).
    { apply XP. eapply only_var; [|eassumption]. eapply Permutation_in; [symmetry; exact H|]. left. reflexivity. }
    eapply same_cells_guar with (h1 := upd h x (Some (Cell 1 0 (Some n')))); [reflexivity|]. eapply upd_guar; eauto.
  - assert (NR : ~ reach h P x).
    { apply XP. eapply exclusive_incl; [|eassumption]. intros y Hy. eapply Permutation_in; [symmetry; exact H|]. apply in_or_app. auto. }
    eapply same_cells_guar with (h1 := upd h x (Some (Cell 1 0 (Some n')))); [reflexivity|]. eapply upd_guar; eauto.
Qed.
Lemma others_step w w' P qs : pool (mem w) (strongs w ++ P) (weaks w) (running w ++ qs) (made w) -> step w w' ->
  pool (mem w') (strongs w' ++ P) (weaks w') (running w' ++ qs) (made w') /\ guar P (mem w) (mem w').
Proof.
  intros (gs & HG) [HD|HC].
  - destruct (good_drop HG (drop_frame P qs HD)) as (gs' & HG' & G). split; [exists gs'; exact HG'|]. eapply guar_incl; [|exact G]. apply incl_appr, incl_refl.
  - destruct (good_client HG (client_frame P qs HC)) as (gs' & HG'). split; [exists gs'; exact HG'|]. eapply client_guar; eassumption.
Qed.
End Pool.
