(** The drop algorithm among other threads. *)
From Coq Require Import List Arith Lia Permutation Bool.
From Verif.Model Require Import Prelude Drop DropRc DropArc.
From Verif.Spec Require Import Drops Threads.
From Verif.Proofs Require Import HeapFacts HeapLink DropRcFacts.
Import ListNotations.
Set Implicit Arguments.

Section Threads.
Context {X : Type}.
Local Notation heap := (heap X).
Local Notation node := (node nat X).
Local Notation Cell := (@Cell X).
Local Notation leaf := (@temp_leaf nat X).
Local Notation prog := (prog X).
Implicit Types (h : heap) (K W : list nat).

(** ** What a drop has *)
Inductive token :=
| Ref (x : nat) (t : tree)  (* a strong reference, and all that is below it *)
| Own (x : nat)             (* the only reference to a new leaf *)
| Imp (x : nat)             (* what keeps memory on behalf of the strong references *)
| Val (v : X).              (* a value *)
Implicit Types (g f : list token).

Definition trefs (k : token) : list nat := match k with Ref x _ | Own x => [x] | _ => [] end.
Definition timps (k : token) : list nat := match k with Imp x => [x] | _ => [] end.
Definition tvals (k : token) : list X := match k with Val v => [v] | _ => [] end.
Definition holds h (k : token) : Prop :=
  match k with
  | Ref x t => unfolds h x t
  | Own x => cell_at h x = Some (Cell 1 0 (Some leaf))
  | _ => True
  end.
Definition grefs g := flat_map trefs g.
Definition gimps g := flat_map timps g.
Definition gvals g := flat_map tvals g.

(** ** What others have *)
Record env := Env { e_strong : list nat; e_weak : list nat; e_vals : list X; e_made : list X }.
Record inv h g (E : env) : Prop := {
  i_strong : consistent h (grefs g ++ e_strong E);
  i_weak : weak_counts h (gimps g ++ e_weak E);
  i_vals : Permutation (dropped h ++ payloads h ++ gvals g ++ e_vals E) (e_made E);
  i_holds : Forall (holds h) g }.
(** What they can rely on. *)
Record guar K h h' : Prop := {
  g_frame : frame K h h';
  g_only : forall x, exclusive h K x -> cell_at h' x = cell_at h x }.

Lemma guar_refl K h : guar K h h.
Proof. split; [apply frame_refl|auto]. Qed.
Lemma guar_incl K1 K2 h h' : incl K1 K2 -> guar K2 h h' -> guar K1 h h'.
Proof. intros HI [F O]. split; [eapply frame_incl; eauto|]. intros. apply O. eapply exclusive_incl; eauto. Qed.
Lemma guar_exclusive K h h' x : guar K h h' -> exclusive h K x -> exclusive h' K x.
Proof.
  intros [F O] HX. assert (H := HX). revert H. induction HX as [x v HI E|x n y v HX IH En Hy E]; intros H; pose proof (O _ H) as EO.
  - eapply only_var; [exact HI|]. rewrite EO. exact E.
  - eapply only_kid; [exact (IH HX)| |exact Hy|rewrite EO; exact E]. rewrite (F x (exclusive_reach HX)). exact En.
Qed.
Lemma guar_trans K h1 h2 h3 : guar K h1 h2 -> guar K h2 h3 -> guar K h1 h3.
Proof.
  intros G1 G2. split; [exact (frame_trans (g_frame G1) (g_frame G2))|]. intros x HX. rewrite (g_only G2 (guar_exclusive G1 HX)). apply (g_only G1 HX).
Qed.

Lemma grow_guar K0 K h c : consistent h K0 -> incl K K0 -> guar K h (grow h c).
Proof.
  intros HC HI. assert (HR : forall y, reach h K y -> cell_at (grow h c) y = cell_at h y).
  { intros y HR. rewrite cell_at_grow. destruct (Nat.eqb_spec y (length (cells h))) as [->|]; [|reflexivity]. exfalso.
    apply (cons_refs HC _ (reach_live HC HI HR)). unfold node_at. rewrite cell_at_out by lia. reflexivity. }
  split; [intros y Hy; unfold node_at; rewrite HR by exact Hy; reflexivity|]. intros y HX. apply HR, exclusive_reach, HX.
Qed.

Definition shift g g' : Prop := forall h E, inv h g E -> inv h g' E.
Fixpoint safe {A} (p : prog A) g (Q : A -> list token -> Prop) : Prop :=
  match p with
  | Done a => exists g', shift g g' /\ Q a g'
  | Panicked _ | Exhausted _ => False
  | Atomic m k => forall h E, inv h g E ->
      exists b h' g', m h = Ok (b, h') /\ inv h' g' E /\ guar (e_strong E) h h' /\ safe (k b) g' Q
  end.

Lemma shift_refl g : shift g g. Proof. intros h E. auto. Qed.
Lemma shift_trans g1 g2 g3 : shift g1 g2 -> shift g2 g3 -> shift g1 g3.
Proof. intros A B h E HI. apply B, A, HI. Qed.
Lemma safe_shift A (p : prog A) g g' Q : shift g g' -> safe p g' Q -> safe p g Q.
Proof.
  destruct p as [a| | |B m k]; cbn; intros HS HP; auto.
  destruct HP as (g2 & S2 & HQ). exists g2. split; [eapply shift_trans; eauto|exact HQ].
Qed.
Lemma safe_mono A (p : prog A) (Q R : A -> list token -> Prop) : (forall a g, Q a g -> R a g) -> forall g, safe p g Q -> safe p g R.
Proof.
  intros HQR. induction p as [a| | |B m k IH]; cbn; intros g HP; auto.
  - destruct HP as (g' & S & HQ). eauto.
  - intros h E HI. destruct (HP h E HI) as (b & h' & g' & E1 & I1 & G1 & S1). exists b, h', g'. auto 6.
Qed.
Lemma safe_ret A (a : A) g (Q : A -> list token -> Prop) : Q a g -> safe (Done a) g Q.
Proof. intros. exists g. split; [apply shift_refl|assumption]. Qed.
Lemma safe_bind A B (p : prog A) (k : A -> prog B) (Q : A -> list token -> Prop) (R : B -> list token -> Prop) : (forall a g, Q a g -> safe (k a) g R) -> forall g, safe p g Q -> safe (p_bind p k) g R.
Proof.
  intros HK. induction p as [a| | |C m c IH]; cbn; intros g HP; auto.
  - destruct HP as (g' & S & HQ). eapply safe_shift; eauto.
  - intros h E HI. destruct (HP h E HI) as (b & h' & g' & E1 & I1 & G1 & S1). exists b, h', g'. auto 6.
Qed.

Lemma weak_counts_perm h W W' : Permutation W W' -> weak_counts h W -> weak_counts h W'.
Proof.
  intros P HW x. specialize (HW x). destruct (cell_at h x) as [c|].
  - change (weak c = count W' x /\ (strong c = 0 -> 0 < weak c)). rewrite <- (count_perm x P). exact HW.
  - intros HI. apply HW. eapply Permutation_in; [symmetry; exact P|exact HI].
Qed.
Lemma shift_perm g g' : Permutation g g' -> shift g g'.
Proof.
  intros P h E [S W V HH]. split.
  - eapply consistent_perm; [|exact S]. apply Permutation_app_tail. apply Permutation_flat_map. exact P.
  - eapply weak_counts_perm; [|exact W]. apply Permutation_app_tail. apply Permutation_flat_map. exact P.
  - rewrite <- V. do 2 apply Permutation_app_head. apply Permutation_app_tail. symmetry. apply Permutation_flat_map. exact P.
  - rewrite Forall_forall in *. intros k Hk. apply HH. eapply Permutation_in; [symmetry; exact P|exact Hk].
Qed.

Lemma unfolds_frame h h' K t : frame K h h' -> forall x, reach h K x -> unfolds h x t -> unfolds h' x t.
Proof.
  intros F. induction t as [|l IHl r IHr]; intros x HR (n & E & HT); exists n; (split; [rewrite (F _ HR); exact E|]).
  - exact HT.
  - destruct HT as (a & b & EB & U1 & U2). exists a, b. split; [exact EB|].
    assert (EK : kids n = [a; b]) by (unfold kids; rewrite EB; reflexivity).
    split; [apply IHl|apply IHr]; auto; eapply reach_kid; eauto; rewrite EK; cbn; auto.
Qed.
Lemma holds_guar h h' f : guar (grefs f) h h' -> Forall (holds h) f -> Forall (holds h') f.
Proof.
  intros [F O] HF. rewrite Forall_forall in *. intros k Hk. specialize (HF _ Hk).
  assert (HI : incl (trefs k) (grefs f)) by (intros x Hx; apply in_flat_map; eauto).
  destruct k as [x t|x|x|v]; cbn [trefs holds] in *; auto.
  - eapply unfolds_frame; [exact F| |exact HF]. apply reach_root, HI. left. reflexivity.
  - rewrite O; [exact HF|]. eapply only_var; [apply HI; left; reflexivity|exact HF].
Qed.

Definition with_env f (E : env) : env := Env (grefs f ++ e_strong E) (gimps f ++ e_weak E) (gvals f ++ e_vals E) (e_made E).
Lemma inv_in h g f E : inv h (g ++ f) E -> inv h g (with_env f E).
Proof.
  unfold with_env. intros [S W V HH]. unfold grefs, gimps, gvals in *. rewrite flat_map_app, <- app_assoc in *. split; cbn; auto.
  apply Forall_app in HH. tauto.
Qed.
Lemma inv_out h g f E : inv h g (with_env f E) -> Forall (holds h) f -> inv h (g ++ f) E.
Proof.
  unfold with_env. intros [S W V HH] HF. split; unfold grefs, gimps, gvals in *; rewrite ?flat_map_app, <- ?app_assoc; auto.
  apply Forall_app. auto.
Qed.
Lemma shift_frame g g' f : shift g g' -> shift (g ++ f) (g' ++ f).
Proof. intros HS h E HI. apply inv_out; [apply HS, inv_in, HI|]. destruct HI as [_ _ _ HH]. apply Forall_app in HH. tauto. Qed.
Lemma safe_frame A (p : prog A) f (Q : A -> list token -> Prop) : forall g, safe p g Q -> safe p (g ++ f) (fun a g' => exists g0, g' = g0 ++ f /\ Q a g0).
Proof.
  induction p as [a| | |B m k IH]; cbn; intros g HP; auto.
  - destruct HP as (g' & S & HQ). exists (g' ++ f). split; [apply shift_frame; exact S|eauto].
  - intros h E HI. destruct (HP h _ (inv_in _ _ HI)) as (b & h' & g' & E1 & I1 & G1 & S1). exists b, h', (g' ++ f). cbn in G1.
    assert (HF : Forall (holds h') f).
    { eapply holds_guar; [eapply guar_incl; [|exact G1]; intros x Hx; apply in_or_app; auto|]. destruct HI as [_ _ _ HH]. apply Forall_app in HH. tauto. }
    split; [exact E1|]. split; [apply inv_out; assumption|]. split; [|apply IH; exact S1].
    eapply guar_incl; [|exact G1]. intros x Hx. apply in_or_app. auto.
Qed.
(** Part of what there is is used first. *)
Lemma safe_call A B (p : prog A) (k : A -> prog B) g f all (Q : A -> list token -> Prop) (R : B -> list token -> Prop) : safe p g Q -> Permutation all (g ++ f) ->
  (forall a g', Q a g' -> safe (k a) (g' ++ f) R) -> safe (p_bind p k) all R.
Proof.
  intros HP P HK. eapply safe_shift; [apply shift_perm; exact P|]. eapply safe_bind; [|apply safe_frame; exact HP].
  intros a g' (g0 & -> & HQ). apply HK. exact HQ.
Qed.
Lemma safe_atomic B (m : H B) g (Q : B -> list token -> Prop) :
  (forall h E, inv h g E -> exists b h' g', m h = Ok (b, h') /\ inv h' g' E /\ guar (e_strong E) h h' /\ Q b g') -> safe (atomic m) g Q.
Proof. intros HM h E HI. destruct (HM h E HI) as (b & h' & g' & E1 & I1 & G1 & HQ). exists b, h', g'. do 3 (split; [assumption|]). apply safe_ret. exact HQ. Qed.

(** ** The steps *)
Lemma upd_frame K h x c oc : cell_at h x = Some c -> (~ reach h K x \/ exists c', oc = Some c' /\ value c' = value c) -> frame K h (upd h x oc).
Proof.
  intros E HO y HR. unfold node_at. rewrite (cell_at_upd _ _ _ _ E). destruct (Nat.eqb_spec y x) as [->|]; [|reflexivity].
  destruct HO as [HO|(c' & -> & EV)]; [contradiction|]. rewrite E. exact EV.
Qed.
Lemma upd_guar K h x c oc : cell_at h x = Some c -> (~ reach h K x \/ exists c', oc = Some c' /\ value c' = value c) ->
  (~ reach h K x \/ strong c <> 1 \/ weak c <> 0) -> guar K h (upd h x oc).
Proof.
  intros E HO HN. split; [eapply upd_frame; eauto|]. intros y HX. rewrite (cell_at_upd _ _ _ _ E).
  destruct (Nat.eqb_spec y x) as [->|]; [|reflexivity]. exfalso. destruct (exclusive_cell HX) as (v & Ey). rewrite E in Ey. injection Ey as ->.
  destruct HN as [HN|[HN|HN]]; auto. apply HN, exclusive_reach, HX.
Qed.
Lemma weak_upd h x c oc W1 W2 : cell_at h x = Some c -> weak_counts h W1 -> (forall y, y <> x -> count W2 y = count W1 y) ->
  match oc with Some c' => weak c' = count W2 x /\ (strong c' = 0 -> 0 < weak c') | None => count W2 x = 0 end -> weak_counts (upd h x oc) W2.
Proof.
  intros E HW HO HX y. rewrite (cell_at_upd _ _ _ _ E). destruct (Nat.eqb_spec y x) as [->|NE].
  - destruct oc as [c'|]; [exact HX|]. intros HI. apply count_In in HI. lia.
  - specialize (HW y). specialize (HO _ NE). destruct (cell_at h y) as [c'|].
    + change (weak c' = count W2 y /\ (strong c' = 0 -> 0 < weak c')). rewrite HO. exact HW.
    + intros HI. apply HW. apply count_In. apply count_In in HI. lia.
Qed.

Definition tclass (t : tree) : class := match t with TLeaf => Leaf | TBranch _ _ => Branch end.
(** What a datum has in it. *)
Definition ktoks (n : node) (t : tree) : list token :=
  match t, branches n with
  | TBranch l r, Some (a, b) => [Ref a l; Ref b r]
  | _, _ => map Val (payload n)
  end.
Lemma unfolds_node h x t n : unfolds h x t -> node_at h x = Some n -> node_class n = tclass t /\
  grefs (ktoks n t) = kids n /\ gimps (ktoks n t) = [] /\ gvals (ktoks n t) = payload n /\ Forall (holds h) (ktoks n t).
Proof.
  intros HU EN. assert (HV : forall l : list X, grefs (map Val l) = [] /\ gimps (map Val l) = [] /\ gvals (map Val l) = l /\ Forall (holds h) (map Val l)).
  { induction l as [|v l (I1 & I2 & I3 & I4)]; [repeat split; constructor|]. unfold grefs, gimps, gvals in *. cbn. rewrite I1, I2, I3. repeat split; auto; constructor; cbn; auto. }
  destruct t as [|l r]; destruct HU as (n' & EN' & HU); rewrite EN in EN'; injection EN' as <-.
  - unfold node_class, ktoks, kids. rewrite HU. destruct (HV (payload n)) as (I1 & I2 & I3 & I4). rewrite I1, I2, I3. auto.
  - destruct HU as (a & b & EB & U1 & U2). unfold node_class, ktoks, kids. rewrite EB. rewrite (payload_branch n) by congruence.
    repeat split; auto.
Qed.

Lemma own_ref x : shift [Own x] [Ref x TLeaf].
Proof.
  intros h E [S W V HH]. split; auto. inversion HH as [|? ? HX]; subst. repeat constructor. cbn in *. exists leaf. split; [|reflexivity].
  unfold node_at. rewrite HX. reflexivity.
Qed.
Lemma inv_ref h x t E : inv h [Ref x t] E -> exists s w n, cell_at h x = Some (Cell (S s) w (Some n)) /\ node_at h x = Some n /\ unfolds h x t.
Proof.
  intros [S W V HH]. destruct (consistent_live x S (or_introl eq_refl)) as (s & w & n & EC). exists s, w, n. split; [exact EC|].
  split; [unfold node_at; rewrite EC; reflexivity|]. inversion HH; subst. assumption.
Qed.

Lemma safe_deref x t : safe (atomic (deref x)) [Ref x t] (fun n g => node_class n = tclass t /\ g = [Ref x t]).
Proof.
  apply safe_atomic. intros h E HI. destruct (inv_ref HI) as (s & w & n & EC & EN & HU). exists n, h, [Ref x t].
  split; [unfold deref, d_bind, read; rewrite EC; reflexivity|]. split; [exact HI|]. split; [apply guar_refl|]. split; [|reflexivity].
  apply (@unfolds_node _ _ _ _ HU EN).
Qed.
Lemma safe_class x t : safe (class_of arc_ops x) [Ref x t] (fun c g => c = tclass t /\ g = [Ref x t]).
Proof. eapply safe_bind; [|apply safe_deref]. intros n g (E & ->). apply safe_ret. auto. Qed.

Lemma safe_fresh : safe (atomic (fresh (Cell 1 0 (Some leaf)))) [] (fun x g => g = [Own x]).
Proof.
  apply safe_atomic. intros h E [S W V HH]. cbn in S, W, V. set (x := length (cells h)). exists x, (grow h (Cell 1 0 (Some leaf))), [Own x].
  assert (EX : cell_at h x = None) by (apply cell_at_out; unfold x; lia).
  assert (NX : node_at h x = None) by (unfold node_at; rewrite EX; reflexivity).
  split; [reflexivity|]. split; [|split; [|reflexivity]].
  - split; cbn [grefs gimps gvals flat_map trefs timps tvals app].
    + apply consistent_grow; [exact S|reflexivity].
    + intros y. rewrite cell_at_grow. destruct (Nat.eqb_spec y (length (cells h))) as [->|]; [|apply W]. cbn. split; [|discriminate].
      specialize (W x). rewrite EX in W. symmetry. apply count_occ_not_In. exact W.
    + unfold payloads. rewrite of_all_grow. cbn. rewrite app_nil_r. exact V.
    + repeat constructor. cbn. rewrite cell_at_grow, Nat.eqb_refl. reflexivity.
  - eapply grow_guar; [exact S|apply incl_refl].
Qed.

(** The last strong reference goes. *)
Lemma last_inv h x t w n E : inv h [Ref x t] E -> cell_at h x = Some (Cell 1 w (Some n)) ->
  let h' := upd h x (Some (Cell 0 (S w) None)) in inv h' (Imp x :: ktoks n t) E /\ guar (e_strong E) h h'.
Proof.
  intros [S W V HH] EC h'. cbn in S, W, V. inversion HH as [|? ? HU]; subst. cbn in HU.
  assert (EN : node_at h x = Some n) by (unfold node_at; rewrite EC; reflexivity).
  assert (R1 : refs (x :: e_strong E) h x = 1) by (destruct (cons_count S _ EC) as [HS _]; cbn [strong] in HS; symmetry; exact HS).
  destruct (take_facts S EN R1) as (NR & C1 & C2 & C3). destruct (@unfolds_node _ _ _ _ HU EN) as (_ & K1 & K2 & K3 & K4).
  assert (F : frame (kids n ++ e_strong E) h h') by (eapply upd_frame; eauto).
  split; [split|].
  - change (grefs (Imp x :: ktoks n t)) with (grefs (ktoks n t)). rewrite K1. eapply consistent_upd; [exact S|exact EC| | |].
    + intros c' [= <-]. cbn. tauto.
    + intros y. cbn [onto value strong ostrong]. change (onto kids (Some (Cell 1 w (Some n)))) with (kids n). rewrite count_app, count_cons, count_nil.
      rewrite (Nat.eqb_sym x y). destruct (y =? x); lia.
    + left. cbn. intros y [].
  - change (gimps (Imp x :: ktoks n t)) with (x :: gimps (ktoks n t)). rewrite K2. cbn [app]. eapply weak_upd; [exact EC|exact W| |].
    + intros y NE. rewrite count_cons. destruct (Nat.eqb_spec x y); [congruence|reflexivity].
    + cbn [weak strong]. rewrite count_cons, Nat.eqb_refl. specialize (W x). rewrite EC in W. cbn [weak strong] in W. unfold count. destruct W as [-> _]. split; [reflexivity|lia].
  - change (gvals (Imp x :: ktoks n t)) with (gvals (ktoks n t)). rewrite K3.
    pose proof (payloads_upd h x (Some (Cell 0 (Datatypes.S w) None)) EC) as P. cbn [onto value] in P. rewrite app_nil_r in P. fold h' in P.
    rewrite <- V. change (dropped h') with (dropped h). apply Permutation_app_head. rewrite app_assoc. cbn [app]. apply Permutation_app_tail. exact P.
  - constructor; [exact I|]. eapply holds_guar; [|exact K4]. rewrite K1. split.
    + eapply frame_incl; [|exact F]. intros y Hy. apply in_or_app. auto.
    + intros y HX. unfold h'. rewrite (cell_at_upd _ _ _ _ EC). destruct (Nat.eqb_spec y x) as [->|]; [|reflexivity].
      exfalso. apply NR. eapply reach_incl; [|apply exclusive_reach; exact HX]. intros y Hy. apply in_or_app. auto.
  - eapply upd_guar; [exact EC| |]; left; intros HR; apply NR; (eapply reach_incl; [|exact HR]); intros y Hy; apply in_or_app; auto.
Qed.

Lemma safe_claim x t : safe (atomic (claim x)) [Ref x t] (fun o g =>
  match o with Some n => node_class n = tclass t /\ g = Imp x :: ktoks n t | None => g = [Ref x t] end).
Proof.
  apply safe_atomic. intros h E HI. destruct (inv_ref HI) as (s & w & n & EC & EN & HU). destruct s as [|s].
  - destruct (last_inv HI EC) as (I' & G'). exists (Some n), (upd h x (Some (Cell 0 (S w) None))), (Imp x :: ktoks n t).
    split; [unfold claim, d_bind, read; rewrite EC; reflexivity|]. split; [exact I'|]. split; [exact G'|]. split; [apply (@unfolds_node _ _ _ _ HU EN)|reflexivity].
  - exists None, h, [Ref x t]. split; [unfold claim, d_bind, read; rewrite EC; reflexivity|]. split; [exact HI|]. split; [apply guar_refl|reflexivity].
Qed.
(** A claim that cannot fail. *)
Lemma safe_claim_own x : safe (atomic (claim x)) [Own x] (fun o g => o = Some leaf /\ g = [Imp x]).
Proof.
  apply safe_atomic. intros h E HI. assert (EC : cell_at h x = Some (Cell 1 0 (Some leaf))) by (destruct HI as [_ _ _ HH]; inversion HH; subst; assumption).
  destruct (last_inv (own_ref HI) EC) as (I' & G'). exists (Some leaf), (upd h x (Some (Cell 0 1 None))), [Imp x].
  split; [unfold claim, d_bind, read; rewrite EC; reflexivity|]. split; [exact I'|]. split; [exact G'|]. auto.
Qed.

Lemma safe_dec_weak x : safe (atomic (dec_weak x)) [Imp x] (fun _ g => g = []).
Proof.
  apply safe_atomic. intros h E [S W V HH]. cbn in S, W, V. pose proof (W x) as WX. destruct (cell_at h x) as [[s w v]|] eqn:EC; [|exfalso; apply WX; left; reflexivity].
  cbn in WX. destruct (Nat.eq_dec x x); [|congruence]. destruct WX as (-> & _).
  set (w' := count (e_weak E) x). change (count_occ Nat.eq_dec (e_weak E) x) with w' in *.
  destruct (cons_count S _ EC) as (_ & HV). cbn in HV.
  assert (G : forall oc, (oc = Some (Cell s w' v) /\ (s = 0 -> 0 < w')) \/ (oc = None /\ s = 0 /\ w' = 0) ->
    inv (upd h x oc) [] E /\ guar (e_strong E) h (upd h x oc)).
  { intros oc HO. assert (EK : onto kids oc = onto kids (Some (Cell s (Datatypes.S w') v)) /\ onto payload oc = onto payload (Some (Cell s (Datatypes.S w') v))).
    { destruct HO as [(-> & _)|(-> & -> & _)]; [split; reflexivity|]. rewrite (proj2 HV eq_refl). split; reflexivity. }
    destruct EK as (EK & EP). split; [split|].
    - cbn [grefs flat_map app]. eapply consistent_upd; [exact S|exact EC| | |].
      + intros c' ->. destruct HO as [([= ->] & _)|([=] & _)]. exact HV.
      + intros y. rewrite EK. destruct HO as [(-> & _)|(-> & -> & _)]; cbn [strong ostrong]; lia.
      + left. rewrite EK. apply incl_refl.
    - cbn [gimps flat_map app]. eapply weak_upd; [exact EC|exact W| |].
      + intros y NE. rewrite count_cons. destruct (Nat.eqb_spec x y); [congruence|reflexivity].
      + destruct HO as [(-> & HZ)|(-> & -> & HZ)]; [split; [reflexivity|exact HZ]|exact HZ].
    - pose proof (payloads_upd h x oc EC) as P. rewrite EP in P. apply Permutation_app_inv_r in P. rewrite <- V. cbn [gvals flat_map app].
      change (dropped (upd h x oc)) with (dropped h). apply Permutation_app_head, Permutation_app_tail. exact P.
    - constructor.
    - split.
      + intros y HR. unfold node_at. rewrite (cell_at_upd _ _ _ _ EC). destruct (Nat.eqb_spec y x) as [->|]; [|reflexivity]. rewrite EC.
        destruct HO as [(-> & _)|(-> & -> & _)]; [reflexivity|]. symmetry. apply (proj2 HV eq_refl).
      + intros y HX. rewrite (cell_at_upd _ _ _ _ EC). destruct (Nat.eqb_spec y x) as [->|]; [|reflexivity]. exfalso.
        destruct (exclusive_cell HX) as (v0 & Ey). rewrite EC in Ey. discriminate. }
  clearbody w'. destruct s as [|s]; [destruct w' as [|w1]|].
  - exists tt, (upd h x None), []. split; [unfold dec_weak, d_bind, read; rewrite EC; reflexivity|]. destruct (G None) as (I' & G'); [auto|]. auto.
  - exists tt, (upd h x (Some (Cell 0 (Datatypes.S w1) v))), []. split; [unfold dec_weak, d_bind, read; rewrite EC; reflexivity|].
    destruct (G (Some (Cell 0 (Datatypes.S w1) v))) as (I' & G'); [left; split; [reflexivity|lia]|]. auto.
  - exists tt, (upd h x (Some (Cell (Datatypes.S s) w' v))), []. split; [unfold dec_weak, d_bind, read; rewrite EC; reflexivity|].
    destruct (G (Some (Cell (Datatypes.S s) w' v))) as (I' & G'); [left; split; [reflexivity|lia]|]. auto.
Qed.

Lemma safe_dec_strong x t : safe (atomic (dec_strong x)) [Ref x t] (fun o g =>
  match o with Some n => node_class n = tclass t /\ g = Imp x :: ktoks n t | None => g = [] end).
Proof.
  apply safe_atomic. intros h E HI. destruct (inv_ref HI) as (s & w & n & EC & EN & HU). destruct s as [|s].
  - destruct (last_inv HI EC) as (I' & G'). exists (Some n), (upd h x (Some (Cell 0 (S w) None))), (Imp x :: ktoks n t).
    split; [unfold dec_strong, d_bind, read; rewrite EC; reflexivity|]. split; [exact I'|]. split; [exact G'|].
    split; [apply (@unfolds_node _ _ _ _ HU EN)|reflexivity].
  - set (c' := Cell (S s) w (Some n)). exists None, (upd h x (Some c')), [].
    split; [unfold dec_strong, d_bind, read; rewrite EC; reflexivity|]. split; [|split; [|reflexivity]].
    + destruct HI as [IS IW IV IH]. cbn [grefs gimps gvals flat_map trefs timps tvals app] in *. split; cbn [grefs gimps gvals flat_map app].
      * eapply consistent_upd; [exact IS|exact EC| | |left; apply incl_refl].
        -- intros c0 [= <-]. cbn. split; discriminate.
        -- intros y. cbn [onto value strong ostrong c']. rewrite count_cons, (Nat.eqb_sym x y). destruct (y =? x); lia.
      * eapply weak_upd; [exact EC|exact IW|reflexivity|]. specialize (IW x). rewrite EC in IW. cbn [weak strong c'] in *. split; [apply IW|discriminate].
      * pose proof (payloads_upd h x (Some c') EC) as P. cbn [onto value c'] in P. apply Permutation_app_inv_r in P. rewrite <- IV.
        change (dropped (upd h x (Some c'))) with (dropped h). apply Permutation_app_head, Permutation_app_tail. exact P.
      * constructor.
    + eapply upd_guar; [exact EC|right; eexists; split; reflexivity|right; left; cbn; lia].
Qed.

Lemma safe_read_own x : safe (atomic (read x)) [Own x] (fun c g => c = Cell 1 0 (Some leaf) /\ g = [Own x]).
Proof.
  apply safe_atomic. intros h E HI. assert (EC : cell_at h x = Some (Cell 1 0 (Some leaf))) by (destruct HI as [_ _ _ HH]; inversion HH; subst; assumption).
  eexists _, h, [Own x]. split; [unfold read; rewrite EC; reflexivity|]. split; [exact HI|]. split; [apply guar_refl|auto].
Qed.
Lemma safe_get_mut x : safe (a_get_mut x) [Own x] (fun b g => b = true /\ g = [Own x]).
Proof.
  unfold a_get_mut. eapply safe_bind; [|apply safe_read_own]. intros c g (-> & ->). cbn [weak Nat.eqb].
  eapply safe_bind; [|apply safe_read_own]. intros c g (-> & ->). apply safe_ret. auto.
Qed.
Lemma safe_assign x a b ta tb : safe (atomic (assign x (NList a b))) [Own x; Ref a ta; Ref b tb]
  (fun old g => old = leaf /\ g = [Ref x (TBranch ta tb)]).
Proof.
  apply safe_atomic. intros h E HI. pose proof HI as [IS IW IV IH]. cbn [grefs gimps gvals flat_map trefs timps tvals app] in *.
  inversion IH as [|? ? EC IH1]; subst. inversion IH1 as [|? ? UA IH2]; subst. inversion IH2 as [|? ? UB _]; subst. cbn [holds] in *.
  set (c' := Cell 1 0 (Some (NList a b))). set (h' := upd h x (Some c')).
  assert (HU : ~ reach h (a :: b :: e_strong E) x /\ count (a :: b :: e_strong E) x = 0 /\ count (edges h) x = 0) by (apply (unreachable IS EC)).
  destruct HU as (NR & C1 & C2). rewrite !count_cons in C1.
  assert (F : frame (a :: b :: e_strong E) h h') by (eapply upd_frame; eauto).
  exists leaf, h', [Ref x (TBranch ta tb)]. split; [unfold assign, d_bind, read; rewrite EC; reflexivity|]. split; [split|split; [|auto]].
  - cbn [grefs flat_map trefs app]. eapply consistent_upd; [exact IS|exact EC| | |].
    + intros c0 [= <-]. cbn. split; discriminate.
    + intros y. change (onto kids (Some c')) with [a; b]. change (onto kids (Some (Cell 1 0 (Some leaf)))) with (@nil nat).
      cbn [strong ostrong c']. rewrite !count_cons, !count_nil. destruct (y =? x); lia.
    + right. split; [exact C2|]. change (onto kids (Some c')) with [a; b]. intros HI'. apply count_In in HI'. rewrite !count_cons, count_nil in HI'. lia.
  - cbn [gimps flat_map timps app]. eapply weak_upd; [exact EC|exact IW|reflexivity|]. specialize (IW x). rewrite EC in IW. cbn [weak strong c'] in *. split; [apply IW|discriminate].
  - pose proof (payloads_upd h x (Some c') EC) as P. cbn [onto value c' payload] in P. apply Permutation_app_inv_r in P. rewrite <- IV. cbn [gvals flat_map tvals app].
    change (dropped h') with (dropped h). apply Permutation_app_head, Permutation_app_tail. exact P.
  - repeat constructor. cbn [holds unfolds]. exists (NList a b). split.
    + unfold node_at, h'. rewrite (cell_at_upd _ _ _ _ EC), Nat.eqb_refl. reflexivity.
    + exists a, b. split; [reflexivity|]. split; (eapply unfolds_frame; [exact F| |eassumption]); apply reach_root; cbn; auto.
  - eapply upd_guar; [exact EC| |]; left; intros HR; apply NR; (eapply reach_incl; [|exact HR]); intros y Hy; do 2 right; exact Hy.
Qed.
Lemma safe_set x a b ta tb : safe (a_set x (NList a b)) [Own x; Ref a ta; Ref b tb] (fun x' g => x' = x /\ g = [Ref x (TBranch ta tb)]).
Proof.
  unfold a_set. eapply safe_call; [apply safe_get_mut|apply (Permutation_refl ([Own x] ++ [Ref a ta; Ref b tb]))|]. intros u g (-> & ->). cbn [app].
  eapply safe_bind; [|apply safe_assign]. intros old g (-> & ->). apply safe_ret. auto.
Qed.

Lemma safe_drop_value v : safe (atomic (drop_value v)) [Val v] (fun _ g => g = []).
Proof.
  apply safe_atomic. intros h E [IS IW IV IH]. cbn [grefs gimps gvals flat_map trefs timps tvals app] in *.
  set (h' := Heap (cells h) (dropped h ++ [v])). exists tt, h', []. split; [reflexivity|]. split; [|split; [|reflexivity]].
  - split; cbn [grefs gimps gvals flat_map app]; [|exact IW| |constructor].
    + destruct IS as [C1 C2 C3]. split; [exact C1|exact C2|exact C3].
    + rewrite <- IV. change (payloads h') with (payloads h). cbn [dropped h']. rewrite <- app_assoc. apply Permutation_app_head. cbn [app].
      apply Permutation_middle.
  - split; [intros y HR; reflexivity|auto].
Qed.

Lemma safe_unwrap x t : safe (a_try_unwrap x) [Ref x t] (fun o g =>
  match o with Some n => node_class n = tclass t /\ g = ktoks n t | None => g = [Ref x t] end).
Proof.
  unfold a_try_unwrap. eapply safe_bind; [|apply safe_claim]. intros [n|] g HG; [|apply safe_ret; exact HG].
  destruct HG as (EC & ->). eapply safe_call; [apply safe_dec_weak|apply (Permutation_refl ([Imp x] ++ ktoks n t))|].
  intros [] g ->. apply safe_ret. auto.
Qed.
Lemma safe_unwrap_own x : safe (a_try_unwrap x) [Own x] (fun o g => o = Some leaf /\ g = []).
Proof.
  unfold a_try_unwrap. eapply safe_bind; [|apply safe_claim_own]. intros ? g (-> & ->).
  eapply safe_bind; [|apply safe_dec_weak]. intros [] g ->. apply safe_ret. auto.
Qed.

Lemma safe_ret_perm A (a : A) g g' (Q : A -> list token -> Prop) : Permutation g g' -> Q a g' -> safe (Done a) g Q.
Proof. intros P HQ. exists g'. split; [apply shift_perm; exact P|exact HQ]. Qed.
Definition taken x a b (p : option node * nat) g : Prop :=
  match p with
  | (Some d, x') => exists sl sr, branches d = Some (sl, sr) /\ g = [Own x'; Ref sl a; Ref sr b]
  | (None, x') => x' = x /\ g = [Ref x (TBranch a b)]
  end.
Lemma safe_trytake x a b : safe (trytake arc_ops x) [Ref x (TBranch a b)] (taken x a b).
Proof.
  unfold trytake. cbn [r_try_replace arc_ops]. unfold a_try_replace.
  eapply safe_call; [apply safe_fresh|apply (Permutation_refl ([] ++ [Ref x (TBranch a b)]))|]. intros new g ->. cbn [app].
  eapply safe_call with (f := [Own new]); [apply (@safe_unwrap x (TBranch a b))|apply perm_swap|]. intros [n|] g HG.
  - destruct HG as (EC & ->). unfold node_class in EC. destruct (branches n) as [[sl sr]|] eqn:EB; [|discriminate].
    eapply safe_ret_perm; [|exists sl, sr; split; [exact EB|reflexivity]]. unfold ktoks. rewrite EB. apply (Permutation_app_comm [_; _] [_]).
  - subst g. eapply safe_call with (f := [Ref x (TBranch a b)]); [apply (@safe_unwrap_own new)|apply perm_swap|]. intros ? g (-> & ->). apply safe_ret. cbn. auto.
Qed.

(** ** Selecting a side *)
Definition picked lock l r tl tr (sel : selection (DR:=nat) (X:=X)) g : Prop :=
  match sel with
  | inl (Left, d, reuse, oc, other) => exists a b sl sr, tl = TBranch a b /\ branches d = Some (sl, sr) /\ oc = tclass tr /\ other = r /\
      g = [Own reuse; Ref sl a; Ref sr b; Ref r tr] /\ (tclass tr = Leaf \/ lock <> Some Right)
  | inl (Right, d, reuse, oc, other) => exists a b sl sr, tr = TBranch a b /\ branches d = Some (sl, sr) /\ oc = tclass tl /\ other = l /\
      g = [Own reuse; Ref sl a; Ref sr b; Ref l tl] /\ (tclass tl = Leaf \/ lock <> Some Left)
  | inr (l', r') => l' = l /\ r' = r /\ g = [Ref l tl; Ref r tr]
  end.
Lemma safe_take_left lock l r a b tr : (tclass tr = Leaf \/ lock <> Some Right) ->
  safe (take_left arc_ops (tclass (TBranch a b)) (tclass tr) l r) [Ref l (TBranch a b); Ref r tr] (picked lock l r (TBranch a b) tr).
Proof.
  intros HL. unfold take_left. eapply safe_call with (f := [Ref r tr]); [apply (@safe_trytake l a b)|reflexivity|]. intros [[d|] x'] g HT.
  - destruct HT as (sl & sr & EB & ->). apply safe_ret. exists a, b, sl, sr. auto 8.
  - destruct HT as (-> & ->). apply safe_ret. cbn. auto.
Qed.
Lemma safe_take_right lock l r a b tl : (tclass tl = Leaf \/ lock <> Some Left) ->
  safe (take_right arc_ops (tclass tl) (tclass (TBranch a b)) l r) [Ref l tl; Ref r (TBranch a b)] (picked lock l r tl (TBranch a b)).
Proof.
  intros HL. unfold take_right. eapply safe_call with (f := [Ref l tl]); [apply (@safe_trytake r a b)|apply perm_swap|]. intros [[d|] x'] g HT.
  - destruct HT as (sl & sr & EB & ->). apply safe_ret. exists a, b, sl, sr. auto 8.
  - destruct HT as (-> & ->). eapply safe_ret_perm; [apply perm_swap|]. cbn. auto.
Qed.
Lemma safe_take_either l r a b a' b' :
  safe (take_either arc_ops (tclass (TBranch a b)) (tclass (TBranch a' b')) l r) [Ref l (TBranch a b); Ref r (TBranch a' b')]
    (picked None l r (TBranch a b) (TBranch a' b')).
Proof.
  unfold take_either. eapply safe_call with (f := [Ref r (TBranch a' b')]); [apply (@safe_trytake l a b)|reflexivity|]. intros [[d|] x'] g HT.
  - destruct HT as (sl & sr & EB & ->). apply safe_ret. exists a, b, sl, sr. repeat (split; [reflexivity || assumption|]). right. discriminate.
  - destruct HT as (-> & ->). apply safe_take_right. right. discriminate.
Qed.
Lemma safe_select lock l r tl tr : safe (select arc_ops lock (tclass tl) (tclass tr) l r) [Ref l tl; Ref r tr] (picked lock l r tl tr).
Proof.
  destruct tl as [|a b], tr as [|a' b'].
  - destruct lock as [[]|]; apply safe_ret; cbn; auto.
  - assert (G : safe (take_right arc_ops (tclass TLeaf) (tclass (TBranch a' b')) l r) [Ref l TLeaf; Ref r (TBranch a' b')] (picked lock l r TLeaf (TBranch a' b'))) by (apply safe_take_right; auto).
    destruct lock as [[]|]; exact G.
  - assert (G : safe (take_left arc_ops (tclass (TBranch a b)) (tclass TLeaf) l r) [Ref l (TBranch a b); Ref r TLeaf] (picked lock l r (TBranch a b) TLeaf)) by (apply safe_take_left; auto).
    destruct lock as [[]|]; exact G.
  - destruct lock as [[]|]; [apply safe_take_left|apply safe_take_right|apply safe_take_either]; right; discriminate.
Qed.

(** ** The loop *)
Fixpoint lspine (t : tree) : nat := match t with TLeaf => 0 | TBranch l _ => S (lspine l) end.
Fixpoint rspine (t : tree) : nat := match t with TLeaf => 0 | TBranch _ r => S (rspine r) end.
Lemma lspine_size t : lspine t <= tsize t. Proof. induction t; cbn; lia. Qed.
Lemma rspine_size t : rspine t <= tsize t. Proof. induction t; cbn; lia. Qed.
Definition ahead (lock : option side) tl tr : nat :=
  match lock with None => tsize tl + tsize tr | Some Left => lspine tl | Some Right => rspine tr end.

Section Loop.
Context (drop : nat -> prog unit) (bound : nat).
Context (HD : forall x t, tsize t <= bound -> safe (drop x) [Ref x t] (fun _ g => g = [])).

Lemma safe_loop : forall fuel lock top l r tl tr, branches top = Some (l, r) -> tsize tl + tsize tr <= bound ->
  (tsize tl + tsize tr) * S (tsize tl + tsize tr) + ahead lock tl tr < fuel ->
  safe (algo1_loop arc_ops drop fuel lock top) [Ref l tl; Ref r tr] (fun _ g => g = []).
Proof.
  induction fuel as [|fuel IH]; intros lock top l r tl tr EB HB HF; [lia|].
  cbn [algo1_loop]. rewrite EB.
  eapply safe_call with (f := [Ref r tr]); [apply (@safe_class l tl)|reflexivity|]. intros ? g (-> & ->).
  eapply safe_call with (f := [Ref l tl]); [apply (@safe_class r tr)|apply perm_swap|]. intros ? g (-> & ->).
  eapply safe_call with (f := []); [apply (@safe_select lock l r tl tr)|apply perm_swap|]. intros sel g HS. rewrite app_nil_r.
  destruct sel as [[[[[[|] d] reuse] oc] other]|[l' r']].
  - destruct HS as (a & b & sl & sr & -> & ED & -> & -> & -> & HL). rewrite ED. cbn [tsize] in *.
    destruct tr as [|c e]; cbn [tclass] in *.
    + eapply safe_call with (f := [Own reuse; Ref sl a; Ref sr b]); [apply (HD r TLeaf); cbn; lia|apply (Permutation_sym (Permutation_middle [_; _; _] [] _))|].
      intros ? g ->. cbn [app].
      eapply safe_call with (f := [Ref sl a; Ref sr b]); [eapply safe_shift; [apply own_ref|apply (HD reuse TLeaf); cbn; lia]|reflexivity|].
      intros ? g ->. cbn [app]. apply IH; [exact ED|lia|]. cbn [ahead tsize] in *. nia.
    + cbn [tsize] in *. eapply safe_call with (f := [Ref sl a]); [apply (@safe_set reuse sr r b (TBranch c e))| |].
      { apply perm_skip. apply (Permutation_trans (l' := [Ref sr b; Ref sl a; Ref r (TBranch c e)])); [apply perm_swap|apply perm_skip, perm_swap]. }
      intros ? g (-> & ->). cbn [app]. eapply safe_shift; [apply shift_perm, perm_swap|]. apply IH; [reflexivity|cbn [tsize]; lia|]. cbn [tsize].
      pose proof (lspine_size a). destruct lock as [[|]|]; cbn [ahead tsize lspine] in *; [nia| |nia]. destruct HL as [HL|HL]; congruence.
  - destruct HS as (a & b & sl & sr & -> & ED & -> & -> & -> & HL). rewrite ED. cbn [tsize] in *.
    destruct tl as [|c e]; cbn [tclass] in *.
    + eapply safe_call with (f := [Own reuse; Ref sl a; Ref sr b]); [apply (HD l TLeaf); cbn; lia|apply (Permutation_sym (Permutation_middle [_; _; _] [] _))|].
      intros ? g ->. cbn [app].
      eapply safe_call with (f := [Ref sl a; Ref sr b]); [eapply safe_shift; [apply own_ref|apply (HD reuse TLeaf); cbn; lia]|reflexivity|].
      intros ? g ->. cbn [app]. apply IH; [exact ED|lia|]. cbn [ahead tsize] in *. nia.
    + cbn [tsize] in *. eapply safe_call with (f := [Ref sr b]); [apply (@safe_set reuse l sl (TBranch c e) a)| |].
      { apply perm_skip. apply (Permutation_trans (l' := [Ref sl a; Ref l (TBranch c e); Ref sr b])); [apply perm_skip, perm_swap|apply perm_swap]. }
      intros ? g (-> & ->). cbn [app]. apply IH; [reflexivity|cbn [tsize]; lia|]. cbn [tsize].
      pose proof (rspine_size b). destruct lock as [[|]|]; cbn [ahead tsize rspine] in *; [|nia|nia]. destruct HL as [HL|HL]; congruence.
  - destruct HS as (-> & -> & ->). eapply safe_call with (f := [Ref l tl]); [apply (HD r tr); lia|apply perm_swap|]. intros ? g ->. cbn [app]. apply HD. lia.
Qed.
End Loop.

Theorem safe_drop fuel : forall depth x t, tsize t < depth -> tsize t * tsize t <= fuel ->
  safe (arc_drop fuel depth x) [Ref x t] (fun _ g => g = []).
Proof.
  induction depth as [|depth IH]; intros x t HT HF; [lia|].
  assert (HD : forall y t', tsize t' < tsize t -> safe (arc_drop fuel depth y) [Ref y t'] (fun _ g => g = [])).
  { intros y t' Ht. apply IH; [lia|]. nia. }
  cbn [arc_drop]. eapply safe_bind with (Q := fun x' g => g = [Ref x' TLeaf] \/ (x' = x /\ g = [Ref x t])).
  - intros x' g HG.
    assert (G : exists t', g = [Ref x' t'] /\ tsize t' <= tsize t).
    { destruct HG as [->|(-> & ->)]; [exists TLeaf; split; [reflexivity|cbn; lia]|exists t; auto]. }
    destruct G as (t' & -> & Ht). eapply safe_bind; [|apply safe_dec_strong]. intros [n|] g HN; [|apply safe_ret; exact HN].
    destruct HN as (EC & ->).
    assert (K : forall n' (m : prog unit), n' = n ->
      match n' with NComb a b | NList a b => m = p_bind (arc_drop fuel depth a) (fun _ => arc_drop fuel depth b)
                  | NLeaf (Some v) => m = atomic (drop_value v) | NLeaf None => m = Done tt end ->
      safe (p_bind m (fun _ => atomic (dec_weak x'))) (Imp x' :: ktoks n' t') (fun _ g => g = [])).
    { intros n' m -> Hm. destruct n as [a b|a b|[v|]], t' as [|l r]; try discriminate EC; subst m; cbn [ktoks branches payload map tsize] in *.
      1,2: eapply safe_call with (f := [Imp x']) (Q := fun _ g => g = []); [|apply (Permutation_app_comm [_] [_; _])|intros ? g ->; apply safe_dec_weak];
        eapply safe_call with (f := [Ref b r]) (Q := fun _ g => g = []); [apply (HD a l); lia|reflexivity|]; intros ? g ->; apply (HD b r); lia.
      - eapply safe_call with (f := [Imp x']) (Q := fun _ g => g = []); [apply safe_drop_value|apply perm_swap|intros ? g ->; apply safe_dec_weak].
      - apply safe_dec_weak. }
    eapply (K n); [reflexivity|]. destruct n as [a b|a b|[v|]]; reflexivity.
  - unfold algo1. eapply safe_bind; [|apply (@safe_class x t)]. intros ? g (-> & ->). destruct t as [|l r]; cbn [tclass].
    + apply safe_ret. auto.
    + eapply safe_bind; [|apply safe_trytake]. intros [[d|] x'] g HG.
      * destruct HG as (sl & sr & EB & ->). eapply safe_call with (f := [Own x']).
        -- apply (@safe_loop (arc_drop fuel depth) (tsize l + tsize r)) with (l := sl) (r := sr) (tl := l) (tr := r); [|exact EB|lia|].
           ++ intros y t' Ht. apply HD. cbn. lia.
           ++ cbn [tsize ahead] in *. nia.
        -- apply (Permutation_app_comm [_] [_; _]).
        -- intros ? g ->. cbn [app]. exists [Ref x' TLeaf]. split; [apply own_ref|auto].
      * destruct HG as (-> & ->). apply safe_ret. auto.
Qed.
End Threads.
