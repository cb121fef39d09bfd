(** Owning references to counted memory: what making, writing and dropping do. *)
From Coq Require Import List Arith Bool Lia Permutation.
From Verif.Model Require Import Prelude Parser Drop DropRc RcProgram RcParser.
From Verif.Spec Require Import Drops RcParser.
From Verif.Proofs Require Import HeapFacts DropRcFacts DropRcDepth RcProgramFacts HeapLink.
Import ListNotations.
Set Implicit Arguments.

Section Owning.
Context {T ET : Type}.
Local Notation X := (leaf_value T ET).
Local Notation mem := (rc_mem T ET).
Local Notation datum1 := (rc_datum T ET).
Local Notation Cell := (@Cell X).
Implicit Types (h : mem) (K R : list nat).

(** Unshared references reach different things. *)
Lemma unshared_split h A B K y : consistent h (A ++ B ++ K) -> unshared h (A ++ B) -> reach h A y -> reach h B y -> False.
Proof.
  intros C Un RA. assert (One : forall z, reach h (A ++ B) z -> count A z + count B z + count K z + count (edges h) z = 1).
  { intros z Hz. destruct (Un z Hz) as [n E]. pose proof (live_refs _ C E) as G. rewrite !count_app in G. lia. }
  induction RA as [x Hx|x n y RA IH Hn Hy].
  - intros RB. pose proof (One x (proj2 (reach_app h A B x) (or_intror RB))) as G. apply count_In in Hx.
    destruct RB as [x Hb|z m x _ Hm Hk].
    + apply count_In in Hb. lia.
    + pose proof (edge_one _ _ _ Hm Hk). lia.
  - intros RB. assert (reach h A y) as RA' by (eapply reach_kid; eassumption).
    pose proof (One y (proj2 (reach_app h A B y) (or_intror RB))) as G. pose proof (edge_one _ _ _ Hn Hy) as G1.
    destruct RB as [y Hb|z m y RB Hm Hk].
    + apply count_In in Hb. lia.
    + destruct (Nat.eq_dec x z) as [->|D]; [apply IH; exact RB|]. pose proof (edges_two _ _ D Hn Hm Hy Hk). lia.
Qed.

Lemma reach_perm h R R' y : Permutation R R' -> reach h R y -> reach h R' y.
Proof. intros P. apply reach_incl. intros z. apply Permutation_in. exact P. Qed.
Lemma unshared_incl h R R' : incl R R' -> unshared h R' -> unshared h R.
Proof. intros I H y Hy. apply H. eapply reach_incl; eassumption. Qed.
Lemma unshared_perm h R R' : Permutation R R' -> unshared h R -> unshared h R'.
Proof. intros P. apply unshared_incl. intros z. apply Permutation_in. symmetry. exact P. Qed.

Variable U : Prop.

Lemma moves_refl K R h : consistent h (R ++ K) -> moves U K R R h h.
Proof. intros C. split; eauto. Qed.

Lemma moves_trans K R R1 R2 h h1 h2 : moves U K R R1 h h1 -> moves U K R1 R2 h1 h2 -> moves U K R R2 h h2.
Proof.
  intros [C1 F1 A1 G1 W1 U1] [C2 F2 A2 G2 W2 U2]. split; auto.
  - exact (@frame_trans X K h h1 h2 F1 F2).
  - intros y c E N. destruct (A1 y c E N) as [E1 N1]. exact (A2 y c E1 N1).
  - intros u y c E. destruct (W2 u y c E) as [Z|(c1 & E1 & Z)]; [auto|]. rewrite <- Z. apply (W1 u y c1 E1).
Qed.

Lemma moves_perm K R R' R1 R1' h h' : Permutation R R1 -> Permutation R' R1' -> moves U K R R' h h' -> moves U K R1 R1' h h'.
Proof.
  intros P P' [C F A Gf Wk Un]. split; auto.
  - eapply consistent_perm; [|exact C]. apply Permutation_app_tail. exact P'.
  - intros y c E N. destruct (A y c E) as [E' N'].
    + intros G. apply N. eapply reach_perm; eassumption.
    + split; [exact E'|]. intros G. apply N'. eapply reach_perm; [symmetry; exact P'|exact G].
  - intros u G. eapply unshared_perm; [exact P'|]. apply Un; [exact u|]. eapply unshared_perm; [symmetry; exact P|exact G].
Qed.

(** More is owned than is used. *)
Lemma moves_keep L K R R' h h' : consistent h (L ++ R ++ K) -> moves U (L ++ K) R R' h h' -> moves U K (L ++ R) (L ++ R') h h'.
Proof.
  intros C0 [C F A Gf Wk Un].
  assert (FL : frame L h h') by (eapply frame_incl; [|exact F]; apply incl_appl, incl_refl).
  split.
  - eapply consistent_perm; [|exact C]. rewrite !app_assoc. apply Permutation_app_tail. apply Permutation_app_comm.
  - eapply frame_incl; [|exact F]. apply incl_appr, incl_refl.
  - intros y c E N. destruct (A y c E) as [E' N'].
    + intros G. apply N. apply reach_app. auto.
    + split; [exact E'|]. intros G. apply reach_app in G as [G|G]; [|auto]. apply N. apply reach_app. left. eapply frame_reach'; eassumption.
  - exact Gf.
  - exact Wk.
  - intros u H y G. apply reach_app in G as [G|G].
    + assert (reach h L y) as G0 by (eapply frame_reach'; eassumption).
      destruct (H y (proj2 (reach_app h L R y) (or_introl G0))) as [n E]. exists n. apply (A y _ E).
      intros GR. eapply unshared_split; [exact C0|exact H|exact G0|exact GR].
    + apply Un; [exact u| |exact G]. eapply unshared_incl; [|exact H]. apply incl_appr, incl_refl.
Qed.

(** Reading. *)
Lemma is_tree_frame h h' n d : is_tree h n d -> (forall y, reach h (kids n) y -> node_at h' y = node_at h y) -> is_tree h' n d.
Proof.
  intros H. induction H as [t|x| | |x m d y n e Hx H1 IH1 Hy H2 IH2|x m d y n e Hx H1 IH1 Hy H2 IH2]; intros F; try constructor;
    [ apply IT_comb with (m := m) (n := n) | apply IT_list with (m := m) (n := n) ];
    try (rewrite F; [assumption|]; apply reach_root; cbn; auto; fail).
  1,3: apply IH1; intros z Hz; apply F.
  3,4: apply IH2; intros z Hz; apply F.
  all: clear - Hx Hy Hz; induction Hz as [z Hz|z k z' Hz IH Hk Hi]; [|eapply reach_kid; eassumption].
  1,2: apply reach_kid with (x := x) (n := m); auto; apply reach_root; cbn; auto.
  1,2: apply reach_kid with (x := y) (n := n); auto; apply reach_root; cbn; auto.
Qed.

(** Making. *)
Lemma reach_node h x n y : reach h [x] y -> node_at h x = Some n -> y = x \/ reach h (kids n) y.
Proof.
  intros H E. induction H as [y [<-|[]]|z m y H IH Hm Hy]; [auto|]. right. destruct IH as [->|IH].
  - rewrite E in Hm. injection Hm as <-. apply reach_root. exact Hy.
  - eapply reach_kid; eassumption.
Qed.
Lemma reach_cons h x R y : reach h (x :: R) y <-> reach h [x] y \/ reach h R y.
Proof. apply (reach_app h [x] R y). Qed.

Lemma node_grow h c y : y <> length (cells h) -> node_at (grow h c) y = node_at h y.
Proof. intros D. unfold node_at. rewrite cell_at_grow. destruct (Nat.eqb_spec y (length (cells h))); [congruence|reflexivity]. Qed.
Lemma reach_lt h K0 K y : consistent h K0 -> incl K K0 -> reach h K y -> y < length (cells h).
Proof.
  intros C I H. assert (In y (K0 ++ edges h)) as G by (eapply reach_live; eassumption).
  destruct (consistent_live _ C G) as (s & w & n & E). eapply cell_at_length. exact E.
Qed.
Lemma grow_frame h K0 K c : consistent h K0 -> incl K K0 -> frame K h (grow h c).
Proof. intros C I y Hy. apply node_grow. pose proof (reach_lt C I Hy). lia. Qed.

Lemma moves_new h n K R : consistent h (kids n ++ R ++ K) ->
  moves U K (kids n ++ R) (length (cells h) :: R) h (grow h (Cell 1 0 (Some n))).
Proof.
  intros C. set (x := length (cells h)). set (h' := grow h (Cell 1 0 (Some n))).
  assert (Ex : node_at h' x = Some n).
  { unfold node_at, h', x. rewrite cell_at_grow, Nat.eqb_refl. reflexivity. }
  assert (F : frame (kids n ++ R ++ K) h h') by (eapply grow_frame; [exact C|apply incl_refl]).
  assert (Back : forall y, reach h' (x :: R) y -> y = x \/ reach h (kids n ++ R) y).
  { intros y G. apply reach_cons in G as [G|G].
    - destruct (reach_node G Ex) as [->|G']; [auto|]. right. apply reach_app. left. eapply frame_reach'; [|exact G'].
      eapply frame_incl; [|exact F]. apply incl_appl, incl_refl.
    - right. apply reach_app. right. eapply frame_reach'; [|exact G]. eapply frame_incl; [|exact F]. apply incl_appr, incl_appl, incl_refl. }
  split.
  - cbn. apply (@grow_datum X h (R ++ K) n C).
  - eapply frame_incl; [|exact F]. apply incl_appr, incl_appr, incl_refl.
  - intros y c E N. assert (y < x) as L by (eapply cell_at_length; exact E). split.
    + unfold h'. rewrite cell_at_grow. fold x. destruct (Nat.eqb_spec y x); [lia|exact E].
    + intros G. apply Back in G as [->|G]; [lia|auto].
  - intros y. unfold h'. rewrite cell_at_grow. fold x. destruct (Nat.eqb_spec y x); [discriminate|auto].
  - intros _ y c. unfold h'. rewrite cell_at_grow. fold x. destruct (Nat.eqb_spec y x); [intros [= <-]; auto|eauto].
  - intros _ H y G. unfold h'. rewrite cell_at_grow. fold x. destruct (Nat.eqb_spec y x) as [->|D]; [eauto|].
    apply Back in G as [->|G]; [congruence|auto].
Qed.

(** Writing. *)
Lemma moves_assign h t s w n K L : consistent h (kids n ++ L ++ K) -> cell_at h t = Some (Cell s w (Some (NLeaf None))) ->
  ~ reach h (kids n) t -> ~ reach h K t -> reach h L t ->
  moves U K (kids n ++ L) L h (upd h t (Some (Cell s w (Some n)))).
Proof.
  intros C E N NK RL. set (h' := upd h t (Some (Cell s w (Some n)))).
  assert (Et : node_at h' t = Some n) by (unfold node_at, h'; rewrite (cell_at_upd _ _ _ t E), Nat.eqb_refl; reflexivity).
  assert (Back : forall y, reach h' L y -> reach h (kids n ++ L) y).
  { intros y G. induction G as [y G|x m y G IH Hm Hy]; [apply reach_root, in_or_app; auto|].
    destruct (Nat.eq_dec x t) as [->|D].
    - rewrite Et in Hm. injection Hm as <-. apply reach_root, in_or_app. auto.
    - eapply reach_kid; [exact IH| |exact Hy]. unfold h' in Hm. erewrite node_upd in Hm; [exact Hm|exact E|exact D]. }
  split.
  - eapply consistent_assign; eassumption.
  - intros y G. eapply node_upd; [exact E|]. intros ->. auto.
  - intros y c Hc Nr. split.
    + unfold h'. rewrite (cell_at_upd _ _ _ y E). destruct (Nat.eqb_spec y t) as [->|D]; [|exact Hc].
      exfalso. apply Nr. apply reach_app. auto.
    + intros G. apply Back in G. auto.
  - intros y. unfold h'. rewrite (cell_at_upd _ _ _ y E). destruct (Nat.eqb_spec y t); [discriminate|auto].
  - intros _ y c. unfold h'. rewrite (cell_at_upd _ _ _ y E). destruct (Nat.eqb_spec y t) as [->|D]; [intros [= <-]; eauto|eauto].
  - intros _ H y G. apply Back in G. destruct (H y G) as [m Hc]. unfold h'. rewrite (cell_at_upd _ _ _ y E).
    destruct (Nat.eqb_spec y t) as [->|D]; [|eauto]. rewrite E in Hc. injection Hc as -> -> _. eauto.
Qed.

(** Dropping. *)
Lemma count_flat {A} (g : option A -> list nat) y : g None = [] -> forall l l' : list (option A),
  (forall z, count (g (match nth_error l z with Some o => o | None => None end)) y =
             count (g (match nth_error l' z with Some o => o | None => None end)) y) ->
  count (flat_map g l) y = count (flat_map g l') y.
Proof.
  intros G0. induction l as [|o l IH]; intros l' H.
  - cbn. induction l' as [|o' l' IH']; [reflexivity|]. cbn [flat_map]. rewrite count_app.
    pose proof (H 0) as H0. cbn in H0. rewrite G0 in H0. rewrite <- H0. rewrite <- IH'; [reflexivity|].
    intros z. specialize (H (S z)). cbn in H. destruct z; cbn in *; exact H.
  - destruct l' as [|o' l'].
    + cbn [flat_map]. rewrite count_app. pose proof (H 0) as H0. cbn in H0. rewrite G0 in H0. rewrite H0.
      rewrite (IH []); [reflexivity|]. intros z. specialize (H (S z)). cbn in H. rewrite H. destruct z; reflexivity.
    + cbn [flat_map]. rewrite !count_app. rewrite (IH l'); [|intros z; exact (H (S z))]. pose proof (H 0) as H0. cbn in H0. rewrite H0. reflexivity.
Qed.
Lemma edges_same h h' y : (forall z, count (onto kids (cell_at h z)) y = count (onto kids (cell_at h' z)) y) ->
  count (edges h) y = count (edges h') y.
Proof. intros H. unfold edges. rewrite !of_all_onto. apply count_flat; [reflexivity|]. exact H. Qed.

Lemma onto_node h z : onto kids (cell_at h z) = match node_at h z with Some n => kids n | None => [] end.
Proof. unfold node_at, onto. destruct (cell_at h z); reflexivity. Qed.

Lemma after_moves h x R K u h' : consistent h (x :: R ++ K) -> after (R ++ K) h u h' -> moves U K (x :: R) R h h'.
Proof.
  intros C (C' & [F Hist Log] & Hbc).
  assert (Apart : forall y c, cell_at h y = Some c -> ~ reach h [x] y -> cell_at h' y = Some c).
  { intros y [s w v] Hc Nr. pose proof (proj2 Hist y) as Hy. rewrite Hc in Hy. destruct s as [|s]; [exact Hy|].
    destruct v as [n|]; [|destruct (cons_count C y Hc) as [_ G]; cbn in G; destruct G as [G _]; discriminate (G eq_refl)].
    assert (node_at h y = Some n) as En by (unfold node_at; rewrite Hc; reflexivity).
    assert (reach h (R ++ K) y) as Gr.
    { pose proof (@all_reachable X h _ y n C En) as G. apply reach_cons in G as [G|G]; [contradiction|exact G]. }
    pose proof (F y Gr) as Fy. rewrite En in Fy. destruct (node_cell _ _ Fy) as (s' & w' & Ec').
    assert (w' = w) as ->.
    { rewrite Ec' in Hy. destruct Hy as [Hy|(s2 & n2 & Hy)]; [|injection Hy; auto]. destruct w; [discriminate|]. injection Hy; auto. }
    rewrite Ec'. do 2 f_equal. pose proof (live_refs _ C Hc) as G1. pose proof (live_refs _ C' Ec') as G2.
    rewrite count_cons in G1. assert (x <> y) as D by (intros ->; apply Nr, reach_root; cbn; auto).
    destruct (Nat.eqb_spec x y); [congruence|]. rewrite G1, G2. cbn [Nat.add]. f_equal. symmetry. apply edges_same. intros z. rewrite !onto_node.
    destruct (node_at h z) as [m|] eqn:Em.
    - destruct (in_dec Nat.eq_dec y (kids m)) as [I|I].
      + assert (reach h (R ++ K) z) as Gz.
        { pose proof (@all_reachable X h _ z m C Em) as G. apply reach_cons in G as [G|G]; [|exact G]. exfalso. apply Nr.
          eapply reach_kid; eassumption. }
        rewrite (F z Gz), Em. reflexivity.
      + assert (count (kids m) y = 0) as -> by (destruct (count (kids m) y) eqn:Z; [reflexivity|exfalso; apply I, count_In; lia]).
        destruct (node_at h' z) as [m'|] eqn:Em'; [|reflexivity].
        assert (m' = m) as ->.
        { pose proof (@all_reachable X h' _ z m' C' Em') as G. apply (frame_reach' F) in G. apply F in G. congruence. }
        destruct (count (kids m) y) eqn:Z; [reflexivity|exfalso; apply I, count_In; lia].
    - destruct (node_at h' z) as [m'|] eqn:Em'; [|reflexivity].
      pose proof (@all_reachable X h' _ z m' C' Em') as G. apply (frame_reach' F) in G. apply F in G. congruence. }
  split.
  - exact C'.
  - eapply frame_incl; [|exact F]. apply incl_appr, incl_refl.
  - intros y c Hc Nr. split.
    + apply Apart; [exact Hc|]. intros G. apply Nr. apply reach_cons. auto.
    + intros G. apply Nr. apply reach_cons. right. eapply frame_reach'; [|exact G]. eapply frame_incl; [|exact F]. apply incl_appl, incl_refl.
  - intros y Hy. pose proof (proj2 Hist y) as G. destruct (cell_at h y) as [[[|s] w v]|].
    + rewrite Hy in G. congruence.
    + rewrite Hy in G. destruct G as [G|(s' & n' & G)]; [destruct w|]; discriminate.
    + rewrite Hy in G. destruct G as [G|(_ & s' & n' & G)]; discriminate.
  - intros _ y c Hy. pose proof (proj2 Hist y) as G. destruct (cell_at h y) as [[[|s] w v]|].
    + rewrite Hy in G. injection G as ->. eauto.
    + right. eexists. split; [reflexivity|]. rewrite Hy in G. destruct G as [G|(s' & n' & G)]; [destruct w; [discriminate|]|]; injection G as ->; reflexivity.
    + left. rewrite Hy in G. destruct G as [G|(_ & s' & n' & G)]; [discriminate|]. injection G as ->. reflexivity.
  - intros _ H y G. assert (reach h R y) as G0.
    { eapply frame_reach'; [|exact G]. eapply frame_incl; [|exact F]. apply incl_appl, incl_refl. }
    destruct (H y) as [n Hc]; [apply reach_cons; auto|]. exists n. apply Apart; [exact Hc|]. intros Gx.
    eapply (@unshared_split h [x] R K y); [exact C|exact H|exact Gx|exact G0].
Qed.

Lemma unshared_branch h R y : unshared h R -> reach h R y -> shared_branch h y = false.
Proof. intros H G. destruct (H y G) as [n E]. unfold shared_branch. rewrite E. reflexivity. Qed.

Context (arc : bool) (fuel depth : nat).
Definition deep_enough h R : Prop := bc h < depth \/ (2 <= depth /\ unshared h R).

Lemma ends_rc_drop h x R K : consistent h (x :: R ++ K) -> deep_enough h (x :: R) -> bc h * bc h + bc h < fuel ->
  ends (rc_drop arc fuel depth x) h (fun _ h' => moves U K (x :: R) R h h' /\ bc h' <= bc h).
Proof.
  intros C D L. assert (ends (rc_drop arc fuel depth x) h (after (R ++ K) h)) as G.
  { destruct D as [D|[D Un]].
    - apply rc_drop_after; [exact C|exact D|lia].
    - apply rc_drop_unshared; [exact C| |exact D|lia]. intros y Hy. eapply unshared_branch; [exact Un|].
      eapply reach_incl; [|exact Hy]. intros z [<-|[]]. cbn. auto. }
  eapply ends_mono; [exact G|]. intros [] h' HA. split; [eapply after_moves; eassumption|]. apply HA.
Qed.

End Owning.

Section DropDatum.
Context {T ET : Type} (U : Prop) (arc : bool) (fuel depth : nat).
Implicit Types (h : rc_mem T ET) (K R : list nat).

Lemma moves_weaken K R R' h h' : moves True K R R' h h' -> moves U K R R' h h'.
Proof. intros [C F A Gf Wk Un]. split; auto. Qed.

Lemma moves_drop_value K R h v : consistent h (R ++ K) -> moves U K R R h (Heap (cells h) (dropped h ++ [v])).
Proof.
  intros C. assert (forall K R R' h h', cells h = cells h' -> moves U K R R' h h -> moves U K R R' h h') as G.
  { clear. intros K R R' h [c d] E. cbn in E. subst c. intros H. destruct h as [c d0]. cbn. 
    assert (forall y, reach (Heap c d0) R' y <-> reach (Heap c d) R' y) as I.
    { intros y. split; intros G; induction G as [y G|z n y _ IH Hn Hy]; [apply reach_root, G|eapply reach_kid; eassumption|apply reach_root, G|eapply reach_kid; eassumption]. }
    destruct H as [[C1 C2 C3] F A Gf Wk Un]. split.
    - split; [exact C1|exact C2|exact C3].
    - exact F.
    - intros y c' E N. destruct (A y c' E N) as [E' N']. split; [exact E'|]. rewrite <- I. exact N'.
    - exact Gf.
    - exact Wk.
    - intros u H y G. apply I in G. exact (Un u H y G). }
  apply G; [reflexivity|]. apply moves_refl. exact C.
Qed.

Lemma ends_drop_moves h n R K : consistent h (kids n ++ R ++ K) -> deep_enough depth h (kids n ++ R) -> bc h * bc h + bc h < fuel ->
  ends (drop_datum arc fuel depth n) h (fun _ h' => moves U K (kids n ++ R) R h h').
Proof.
  assert (Two : forall a b, consistent h (a :: b :: R ++ K) -> deep_enough depth h (a :: b :: R) -> bc h * bc h + bc h < fuel ->
    ends (d_bind (rc_drop arc fuel depth a) (fun _ => rc_drop arc fuel depth b)) h (fun _ h' => moves U K (a :: b :: R) R h h')).
  { intros a b C D L. eapply ends_bind.
    - eapply ends_rc_drop with (U := True) (R := b :: R) (K := K); eassumption.
    - intros [] h1 [M1 L1]. eapply ends_mono.
      + eapply ends_rc_drop with (U := True) (R := R) (K := K); [exact (mv_consistent M1)| |nia].
        destruct D as [D|[D Un]]; [left; lia|right; split; [exact D|]]. apply (mv_unshared M1); auto.
      + intros [] h2 [M2 L2]. apply moves_weaken. eapply moves_trans; eassumption. }
  destruct n as [a b|a b|v]; intros C D L.
  - apply Two; assumption.
  - apply Two; assumption.
  - destruct v as [v|]; cbn [drop_datum].
    + do 2 eexists. split; [reflexivity|]. apply moves_drop_value. exact C.
    + apply ends_ret. apply moves_refl. exact C.
Qed.
End DropDatum.
