(** Putting a datum in the place of a leaf inside of another one. *)
From Coq Require Import List Arith Bool Lia Permutation.
From Verif.Model Require Import Prelude Drop DropRc DropArc.
From Verif.Spec Require Import Drops Threads.
From Verif.Proofs Require Import HeapFacts.
Import ListNotations.
Set Implicit Arguments.

Section Link.
Context {X : Type}.
Local Notation heap := (heap X).
Local Notation Cell := (@Cell X).
Implicit Types (h : heap) (K L R : list nat).

Lemma live_refs h K y s w n : consistent h K -> cell_at h y = Some (Cell s w n) -> s = count K y + count (edges h) y.
Proof. intros C E. destruct (cons_count C y E) as [H _]. cbn in H. rewrite H. apply refs_count. Qed.

Lemma node_cell h y n : node_at h y = Some n -> exists s w, cell_at h y = Some (Cell s w (Some n)).
Proof. unfold node_at. destruct (cell_at h y) as [[s w v]|]; cbn; [intros ->; eauto|discriminate]. Qed.

Lemma edges_two h x x' n n' y : x <> x' -> node_at h x = Some n -> node_at h x' = Some n' -> In y (kids n) -> In y (kids n') ->
  2 <= count (edges h) y.
Proof.
  intros D Hx Hx' I I'. destruct (node_cell _ _ Hx) as (s & w & E).
  pose proof (@edges_upd X h x _ None y E) as G.
  assert (In y (edges (upd h x None))) as G1.
  { apply node_at_edges with (x := x') (n := n'); [|exact I']. unfold node_at in *. rewrite (cell_at_upd _ _ None x' E).
    destruct (Nat.eqb_spec x' x); [congruence|exact Hx']. }
  apply count_In in G1, I. cbn [onto value] in G. rewrite count_nil in G. lia.
Qed.

Lemma edge_one h x n y : node_at h x = Some n -> In y (kids n) -> 1 <= count (edges h) y.
Proof. intros E I. assert (In y (edges h)) as G by (eapply node_at_edges; eassumption). apply count_In in G. lia. Qed.

(** ** Exclusive access *)
Lemma exclusive_cell h K x : exclusive h K x -> exists v, cell_at h x = Some (Cell 1 0 v).
Proof. intros []; eauto. Qed.
Lemma exclusive_reach h K x : exclusive h K x -> reach h K x.
Proof. induction 1 as [x v HI E|x n y v _ IH En Hy E]; [apply reach_root; exact HI|eapply reach_kid; eassumption]. Qed.
Lemma exclusive_incl h K K' x : incl K K' -> exclusive h K x -> exclusive h K' x.
Proof. intros HI. induction 1 as [x v HK E|x n y v _ IH En Hy E]; [eapply only_var; eauto|eapply only_kid; eauto]. Qed.
Lemma exclusive_split h K1 K2 x : exclusive h (K1 ++ K2) x -> exclusive h K1 x \/ exclusive h K2 x.
Proof.
  induction 1 as [x v HK E|x n y v _ IH En Hy E].
  - apply in_app_or in HK as [HK|HK]; [left|right]; eapply only_var; eauto.
  - destruct IH as [IH|IH]; [left|right]; eapply only_kid; eauto.
Qed.

(** No other way leads there. *)
Lemma exclusive_apart h L K x : consistent h (L ++ K) -> exclusive h K x -> ~ reach h L x.
Proof.
  intros C. induction 1 as [x v HK E|x n y v _ IH En Hy E]; intros HR; pose proof (live_refs _ C E) as G; rewrite count_app in G.
  - apply count_In in HK. destruct HR as [x HL|z m x _ Hm Hk].
    + apply count_In in HL. lia.
    + pose proof (edge_one _ _ _ Hm Hk). lia.
  - pose proof (edge_one _ _ _ En Hy) as G1. destruct HR as [y HL|z m y HR Hm Hk].
    + apply count_In in HL. lia.
    + destruct (Nat.eq_dec x z) as [->|D]; [auto|]. pose proof (edges_two _ _ D En Hm Hy Hk). lia.
Qed.

(** ** The new datum *)
Section Rank.
Context (h : heap) (t : nat) (rank : nat -> nat).
Context (HR : forall x n y, node_at h x = Some n -> In y (kids n) -> rank y < rank x).
Fixpoint meets (fuel : nat) (y : nat) : bool :=
  (y =? t) || match fuel with
              | 0 => false
              | S f => match node_at h y with Some n => existsb (meets f) (kids n) | None => false end
              end.
Lemma meets_reach fuel : forall y, meets fuel y = true -> reach h [y] t.
Proof.
  induction fuel as [|f IH]; intros y; cbn [meets]; rewrite orb_true_iff; intros [E|E].
  - apply Nat.eqb_eq in E as ->. apply reach_root. cbn. auto.
  - discriminate.
  - apply Nat.eqb_eq in E as ->. apply reach_root. cbn. auto.
  - destruct (node_at h y) as [n|] eqn:En; [|discriminate]. apply existsb_exists in E as (z & Hz & E). apply IH in E. clear - En Hz E.
    induction E as [u [<-|[]]|u m v _ IH' Hm Hv].
    + apply reach_kid with (x := y) (n := n); auto. apply reach_root. cbn. auto.
    + eapply reach_kid; eassumption.
Qed.
Lemma meets_step x n y f f' : node_at h x = Some n -> In y (kids n) -> rank y < f -> rank x < f' -> meets f y = true -> meets f' x = true.
Proof.
  assert (More : forall f f' z, rank z < f -> rank z < f' -> meets f z = true -> meets f' z = true).
  { clear x n y f f'. induction f as [|f IH]; intros f' z L L'; [lia|]. destruct f' as [|f']; [lia|]. cbn [meets]. rewrite !orb_true_iff.
    intros [E|E]; [auto|right]. destruct (node_at h z) as [n|] eqn:En; [|discriminate]. apply existsb_exists in E as (u & Hu & E).
    apply existsb_exists. exists u. split; [exact Hu|]. pose proof (HR _ _ En Hu). apply (IH f' u); [lia|lia|exact E]. }
  intros En Hy L L' E. destruct f' as [|f']; [lia|]. cbn [meets]. apply orb_true_iff. right. rewrite En. apply existsb_exists.
  exists y. split; [exact Hy|]. pose proof (HR _ _ En Hy). apply (More f); [lia|lia|exact E].
Qed.
End Rank.

Lemma node_upd h t c c' y : cell_at h t = Some c -> y <> t -> node_at (upd h t c') y = node_at h y.
Proof. intros E D. unfold node_at. rewrite (cell_at_upd _ _ c' y E). destruct (Nat.eqb_spec y t); [congruence|reflexivity]. Qed.

Lemma consistent_assign h t s w o n K : consistent h (kids n ++ K) -> cell_at h t = Some (Cell s w (Some (NLeaf o))) ->
  ~ reach h (kids n) t -> consistent (upd h t (Some (Cell s w (Some n)))) K.
Proof.
  intros C E N. set (h' := upd h t (Some (Cell s w (Some n)))).
  assert (Ed : forall y, count (edges h') y = count (edges h) y + count (kids n) y).
  { intros y. pose proof (@edges_upd X h t _ (Some (Cell s w (Some n))) y E) as G. cbn [onto value] in G. fold h' in G.
    change (kids (NLeaf (DR:=nat) o)) with (@nil nat) in G. rewrite count_nil in G. lia. }
  assert (Et : node_at h' t = Some n) by (unfold node_at, h'; rewrite (cell_at_upd _ _ _ t E), Nat.eqb_refl; reflexivity).
  assert (Eo : forall y, y <> t -> cell_at h' y = cell_at h y).
  { intros y D. unfold h'. rewrite (cell_at_upd _ _ _ y E). destruct (Nat.eqb_spec y t); [congruence|reflexivity]. }
  assert (Refs : forall y, refs K h' y = refs (kids n ++ K) h y) by (intros y; rewrite !refs_count, Ed, count_app; lia).
  destruct C as [C1 C2 (rank & C3)]. split.
  - intros y c Hc. rewrite Refs. destruct (Nat.eq_dec y t) as [->|D].
    + unfold h' in Hc. rewrite (cell_at_upd _ _ _ t E), Nat.eqb_refl in Hc. injection Hc as <-. cbn. destruct (C1 t _ E) as [G1 G2]. cbn in G1, G2.
      split; [exact G1|]. split; [discriminate|]. intros Z. apply G2 in Z. discriminate.
    + rewrite Eo in Hc by exact D. apply C1. exact Hc.
  - intros y Hy. assert (In y ((kids n ++ K) ++ edges h)) as G.
    { apply count_In. apply count_In in Hy. rewrite !count_app in *. rewrite Ed in Hy. lia. }
    destruct (Nat.eq_dec y t) as [->|D]; [rewrite Et; discriminate|]. specialize (C2 y G). unfold node_at in *. rewrite Eo by exact D. exact C2.
  - set (b := list_max (map rank (kids n))).
    exists (fun y => rank y + if meets h t (S (rank y)) y then S b else 0). intros x m y Hm Hy.
    destruct (Nat.eq_dec x t) as [->|D].
    + rewrite Et in Hm. injection Hm as <-. assert (meets h t (S (rank t)) t = true) as -> by (cbn [meets]; rewrite Nat.eqb_refl; reflexivity).
      destruct (meets h t (S (rank y)) y) eqn:Em.
      * exfalso. apply N. apply meets_reach in Em. eapply reach_incl; [|exact Em]. intros z [<-|[]]. exact Hy.
      * assert (rank y <= b); [|unfold b in *; lia]. unfold b. clear - Hy. induction (kids n) as [|z l IH]; [contradiction|].
        change (rank y <= Nat.max (rank z) (list_max (map rank l))). destruct Hy as [->|Hy]; [lia|]. apply IH in Hy. lia.
    + assert (node_at h x = Some m) as Hm' by (unfold node_at in *; rewrite Eo in Hm by exact D; exact Hm).
      pose proof (C3 x m y Hm' Hy) as L. destruct (meets h t (S (rank y)) y) eqn:Em; [|lia].
      erewrite meets_step; [lia|exact C3|exact Hm'|exact Hy| | |exact Em]; lia.
Qed.

End Link.
