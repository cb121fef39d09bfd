(** The drop algorithm on boxes. *)
From Coq Require Import List Arith Lia Permutation.
From Verif.Model Require Import Prelude Drop.
From Verif.Spec Require Import Drops.
Import ListNotations.
Set Implicit Arguments.

Local Ltac straight := cbn [m_bind m_ret m_panic m_nofuel direct].
Section Box.
Context {X : Type}.
Local Notation bref := (bref X).
Local Notation node := (node bref X).

Definition inner (r : bref) : node := match r with BRef _ n => n end.
Definition ident (r : bref) : nat := match r with BRef id _ => id end.
Definition node_count (n : node) : nat :=
  match branches n with Some (a, b) => S (branch_count a + branch_count b) | None => 0 end.
Definition node_contents (n : node) : list (event X) :=
  match n with
  | NComb a b | NList a b => contents a ++ contents b
  | NLeaf (Some x) => [Dropped x]
  | NLeaf None => []
  end.
Fixpoint rchain (r : bref) : nat :=
  match r with
  | BRef _ (NComb _ b) | BRef _ (NList _ b) => S (rchain b)
  | BRef _ (NLeaf _) => 0
  end.
Definition node_rchain (n : node) : nat := match branches n with Some (_, b) => S (rchain b) | None => 0 end.

Lemma count_inner r : branch_count r = node_count (inner r).
Proof. destruct r as [id [a b|a b|x]]; reflexivity. Qed.
Lemma contents_inner r : contents r = Freed (ident r) :: node_contents (inner r).
Proof. destruct r as [id [a b|a b|[x|]]]; reflexivity. Qed.
Lemma rchain_inner r : rchain r = node_rchain (inner r).
Proof. destruct r as [id [a b|a b|x]]; reflexivity. Qed.
Lemma branch_facts n l r : branches n = Some (l, r) ->
  node_count n = S (branch_count l + branch_count r) /\ node_contents n = contents l ++ contents r /\
  node_rchain n = S (rchain r).
Proof. unfold node_count, node_rchain. intros E. rewrite E. destruct n; try discriminate; injection E as <- <-; auto. Qed.
Lemma leaf_facts n : branches n = None -> node_count n = 0.
Proof. unfold node_count. intros E. rewrite E. auto. Qed.
Lemma rchain_count r : rchain r <= branch_count r.
Proof.
  revert r. fix IH 1. intros [id [a b|a b|x]]; cbn; auto; apply le_n_S; eapply Nat.le_trans; [apply IH|lia|apply IH|lia].
Qed.

(** Dropping a reference to a leaf. *)
Lemma leaf_drop fuel depth r h : branches (inner r) = None ->
  exists evs, box_drop fuel (S depth) r h = Ok (tt, h ++ evs) /\ Permutation evs (contents r).
Proof.
  destruct r as [id [a b|a b|[x|]]]; cbn; try discriminate; intros _.
  - unfold d_bind, algo1, class_of, happens, d_bind. cbn. rewrite <- app_assoc. exists [Dropped x; Freed id]. split; [reflexivity|]. apply perm_swap.
  - exists [Freed id]. split; [reflexivity|apply Permutation_refl].
Qed.

Lemma box_loop f depth : forall fuel lock top h, lock <> Some Right -> branches top <> None ->
  2 * node_count top <= fuel + node_rchain top ->
  exists evs, algo1_loop box_ops (box_drop f (S depth)) fuel lock top h = Ok (tt, h ++ evs) /\
    Permutation evs (node_contents top).
Proof.
  induction fuel as [|fuel IH]; intros lock top h HL HB HF; destruct (branches top) as [[l r]|] eqn:E; try congruence; clear HB;
    destruct (branch_facts _ E) as (C1 & C2 & C3).
  - exfalso. pose proof (rchain_count r). lia.
  - cbn [algo1_loop]. rewrite E. destruct l as [il nl], r as [ir nr].
    straight. unfold d_bind at 1, class_of at 1. straight. unfold d_bind at 1. cbn [r_deref box_ops d_ret].
    unfold d_bind at 1, class_of at 1. straight. unfold d_bind at 1. cbn [r_deref box_ops d_ret]. unfold d_bind at 1.
    rewrite !count_inner in C1. rewrite rchain_inner in C3. cbn [inner] in C1, C3.
    destruct (branches nl) as [[a b]|] eqn:EL, (branches nr) as [[c d]|] eqn:ER;
      unfold node_class; rewrite ?EL, ?ER; unfold select.
    + (* both branches: rotate *)
      assert (G : exists evs, algo1_loop box_ops (box_drop f (S depth)) fuel (Some Left)
        (NList a (BRef il (NList b (BRef ir nr)))) h = Ok (tt, h ++ evs) /\
        Permutation evs (node_contents (NList a (BRef il (NList b (BRef ir nr)))))).
      { apply IH; [discriminate|discriminate|]. destruct (branch_facts _ EL) as (A1 & _).
        unfold node_count, node_rchain. cbn [branches].
        change (branch_count (BRef il (NList b (BRef ir nr)))) with (S (branch_count b + branch_count (BRef ir nr))).
        change (rchain (BRef il (NList b (BRef ir nr)))) with (S (rchain (BRef ir nr))).
        rewrite (count_inner (BRef ir nr)), (rchain_inner (BRef ir nr)). cbn [inner]. lia. }
      destruct G as (evs & G1 & G2). exists evs. split.
      * destruct lock as [[]|]; [|congruence|]; cbn [take_left take_either trytake r_try_replace box_ops d_bind d_ret];
          unfold take_left, take_either, trytake; straight; unfold d_bind; cbn [r_try_replace box_ops d_ret]; rewrite EL; cbn [r_set box_ops d_ret]; exact G1.
      * rewrite G2, C2, (contents_inner (BRef il nl)). cbn [ident inner].
        destruct (branch_facts _ EL) as (_ & A2 & _). rewrite A2.
        change (node_contents (NList a (BRef il (NList b (BRef ir nr))))) with (contents a ++ Freed il :: contents b ++ contents (BRef ir nr)).
        rewrite <- app_comm_cons, <- !app_assoc.
        symmetry. apply Permutation_middle.
    + (* right leaf *)
      destruct (leaf_drop f depth (BRef ir nr) h ER) as (e1 & D1 & P1).
      destruct (leaf_drop f depth (BRef il (@temp_leaf bref X)) (h ++ e1) eq_refl) as (e2 & D2 & P2).
      destruct (IH None nl ((h ++ e1) ++ e2)) as (e3 & D3 & P3); [discriminate|congruence| |].
      { rewrite (leaf_facts _ ER) in C1. assert (Z : node_rchain nr = 0) by (unfold node_rchain; rewrite ER; reflexivity).
        rewrite Z in C3. unfold node_rchain at 1. rewrite EL. pose proof (rchain_count b). lia. }
      exists (e1 ++ e2 ++ e3). split.
      * destruct lock as [[]|]; [|congruence|];
          unfold take_left, take_either, trytake; straight; unfold d_bind; cbn [r_try_replace box_ops d_ret]; rewrite EL; cbv iota beta;
          rewrite D1, D2, D3, <- !app_assoc; reflexivity.
      * rewrite P1, P2, P3, C2. rewrite !contents_inner. cbn [ident inner node_contents temp_leaf].
        rewrite Permutation_app_comm. reflexivity.
    + (* left leaf *)
      destruct (leaf_drop f depth (BRef il nl) h EL) as (e1 & D1 & P1).
      destruct (leaf_drop f depth (BRef ir (@temp_leaf bref X)) (h ++ e1) eq_refl) as (e2 & D2 & P2).
      destruct (IH None nr ((h ++ e1) ++ e2)) as (e3 & D3 & P3); [discriminate|congruence| |].
      { rewrite (leaf_facts _ EL) in C1. lia. }
      exists (e1 ++ e2 ++ e3). split.
      * destruct lock as [[]|]; [|congruence|];
          unfold take_right, take_either, trytake; straight; unfold d_bind; cbn [r_try_replace box_ops d_ret]; rewrite ER; cbv iota beta;
          rewrite D1, D2, D3, <- !app_assoc; reflexivity.
      * rewrite P1, P2, P3, C2. rewrite !contents_inner. reflexivity.
    + (* both leaves *)
      destruct (leaf_drop f depth (BRef ir nr) h ER) as (e1 & D1 & P1).
      destruct (leaf_drop f depth (BRef il nl) (h ++ e1) EL) as (e2 & D2 & P2).
      exists (e1 ++ e2). split.
      * destruct lock as [[]|]; [|congruence|]; straight; unfold d_ret, d_bind; rewrite D1, D2, <- app_assoc; reflexivity.
      * rewrite P1, P2, C2. apply Permutation_app_comm.
Qed.

Theorem box_drop_spec fuel depth (r : bref) h : 2 * branch_count r <= fuel ->
  exists evs, box_drop fuel (S (S depth)) r h = Ok (tt, h ++ evs) /\ Permutation evs (contents r).
Proof.
  intros HF. destruct (branches (inner r)) as [[a b]|] eqn:E; [|apply leaf_drop; exact E].
  destruct r as [id n]. cbn [inner] in E.
  assert (G : exists evs, algo1_loop box_ops (box_drop fuel (S depth)) fuel None n h = Ok (tt, h ++ evs) /\ Permutation evs (node_contents n)).
  { apply box_loop; [discriminate|congruence|]. rewrite count_inner in HF. cbn [inner] in HF. lia. }
  destruct G as (evs & G1 & G2). exists (evs ++ [Freed id]). split.
  - change (box_drop fuel (S (S depth)) (BRef id n) h) with
      (d_bind (algo1 box_ops (box_drop fuel (S depth)) fuel (BRef id n)) (fun r' => match r' with
        | BRef id n => d_bind (match n with
                  | NComb a b | NList a b => d_bind (box_drop fuel (S depth) a) (fun _ => box_drop fuel (S depth) b)
                  | NLeaf (Some x) => happens (Dropped x)
                  | NLeaf None => d_ret tt
                  end) (fun _ => happens (Freed id)) end) h).
    unfold d_bind at 1, algo1, class_of. straight. unfold d_bind at 1. unfold d_bind at 1. cbn [r_deref box_ops d_ret]. unfold node_class. rewrite E.
    straight. unfold d_bind at 1, trytake. cbn [r_try_replace box_ops d_ret]. unfold d_bind at 1. rewrite G1. cbn. unfold happens. rewrite app_assoc. reflexivity.
  - rewrite G2, contents_inner. cbn [ident inner]. rewrite Permutation_app_comm. reflexivity.
Qed.
End Box.
