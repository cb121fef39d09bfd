(** The drop algorithm on shared references. *)
From Coq Require Import List Arith Lia Permutation Bool.
From Verif.Model Require Import Prelude Drop DropShared.
From Verif.Spec Require Import Drops.
Import ListNotations.
Set Implicit Arguments.

Section Shared.
Context {X : Type} (oracle : nat -> bool).
Local Notation sref := (sref X).
Local Notation node := (node sref X).
Local Notation sevent := (sevent X).

(** Runs to its end, whatever has happened before, and adds events. *)
Definition runs {A} (m : D (sstate X) A) (Q : A -> list sevent -> Prop) : Prop :=
  forall h, exists a evs k, m h = Ok (a, SState k (so_far h ++ evs)) /\ Q a evs.

Lemma runs_ret A (a : A) (Q : A -> list sevent -> Prop) : Q a [] -> runs (d_ret a) Q.
Proof. intros HQ [k l]. exists a, [], k. cbn. rewrite app_nil_r. auto. Qed.
Lemma runs_bind A B (m : D (sstate X) A) (k : A -> D (sstate X) B) P Q :
  runs m P -> (forall a e1, P a e1 -> runs (k a) (fun b e2 => Q b (e1 ++ e2))) -> runs (d_bind m k) Q.
Proof.
  intros Hm Hk h. destruct (Hm h) as (a & e1 & n1 & E1 & P1).
  destruct (Hk a e1 P1 (SState n1 (so_far h ++ e1))) as (b & e2 & n2 & E2 & P2).
  exists b, (e1 ++ e2), n2. unfold d_bind. rewrite E1, E2. cbn. rewrite app_assoc. auto.
Qed.
Lemma runs_mono A (m : D (sstate X) A) (P Q : A -> list sevent -> Prop) : runs m P -> (forall a e, P a e -> Q a e) -> runs m Q.
Proof. intros Hm HPQ h. destruct (Hm h) as (a & e & k & E & HP). eauto 6. Qed.
Lemma runs_ask : runs (ask (X:=X) oracle) (fun _ e => e = []).
Proof. intros [k l]. exists (oracle k), [], (S k). cbn. rewrite app_nil_r. auto. Qed.
Lemma runs_happens e : runs (s_happens e) (fun _ l => l = [e]).
Proof. intros [k l]. exists tt, [e], k. auto. Qed.

Definition inner (r : sref) : node := match r with SRef _ _ n => n end.
Definition ident (r : sref) : nat := match r with SRef id _ _ => id end.
Definition owned (r : sref) : bool := match r with SRef _ own _ => own end.
Definition node_count (n : node) : nat :=
  match branches n with Some (a, b) => S (s_branch_count a + s_branch_count b) | None => 0 end.
Definition node_contents (n : node) : list (event X) :=
  match n with
  | NComb a b | NList a b => s_contents a ++ s_contents b
  | NLeaf (Some x) => [Dropped x]
  | NLeaf None => []
  end.
Fixpoint chain (s : side) (r : sref) : nat :=
  match r with
  | SRef _ _ (NComb a b) | SRef _ _ (NList a b) => S (match s with Left => chain s a | Right => chain s b end)
  | SRef _ _ (NLeaf _) => 0
  end.
Definition node_chain (s : side) (n : node) : nat :=
  match branches n with Some (a, b) => S (match s with Left => chain s a | Right => chain s b end) | None => 0 end.

Lemma count_inner r : s_branch_count r = node_count (inner r).
Proof. destruct r as [id own [a b|a b|x]]; reflexivity. Qed.
Lemma contents_inner r : s_contents r = Freed (ident r) :: node_contents (inner r).
Proof. destruct r as [id own [a b|a b|[x|]]]; reflexivity. Qed.
Lemma chain_inner s r : chain s r = node_chain s (inner r).
Proof. destruct r as [id own [a b|a b|x]]; reflexivity. Qed.
Lemma branch_facts n l r : branches n = Some (l, r) ->
  node_count n = S (s_branch_count l + s_branch_count r) /\ node_contents n = s_contents l ++ s_contents r /\
  forall s, node_chain s n = S (match s with Left => chain s l | Right => chain s r end).
Proof. unfold node_count, node_chain. intros E. rewrite E. destruct n; try discriminate; injection E as <- <-; auto. Qed.
Lemma chain_count s : forall r, chain s r <= s_branch_count r.
Proof.
  fix IH 1. intros [id own [a b|a b|x]]; cbn; [pose proof (IH a); pose proof (IH b)|pose proof (IH a); pose proof (IH b)|]; clear IH; destruct s; lia.
Qed.

(** References not taken over are among [O]. *)
Context (O : sref -> Prop).
Fixpoint good (r : sref) : Prop :=
  match r with
  | SRef id own n => (own = false -> O r) /\ match n with NComb a b | NList a b => good a /\ good b | NLeaf _ => True end
  end.
Definition good_node (n : node) : Prop := match branches n with Some (a, b) => good a /\ good b | None => True end.
Lemma good_inner r : good r <-> (owned r = false -> O r) /\ good_node (inner r).
Proof. destruct r as [id own [a b|a b|x]]; cbn; reflexivity. Qed.

Definition fine (e : sevent) : Prop := match e with Released r => O r | Did _ => True end.
Definition done (c : list (event X)) (evs : list sevent) : Prop :=
  Permutation (flat_map accounts evs) c /\ Forall fine evs.

Lemma done_app c1 c2 e1 e2 : done c1 e1 -> done c2 e2 -> done (c1 ++ c2) (e1 ++ e2).
Proof.
  intros [P1 F1] [P2 F2]. split; [rewrite flat_map_app; apply Permutation_app; assumption|apply Forall_app; auto].
Qed.
Lemma done_perm c c' e : Permutation c c' -> done c e -> done c' e.
Proof. intros P [P1 F1]. split; auto. rewrite P1. exact P. Qed.

(** What [select] does. *)
Definition selected lock (l r : sref) (sel : selection (DR:=sref) (X:=X)) : Prop :=
  match sel with
  | inl (Left, d, reuse, oc, other) => d = inner l /\ reuse = SRef (ident l) true temp_leaf /\ oc = node_class (inner r) /\
      other = r /\ branches d <> None /\ (oc = Leaf \/ lock <> Some Right)
  | inl (Right, d, reuse, oc, other) => d = inner r /\ reuse = SRef (ident r) true temp_leaf /\ oc = node_class (inner l) /\
      other = l /\ branches d <> None /\ (oc = Leaf \/ lock <> Some Left)
  | inr (l', r') => l' = l /\ r' = r
  end.

Lemma runs_trytake r : runs (trytake (shared_ops oracle) r)
  (fun p e => e = [] /\ (p = (Some (inner r), SRef (ident r) true temp_leaf) \/ p = (None, r))).
Proof.
  destruct r as [id own n]. unfold trytake. cbn [r_try_replace shared_ops]. eapply runs_bind; [apply runs_ask|].
  intros [|] e ->; apply runs_ret; cbn; auto.
Qed.
Lemma runs_take_left lock l r : node_class (inner l) = Branch -> (node_class (inner r) = Leaf \/ lock <> Some Right) ->
  runs (take_left (shared_ops oracle) (node_class (inner l)) (node_class (inner r)) l r) (fun sel e => e = [] /\ selected lock l r sel).
Proof.
  intros HB HL. eapply runs_bind; [apply runs_trytake|]. intros p e (-> & [->| ->]); apply runs_ret; cbn; auto.
  repeat split; auto. unfold node_class in HB. destruct (branches (inner l)); discriminate.
Qed.
Lemma runs_take_right lock l r : node_class (inner r) = Branch -> (node_class (inner l) = Leaf \/ lock <> Some Left) ->
  runs (take_right (shared_ops oracle) (node_class (inner l)) (node_class (inner r)) l r) (fun sel e => e = [] /\ selected lock l r sel).
Proof.
  intros HB HL. eapply runs_bind; [apply runs_trytake|]. intros p e (-> & [->| ->]); apply runs_ret; cbn; auto.
  repeat split; auto. unfold node_class in HB. destruct (branches (inner r)); discriminate.
Qed.
Lemma runs_take_either l r : node_class (inner l) = Branch -> node_class (inner r) = Branch ->
  runs (take_either (shared_ops oracle) (node_class (inner l)) (node_class (inner r)) l r) (fun sel e => e = [] /\ selected None l r sel).
Proof.
  intros HB HR. eapply runs_bind; [apply runs_trytake|]. intros p e (-> & [->| ->]); [apply runs_ret|apply runs_take_right]; auto.
  - cbn. repeat split; auto; [|right; discriminate]. unfold node_class in HB. destruct (branches (inner l)); discriminate.
  - right. discriminate.
Qed.
Lemma runs_select lock l r :
  runs (select (shared_ops oracle) lock (node_class (inner l)) (node_class (inner r)) l r) (fun sel e => e = [] /\ selected lock l r sel).
Proof.
  pose proof (@runs_take_left lock l r) as HL. pose proof (@runs_take_right lock l r) as HR. pose proof (@runs_take_either l r) as HE.
  destruct (node_class (inner l)) eqn:EL, (node_class (inner r)) eqn:ER; destruct lock as [[]|]; cbn [select];
    try (apply HL; auto; try (right; discriminate); fail); try (apply HR; auto; try (right; discriminate); fail);
    try (apply HE; auto; fail); apply runs_ret; cbn; auto.
Qed.
Lemma runs_class r : runs (class_of (shared_ops oracle) r) (fun c e => e = [] /\ c = node_class (inner r)).
Proof. destruct r as [id own n]. intros [k l]. exists (node_class n), [], k. cbn. rewrite app_nil_r. auto. Qed.

Section Loop.
Context (drop : sref -> D (sstate X) unit) (bound : nat).
Context (HD : forall r, s_branch_count r < bound -> good r -> runs (drop r) (fun _ e => done (s_contents r) e)).

Definition steps (lock : option side) (top : node) : nat :=
  node_count top * node_count top + match lock with Some s => node_chain s top | None => node_count top end + 1.

Lemma shared_loop : forall fuel lock top, branches top <> None -> good_node top -> node_count top <= bound ->
  steps lock top <= fuel ->
  runs (algo1_loop (shared_ops oracle) drop fuel lock top) (fun _ e => done (node_contents top) e).
Proof.
  induction fuel as [|fuel IH]; intros lock top HB HG HN HF; [unfold steps in HF; lia|].
  destruct (branches top) as [[l r]|] eqn:E; [|congruence]. clear HB.
  destruct (branch_facts _ E) as (C1 & C2 & C3). unfold good_node in HG. rewrite E in HG. destruct HG as [GL GR].
  cbn [algo1_loop]. rewrite E.
  eapply runs_bind; [apply runs_class|]. intros lc ? (-> & ->).
  eapply runs_bind; [apply runs_class|]. intros rc ? (-> & ->).
  eapply runs_bind; [apply runs_select|]. intros sel ? (-> & HS). cbn [app].
  pose proof (proj1 (good_inner l) GL) as [OL GL']. pose proof (proj1 (good_inner r) GR) as [OR GR'].
  destruct sel as [[[[[[|] d] reuse] oc] other]|[l' r']].
  - destruct HS as (-> & -> & -> & -> & HB & HL). destruct (branches (inner l)) as [[sl sr]|] eqn:EL; [|congruence].
    destruct (branch_facts _ EL) as (A1 & A2 & A3). unfold good_node in GL'. rewrite EL in GL'. destruct GL' as [G1 G2].
    unfold node_class. destruct (branches (inner r)) as [[rl rr]|] eqn:ER.
    + assert (HL' : lock <> Some Right) by (destruct HL as [HL|]; [unfold node_class in HL; rewrite ER in HL; discriminate|assumption]).
      eapply runs_bind with (P := fun r' e => e = [] /\ r' = SRef (ident l) true (NList sr r));
        [apply runs_ret; auto|]. intros ? ? (-> & ->).
      eapply runs_mono; [apply IH|].
      * discriminate.
      * unfold good_node; cbn [branches]; rewrite (good_inner (SRef _ _ _)); cbn [owned inner]; unfold good_node; cbn [branches].
        split; [assumption|]. split; [discriminate|auto].
      * unfold node_count; cbn [branches]; rewrite (count_inner (SRef _ _ _)); unfold node_count; cbn [branches inner].
        rewrite (count_inner l), A1 in C1. lia.
      * assert (EN : node_count (NList sl (SRef (ident l) true (NList sr r))) = node_count top).
        { unfold node_count; cbn [branches]; rewrite (count_inner (SRef _ _ _)); unfold node_count; cbn [branches inner].
          fold (node_count top). rewrite (count_inner l), A1 in C1. lia. }
        assert (EC : node_chain Left (NList sl (SRef (ident l) true (NList sr r))) = S (chain Left sl)) by reflexivity.
        destruct (branch_facts _ ER) as (B1 & _). pose proof (chain_count Left sl).
        pose proof (C3 Left) as C4. cbn in C4. rewrite (chain_inner Left l), (A3 Left) in C4. cbn in C4.
        rewrite (count_inner l), A1, (count_inner r), B1 in C1.
        unfold steps in HF |- *. rewrite EN. destruct lock as [[|]|]; [|congruence|]; rewrite EC; lia.
      * intros ? e. apply done_perm. rewrite C2, (contents_inner l), A2.
        change (node_contents (NList sl (SRef (ident l) true (NList sr r)))) with (s_contents sl ++ Freed (ident l) :: s_contents sr ++ s_contents r).
        cbn [app]. rewrite <- app_assoc. symmetry. apply Permutation_middle.
    + eapply runs_bind; [apply HD; [rewrite (count_inner r); unfold node_count; rewrite ER; lia|assumption]|]. intros ? e1 D1.
      eapply runs_bind; [apply (HD (SRef (ident l) true temp_leaf)); [cbn; lia|cbn; auto; split; [discriminate|auto]]|]. intros ? e2 D2.
      eapply runs_mono; [apply IH|].
      * congruence.
      * unfold good_node. rewrite EL. auto.
      * rewrite (count_inner l) in C1. lia.
      * unfold steps in HF |- *. rewrite (count_inner l) in C1. nia.
      * intros ? e3 D3. eapply done_perm; [|apply done_app; [exact D1|apply done_app; [exact D2|exact D3]]].
        rewrite C2, (contents_inner l). cbn [s_contents temp_leaf]. apply Permutation_app_comm.
  - destruct HS as (-> & -> & -> & -> & HB & HL). destruct (branches (inner r)) as [[sl sr]|] eqn:ER; [|congruence].
    destruct (branch_facts _ ER) as (A1 & A2 & A3). unfold good_node in GR'. rewrite ER in GR'. destruct GR' as [G1 G2].
    unfold node_class. destruct (branches (inner l)) as [[ll lr]|] eqn:EL.
    + assert (HL' : lock <> Some Left) by (destruct HL as [HL|]; [unfold node_class in HL; rewrite EL in HL; discriminate|assumption]).
      eapply runs_bind with (P := fun r' e => e = [] /\ r' = SRef (ident r) true (NList l sl));
        [apply runs_ret; auto|]. intros ? ? (-> & ->).
      eapply runs_mono; [apply IH|].
      * discriminate.
      * unfold good_node; cbn [branches]; rewrite (good_inner (SRef _ _ _)); cbn [owned inner]; unfold good_node; cbn [branches].
        split; [|assumption]. split; [discriminate|auto].
      * unfold node_count; cbn [branches]; rewrite (count_inner (SRef _ _ _)); unfold node_count; cbn [branches inner].
        rewrite (count_inner r), A1 in C1. lia.
      * assert (EN : node_count (NList (SRef (ident r) true (NList l sl)) sr) = node_count top).
        { unfold node_count; cbn [branches]; rewrite (count_inner (SRef _ _ _)); unfold node_count; cbn [branches inner].
          fold (node_count top). rewrite (count_inner r), A1 in C1. lia. }
        assert (EC : node_chain Right (NList (SRef (ident r) true (NList l sl)) sr) = S (chain Right sr)) by reflexivity.
        destruct (branch_facts _ EL) as (B1 & _). pose proof (chain_count Right sr).
        pose proof (C3 Right) as C4. cbn in C4. rewrite (chain_inner Right r), (A3 Right) in C4. cbn in C4.
        rewrite (count_inner r), A1, (count_inner l), B1 in C1.
        unfold steps in HF |- *. rewrite EN. destruct lock as [[|]|]; [congruence| |]; rewrite EC; lia.
      * intros ? e. apply done_perm. rewrite C2, (contents_inner r), A2.
        change (node_contents (NList (SRef (ident r) true (NList l sl)) sr)) with (Freed (ident r) :: (s_contents l ++ s_contents sl) ++ s_contents sr).
        rewrite <- app_assoc. apply Permutation_middle.
    + eapply runs_bind; [apply HD; [rewrite (count_inner l); unfold node_count; rewrite EL; lia|assumption]|]. intros ? e1 D1.
      eapply runs_bind; [apply (HD (SRef (ident r) true temp_leaf)); [cbn; lia|cbn; auto; split; [discriminate|auto]]|]. intros ? e2 D2.
      eapply runs_mono; [apply IH|].
      * congruence.
      * unfold good_node. rewrite ER. auto.
      * rewrite (count_inner r) in C1. lia.
      * unfold steps in HF |- *. rewrite (count_inner r) in C1. nia.
      * intros ? e3 D3. eapply done_perm; [|apply done_app; [exact D1|apply done_app; [exact D2|exact D3]]].
        rewrite C2, (contents_inner r). reflexivity.
  - destruct HS as (-> & ->).
    eapply runs_bind; [apply HD; [lia|assumption]|]. intros ? e1 D1.
    eapply runs_mono; [apply HD; [lia|assumption]|]. intros ? e2 D2.
    eapply done_perm; [|apply done_app; [exact D1|exact D2]]. rewrite C2. apply Permutation_app_comm.
Qed.
End Loop.

Lemma s_drop_good fuel : forall depth r, s_branch_count r < depth -> good r ->
  s_branch_count r * s_branch_count r + s_branch_count r + 1 <= fuel ->
  runs (s_drop oracle fuel depth r) (fun _ e => done (s_contents r) e).
Proof.
  induction depth as [|depth IH]; intros r HN HG HF; [lia|].
  pose proof (proj1 (good_inner r) HG) as [HO GN].
  assert (HD : forall r', s_branch_count r' < s_branch_count r -> good r' ->
    runs (s_drop oracle fuel depth r') (fun _ e => done (s_contents r') e)) by (intros; apply IH; auto; nia).
  eapply runs_bind with (P := fun r' e =>
    (r' = r /\ e = []) \/ (r' = SRef (ident r) true temp_leaf /\ done (node_contents (inner r)) e)).
  - eapply runs_bind; [apply runs_class|]. intros c e (-> & ->). unfold node_class.
    destruct (branches (inner r)) as [[a b]|] eqn:E; [|apply runs_ret; auto].
    eapply runs_bind; [apply runs_trytake|]. intros p e (-> & [->| ->]); [|apply runs_ret; auto].
    eapply runs_bind.
    + apply shared_loop with (bound := s_branch_count r); [exact HD|congruence|assumption|rewrite count_inner; auto|].
      unfold steps. rewrite count_inner in HF. exact HF.
    + intros ? e D1. apply runs_ret. cbn. rewrite app_nil_r. auto.
  - intros r' e [[-> ->]|[-> D1]].
    + destruct r as [id own n]. cbn [app].
      eapply runs_bind with (P := fun last e => e = [] /\ (last = false -> own = false)).
      { destruct own; [apply runs_ret; auto|]. eapply runs_mono; [apply runs_ask|]. auto. }
      intros last e (-> & HL). destruct last.
      * cbn [app]. eapply runs_bind with (P := fun _ e => done (node_contents n) e).
        -- unfold good_node in GN. rewrite count_inner in HD. unfold node_count in HD. cbn [inner] in HD, GN.
           destruct n as [a b|a b|[x|]]; cbn [branches] in GN, HD.
           1, 2: destruct GN as [Ga Gb]; eapply runs_bind; [apply HD; [lia|assumption]|]; intros ? e1 D1;
             eapply runs_mono; [apply HD; [lia|assumption]|]; intros ? e2 D2; cbn [node_contents];
             apply done_app; assumption.
           ++ eapply runs_mono; [apply runs_happens|]. intros ? e ->. split; cbn; auto.
           ++ apply runs_ret. split; cbn; auto.
        -- intros ? e1 D1. eapply runs_mono; [apply runs_happens|]. intros ? e2 ->.
           rewrite contents_inner. cbn [ident inner]. eapply done_perm; [symmetry; apply Permutation_cons_append|].
           apply (done_app (c1 := node_contents n) (c2 := [Freed id])); [exact D1|]. split; cbn; auto; repeat constructor.
      * eapply runs_mono; [apply runs_happens|]. intros ? e ->. split; cbn [app flat_map accounts].
        -- rewrite app_nil_r. reflexivity.
        -- constructor; [|constructor]. apply HO. cbn. auto.
    + eapply runs_bind; [apply runs_ret with (Q := fun last e => last = true /\ e = []); auto|]. intros last e2 (-> & ->).
      eapply runs_bind; [apply runs_ret with (Q := fun _ e => e = []); auto|]. intros ? e3 ->.
      eapply runs_mono; [apply runs_happens|]. intros ? e4 ->. cbn [app].
      rewrite contents_inner. eapply done_perm; [symmetry; apply Permutation_cons_append|].
      apply (done_app (c1 := node_contents (inner r)) (c2 := [Freed (ident r)])); [exact D1|]. split; cbn; auto; repeat constructor.
Qed.
End Shared.

Lemma untouched_good X (r0 : sref X) : untouched r0 -> forall r, incl (references r) (references r0) -> good (fun r => In r (references r0)) r.
Proof.
  intros HU. fix IH 1. intros [id own [a b|a b|x]] HI.
  1, 2: assert (Ha : incl (references a) (references r0)) by (intros y Hy; apply HI; right; apply in_or_app; auto);
    assert (Hb : incl (references b) (references r0)) by (intros y Hy; apply HI; right; apply in_or_app; auto);
    cbn; pose proof (IH a Ha); pose proof (IH b Hb); clear IH; split; [intros _; apply HI; left; reflexivity|auto].
  clear IH. cbn. split; [intros _; apply HI; left; reflexivity|auto].
Qed.

Theorem s_drop_spec X (oracle : nat -> bool) fuel depth (r : sref X) h : untouched r ->
  s_branch_count r < depth -> s_branch_count r * s_branch_count r + s_branch_count r < fuel ->
  exists evs h', s_drop oracle fuel depth r h = Ok (tt, h') /\ so_far h' = so_far h ++ evs /\
    Permutation (flat_map accounts evs) (s_contents r) /\
    (forall r', In (Released r') evs -> In r' (references r)).
Proof.
  intros HU HN HF.
  destruct (@s_drop_good X oracle (fun r0 => In r0 (references r)) fuel depth r) with (h := h)
    as ([] & evs & k & E & P & F); auto; [apply untouched_good; auto; apply incl_refl|lia|].
  exists evs, (SState k (so_far h ++ evs)). repeat split; auto.
  intros r' HI. rewrite Forall_forall in F. apply (F _ HI).
Qed.
