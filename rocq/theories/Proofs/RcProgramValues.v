(** The values that the references of a program stand for. *)
From Coq Require Import List Arith Lia Permutation Bool.
From Verif.Model Require Import Prelude Drop DropRc RcProgram.
From Verif.Spec Require Import Drops Programs.
From Verif.Proofs Require Import HeapFacts DropRcFacts RcProgramFacts.
Import ListNotations.
Set Implicit Arguments.

Section Values.
Context {X : Type}.
Local Notation heap := (heap X).
Local Notation node := (node nat X).
Local Notation Cell := (@Cell X).
Local Notation machine := (machine X).
Local Notation tree := (tree X).
Implicit Types (h : heap) (K V : list nat) (m : machine) (t : tree) (ts : list tree).

Lemma take_picks A i : forall (l : list A) a l', take i l = Some (a, l') <-> picks i l a l'.
Proof.
  induction i as [|i IH]; intros [|b l] a l'; cbn.
  - split; [discriminate|]. intros ([|? l1] & l2 & E & _); discriminate.
  - split; [intros [= -> ->]; exists [], l'; auto|]. intros ([|? l1] & l2 & E & -> & HL); [|discriminate]. cbn in E. injection E as -> ->. reflexivity.
  - split; [discriminate|]. intros ([|? l1] & l2 & E & _); discriminate.
  - split.
    + destruct (take i l) as [[c l'']|] eqn:E; [|discriminate]. intros [= -> <-]. apply IH in E. destruct E as (l1 & l2 & -> & -> & <-).
      exists (b :: l1), l2. auto.
    + intros ([|? l1] & l2 & E & -> & HL); [discriminate|]. cbn in E, HL. injection E as -> ->. injection HL as HL.
      rewrite (proj2 (IH (l1 ++ a :: l2) a (l1 ++ l2))); [reflexivity|]. exists l1, l2. auto.
Qed.
Lemma forall2_take A B (R : A -> B -> Prop) i : forall l l', Forall2 R l l' -> forall a l1, take i l = Some (a, l1) ->
  exists b l1', take i l' = Some (b, l1') /\ R a b /\ Forall2 R l1 l1'.
Proof.
  induction i as [|i IH]; intros l l' HF a l1; destruct HF as [|c d l l' HR HF]; cbn; try discriminate.
  - intros [= -> ->]. exists d, l'. auto.
  - destruct (take i l) as [[e l2]|] eqn:E; [|discriminate]. intros [= -> <-]. destruct (IH _ _ HF _ _ E) as (b & l2' & -> & HB & HF').
    exists b, (d :: l2'). auto.
Qed.
Lemma forall2_take_none A B (R : A -> B -> Prop) i : forall l l', Forall2 R l l' -> take i l = None -> take i l' = None.
Proof.
  induction i as [|i IH]; intros l l' HF; destruct HF as [|c d l l' HR HF]; cbn; try discriminate; [reflexivity|reflexivity|].
  destruct (take i l) as [[e l2]|] eqn:E; [discriminate|]. rewrite (IH _ _ HF E). reflexivity.
Qed.

Definition node_shows h (n : node) t : Prop :=
  match n, t with
  | NLeaf v, TLeaf v' => v = v'
  | NComb a b, TComb l r | NList a b, TList l r => shows h a l /\ shows h b r
  | _, _ => False
  end.
Lemma shows_node h x t : shows h x t <-> exists n, node_at h x = Some n /\ node_shows h n t.
Proof.
  split.
  - intros []; eexists; (split; [eassumption|]); cbn; auto.
  - intros (n & E & HN). destruct n, t; cbn in HN; try contradiction; [| |subst]; try destruct HN; econstructor; eauto.
Qed.
Lemma forall2_make h K ts d n K' : Forall2 (shows h) K ts -> make d K = Some (n, K') ->
  exists t ts', builds d ts t ts' /\ node_shows h n t /\ Forall2 (shows h) K' ts'.
Proof.
  intros HF. destruct d as [v|i j|i j]; cbn; [intros [= <- <-]; exists (TLeaf v), ts; repeat split; [constructor|exact HF]| |].
  all: destruct (take i K) as [[a K1]|] eqn:E1; [|discriminate]; destruct (take j K1) as [[b K2]|] eqn:E2; [|discriminate]; intros [= <- <-];
    destruct (forall2_take _ HF E1) as (l & ts1 & T1 & S1 & F1); destruct (forall2_take _ F1 E2) as (r & ts2 & T2 & S2 & F2);
    eexists; exists ts2; (split; [econstructor; apply take_picks; eassumption|]); cbn; auto.
Qed.
Lemma forall2_make_none h K ts d : Forall2 (shows h) K ts -> make d K = None -> forall t ts', ~ builds d ts t ts'.
Proof.
  intros HF EM t ts' HB. destruct HB as [v ts|i j ts l ts1 r ts2 P1 P2|i j ts l ts1 r ts2 P1 P2]; cbn in EM; [discriminate| |].
  all: apply take_picks in P1; apply take_picks in P2; destruct (take i K) as [[a K1]|] eqn:E1;
    [|rewrite (forall2_take_none _ HF E1) in P1; discriminate];
    destruct (forall2_take _ HF E1) as (l' & ts1' & T1 & S1 & F1); rewrite T1 in P1; injection P1 as -> ->;
    destruct (take j K1) as [[b K2]|] eqn:E2; [discriminate|rewrite (forall2_take_none _ F1 E2) in P2; discriminate].
Qed.

(** ** Every reference shows one finite tree *)
Lemma shows_unique h x t : shows h x t -> forall t', shows h x t' -> t' = t.
Proof.
  induction 1 as [x v E|x a b l r E _ IHl _ IHr|x a b l r E _ IHl _ IHr]; intros t' HS; destruct HS; try congruence.
  all: match goal with H1 : node_at _ _ = _, H2 : node_at _ _ = _ |- _ => rewrite H1 in H2; injection H2 as -> -> end; f_equal; eauto.
Qed.
Lemma shows_some h K x : consistent h K -> In x (K ++ edges h) -> exists t, shows h x t.
Proof.
  intros HC. destruct (cons_acyclic HC) as (rank & HR).
  assert (G : forall k x, rank x < k -> In x (K ++ edges h) -> exists t, shows h x t).
  { induction k as [|k IH]; intros y HY HI; [lia|]. pose proof (cons_refs HC _ HI) as HN. destruct (node_at h y) as [n|] eqn:E; [|congruence].
    assert (HK : forall z, In z (kids n) -> exists t, shows h z t).
    { intros z Hz. pose proof (HR _ _ _ E Hz). apply IH; [lia|]. apply in_or_app. right. eapply node_at_edges; eauto. }
    destruct n as [a b|a b|v]; [| |eexists; apply shows_leaf; exact E].
    all: destruct (HK a (or_introl eq_refl)) as (l & Hl); destruct (HK b (or_intror (or_introl eq_refl))) as (r & Hr).
    - eexists; eapply shows_comb; eauto.
    - eexists; eapply shows_list; eauto. }
  intros HI. exact (G _ x (Nat.lt_succ_diag_r _) HI).
Qed.

(** ** Steps *)
Lemma live_in h K x n : consistent h K -> node_at h x = Some n -> In x (K ++ edges h).
Proof.
  intros HC E. unfold node_at in E. destruct (cell_at h x) as [c|] eqn:EC; [|discriminate]. destruct (cons_count HC _ EC) as (HS & HV).
  apply (count_occ_In Nat.eq_dec). fold (refs K h x). rewrite <- HS. destruct (strong c) eqn:ES; [|lia]. rewrite (proj2 HV eq_refl) in E. discriminate.
Qed.
Lemma alone h K i x K1 n : consistent h K -> take i K = Some (x, K1) -> cell_at h x = Some (Cell 1 0 (Some n)) -> ~ In x (K1 ++ edges h).
Proof.
  intros HC ET E HI. assert (HC' : consistent h (x :: K1)) by (eapply consistent_perm; [apply (take_perm _ _ ET)|exact HC]).
  destruct (unreachable HC' E) as (_ & C1 & C2). apply in_app_or in HI. destruct HI as [HI|HI]; apply count_In in HI; lia.
Qed.

Section Step.
Context (o : op X) (m m' : machine).
Hypothesis HS : sound m.
Hypothesis HST : stepped o m m'.

Lemma same_node x n : node_at (mem m) x = Some n -> In x (strongs m' ++ edges (mem m')) ->
  (forall i d K1, o = OReplace i d -> take i (strongs m) = Some (x, K1) -> cell_at (mem m) x = Some (Cell 1 0 (Some n)) -> False) -> node_at (mem m') x = Some n.
Proof.
  intros E HI HR. destruct HST as (S' & _ & _ & HN & _). pose proof (cons_refs (so_consistent S') _ HI) as HL. destruct (node_at (mem m') x) as [n'|] eqn:E'; [|congruence].
  destruct (HN _ _ _ E E') as [->|(i & d & K1 & K2 & EO & ET & _ & EC)]; [reflexivity|]. destruct (HR _ _ _ EO ET EC).
Qed.
Lemma keep x t : shows (mem m) x t -> In x (strongs m' ++ edges (mem m')) -> node_at (mem m') x = node_at (mem m) x -> shows (mem m') x t.
Proof.
  assert (G : forall x n y, node_at (mem m) x = Some n -> node_at (mem m') x = node_at (mem m) x -> In y (kids n) ->
    In y (strongs m' ++ edges (mem m')) /\ node_at (mem m') y = node_at (mem m) y).
  { intros z n y E E' HY. assert (HI : In y (edges (mem m))) by (eapply node_at_edges; eauto).
    assert (HI' : In y (strongs m' ++ edges (mem m'))) by (apply in_or_app; right; eapply node_at_edges; [rewrite E'; exact E|exact HY]).
    split; [exact HI'|]. pose proof (cons_refs (so_consistent HS) y) as HL. rewrite in_app_iff in HL. specialize (HL (or_intror HI)).
    destruct (node_at (mem m) y) as [ny|] eqn:EY; [|congruence]. apply same_node; [exact EY|exact HI'|].
    intros i d K1 _ ET EC. apply (alone _ (so_consistent HS) ET EC). apply in_or_app. right. exact HI. }
  induction 1 as [x v E|x a b l r E _ IHl _ IHr|x a b l r E _ IHl _ IHr]; intros HI E'.
  - apply shows_leaf. congruence.
  - destruct (G _ _ a E E' (or_introl eq_refl)) as (A1 & A2), (G _ _ b E E' (or_intror (or_introl eq_refl))) as (B1 & B2).
    eapply shows_comb; [rewrite E'; exact E|auto|auto].
  - destruct (G _ _ a E E' (or_introl eq_refl)) as (A1 & A2), (G _ _ b E E' (or_intror (or_introl eq_refl))) as (B1 & B2).
    eapply shows_list; [rewrite E'; exact E|auto|auto].
Qed.
(** References that were not used for an assignment. *)
Lemma keep_same x t : shows (mem m) x t -> In x (strongs m' ++ edges (mem m')) ->
  (forall i d K1, o = OReplace i d -> take i (strongs m) = Some (x, K1) -> In x (K1 ++ edges (mem m))) -> shows (mem m') x t.
Proof.
  intros H HI HR. apply keep; [exact H|exact HI|]. apply shows_node in H. destruct H as (n & E & _). rewrite E. apply same_node; [exact E|exact HI|].
  intros i d K1 EO ET EC. apply (alone _ (so_consistent HS) ET EC). eapply HR; eauto.
Qed.
Lemma keep_all L ts : Forall2 (shows (mem m)) L ts -> incl L (strongs m' ++ edges (mem m')) ->
  (forall i d x K1, o = OReplace i d -> take i (strongs m) = Some (x, K1) -> incl L (K1 ++ edges (mem m))) -> Forall2 (shows (mem m')) L ts.
Proof.
  intros HF HI HR. induction HF as [|x t L ts H _ IH]; constructor.
  - apply keep_same; [exact H|apply HI; left; reflexivity|]. intros i d K1 EO ET. eapply HR; [exact EO|exact ET|left; reflexivity].
  - apply IH; [intros y Hy; apply HI; right; exact Hy|]. intros i d y K1 EO ET z Hz. eapply HR; [exact EO|exact ET|right; exact Hz].
Qed.
Lemma keep_weak x t : In x (weaks m) -> (node_at (mem m) x <> None -> shows (mem m) x t) -> node_at (mem m') x <> None -> shows (mem m') x t.
Proof.
  intros HV H HN'. pose proof HST as (S' & _ & _ & _ & HD). destruct (cell_at (mem m) x) as [[s w v]|] eqn:EC; [|destruct (so_live HS _ HV EC)].
  assert (HN : node_at (mem m) x <> None).
  { unfold node_at. rewrite EC. cbn [value]. intros ->. destruct (cons_count (so_consistent HS) _ EC) as (_ & HV0). cbn [value strong] in HV0.
    rewrite (proj1 HV0 eq_refl) in EC. exact (HN' (HD _ _ EC)). }
  destruct (node_at (mem m') x) as [n'|] eqn:E'; [|congruence]. specialize (H HN). apply keep; [exact H|eapply live_in; [exact (so_consistent S')|exact E']|].
  destruct (node_at (mem m) x) as [n|] eqn:E; [|congruence]. apply same_node; [exact E|eapply live_in; [exact (so_consistent S')|exact E']|].
  intros i d K1 _ _ EC1. pose proof (so_weak HS _ EC1) as HW. cbn [weak] in HW. apply (count_occ_In Nat.eq_dec) in HV. lia.
Qed.
Lemma keep_weaks V ws : Forall2 (fun x t => node_at (mem m) x <> None -> shows (mem m) x t) V ws -> incl V (weaks m) ->
  Forall2 (fun x t => node_at (mem m') x <> None -> shows (mem m') x t) V ws.
Proof.
  intros HF HI. induction HF as [|x t V ws H _ IH]; constructor.
  - apply keep_weak; [apply HI; left; reflexivity|exact H].
  - apply IH. intros y Hy. apply HI. right. exact Hy.
Qed.
End Step.

Lemma run_ok A (act : H A) h k m' : run act h k = Ok m' -> exists a h', act h = Ok (a, h') /\ m' = k a h'.
Proof. unfold run. destruct (act h) as [[a h']|e| |] eqn:E; try discriminate. intros [= <-]. eauto. Qed.
Lemma ends_det A (act : H A) h P a h' : ends act h P -> act h = Ok (a, h') -> P a h'.
Proof. intros (a1 & h1 & E & HP) E'. rewrite E in E'. injection E' as -> ->. exact HP. Qed.
Lemma take_incl A i (l : list A) a l' : take i l = Some (a, l') -> incl l' l.
Proof. intros E x Hx. eapply Permutation_in; [symmetry; apply (take_perm _ _ E)|right; exact Hx]. Qed.
Lemma take_in A i (l : list A) a l' : take i l = Some (a, l') -> In a l.
Proof. intros E. eapply Permutation_in; [symmetry; apply (take_perm _ _ E)|left; reflexivity]. Qed.

Theorem values_step arc fuel depth o m m' st : sound m -> step arc fuel depth o m = Ok m' -> stepped o m m' -> stands m st ->
  exists st', pure_step o st st' /\ stands m' st'.
Proof.
  intros HS E HST [HT HW]. destruct m as [h K V], st as [ts ws]. cbn [mem strongs weaks held old] in HT, HW.
  pose proof (so_consistent HS) as HC. cbn [mem strongs] in HC. pose proof (keep_all HS HST) as KA. pose proof (keep_weaks HS HST) as KW.
  pose proof (keep_same HS HST) as KS. cbn [mem strongs weaks] in KA, KW, KS.
  assert (NO : (forall st'', ~ does o (Store ts ws) st'') -> m' = Machine h K V -> exists st', pure_step o (Store ts ws) st' /\ stands m' st').
  { intros HN ->. exists (Store ts ws). split; [right; auto|]. split; assumption. }
  destruct o as [d|i|i s|i|i d|i|j|j]; cbn [step] in E.
  - destruct (make d K) as [[n K']|] eqn:EM.
    2:{ injection E as <-. apply NO; [|reflexivity]. intros st'' HD. inversion HD; subst. eapply forall2_make_none; eassumption. }
    apply run_ok in E. destruct E as (x & h' & [= <- <-] & ->). cbn [mem strongs weaks] in KA, KW, KS.
    destruct (forall2_make _ HT EM) as (t & ts' & HB & HN & HT').
    exists (Store (t :: ts') ws). split; [left; apply p_new; exact HB|]. split; cbn [mem strongs weaks held old].
    + assert (EN : node_at (Heap (cells h ++ [Some (Cell 1 0 (Some n))]) (dropped h)) (length (cells h)) = Some n).
      { unfold node_at, cell_at. cbn [cells]. rewrite nth_error_app2, Nat.sub_diag by lia. reflexivity. }
      constructor; [|apply KA; [exact HT'|apply incl_appl, incl_tl, incl_refl|discriminate]].
      apply shows_node. exists n. split; [exact EN|].
      assert (G : forall y u, In y (kids n) -> shows h y u -> shows (Heap (cells h ++ [Some (Cell 1 0 (Some n))]) (dropped h)) y u).
      { intros y u Hy Hu. apply KS; [exact Hu| |discriminate]. apply in_or_app. right. eapply node_at_edges; eauto. }
      destruct n as [a b|a b|v], t as [|l r|l r]; cbn in HN |- *; try contradiction; try exact HN; destruct HN; split; apply G; cbn; auto.
    + apply KW; [exact HW|apply incl_refl].
  - destruct (take i K) as [[x K']|] eqn:ET.
    2:{ injection E as <-. apply NO; [|reflexivity]. intros st'' HD. inversion HD; subst.
        match goal with H : picks _ _ _ _ |- _ => apply take_picks in H; rewrite (forall2_take_none _ HT ET) in H; discriminate end. }
    apply run_ok in E. destruct E as ([] & h' & E & ->). destruct (forall2_take _ HT ET) as (t & ts' & T & S1 & F1).
    exists (Store (t :: t :: ts') ws). split; [left; apply p_clone, take_picks; exact T|]. split; cbn [mem strongs weaks held old].
    + apply KA; [auto|apply incl_appl, incl_refl|discriminate].
    + apply KW; [exact HW|apply incl_refl].
  - destruct (take i K) as [[x K']|] eqn:ET.
    2:{ injection E as <-. apply NO; [|reflexivity]. intros st'' HD. inversion HD; subst.
        match goal with H : picks _ _ _ _ |- _ => apply take_picks in H; rewrite (forall2_take_none _ HT ET) in H; discriminate end. }
    apply run_ok in E. destruct E as (ys & h' & E & ->). destruct (forall2_take _ HT ET) as (t & ts' & T & S1 & F1).
    destruct (consistent_live x HC) as (s0 & w0 & n & EC); [apply in_or_app; left; exact (take_in _ _ ET)|].
    assert (EN : node_at h x = Some n) by (unfold node_at; rewrite EC; reflexivity).
    unfold d_bind at 1, deref, read, d_bind at 1 in E. rewrite EC in E. cbn [value d_ret] in E.
    assert (HB : exists cs, below s t cs /\ Forall2 (shows h) ys cs).
    { pose proof S1 as S2. apply shows_node in S2. destruct S2 as (n1 & EN1 & HN). rewrite EN in EN1. injection EN1 as <-.
      destruct n as [a b|a b|v], t as [|l r|l r]; cbn in HN, E; try contradiction; [| |exists []; injection E as <- _; split; [constructor|auto]].
      all: destruct HN, s; unfold d_bind in E.
      all: match type of E with context [clone ?y ?h0] => destruct (clone y h0) as [[? ?]|?| |]; try discriminate E; injection E as <- _ end.
      all: eexists; (split; [constructor|]); auto. }
    destruct HB as (cs & HB & HY).
    exists (Store (cs ++ t :: ts') ws). split; [left; apply p_child; [apply take_picks; exact T|exact HB]|]. split; cbn [mem strongs weaks held old].
    + apply KA; [apply Forall2_app; auto|apply incl_appl, incl_refl|discriminate].
    + apply KW; [exact HW|apply incl_refl].
  - destruct (take i K) as [[x K']|] eqn:ET.
    2:{ injection E as <-. apply NO; [|reflexivity]. intros st'' HD. inversion HD; subst.
        match goal with H : picks _ _ _ _ |- _ => apply take_picks in H; rewrite (forall2_take_none _ HT ET) in H; discriminate end. }
    apply run_ok in E. destruct E as ([] & h' & E & ->). destruct (forall2_take _ HT ET) as (t & ts' & T & S1 & F1).
    exists (Store ts' ws). split; [left; eapply p_drop, take_picks; exact T|]. split; cbn [mem strongs weaks held old].
    + apply KA; [auto|apply incl_appl, incl_refl|discriminate].
    + apply KW; [exact HW|apply incl_refl].
  - destruct (take i K) as [[x K1]|] eqn:ET.
    2:{ injection E as <-. apply NO; [|reflexivity]. intros st'' HD. inversion HD; subst.
        all: match goal with H : picks _ _ _ _ |- _ => apply take_picks in H; rewrite (forall2_take_none _ HT ET) in H; discriminate end. }
    destruct (forall2_take _ HT ET) as (t & ts1 & T & S1 & F1).
    destruct (make d K1) as [[n K2]|] eqn:EM.
    2:{ injection E as <-. apply NO; [|reflexivity]. intros st'' HD. inversion HD; subst.
        all: match goal with H : picks _ _ _ _ |- _ => apply take_picks in H; rewrite T in H; injection H as -> -> end; eapply forall2_make_none; eassumption. }
    apply run_ok in E. destruct E as ([] & h' & E & ->). cbn [mem strongs weaks] in KA, KW, KS.
    destruct (forall2_make _ F1 EM) as (t' & ts2 & HB & HN & F2).
    assert (HI1 : incl (kids n ++ K2) K1) by (intros y Hy; eapply Permutation_in; [symmetry; apply (make_perm _ _ EM)|exact Hy]).
    assert (HK2 : Forall2 (shows h') K2 ts2).
    { apply KA; [exact F2|apply incl_appl, incl_tl, incl_refl|]. intros i0 d0 x0 K0 [= <- <-] ET0. rewrite ET in ET0. injection ET0 as <- <-.
      intros y Hy. apply in_or_app. left. apply HI1, in_or_app. right. exact Hy. }
    assert (HW2 : Forall2 (fun x t => node_at h' x <> None -> shows h' x t) V ws) by (apply KW; [exact HW|apply incl_refl]).
    pose proof HST as (S' & _ & _ & HNN & _). cbn [mem strongs] in HNN. pose proof (so_consistent S') as HC'. cbn [mem strongs] in HC'.
    destruct (consistent_live x HC' (or_introl eq_refl)) as (s1 & w1 & n1 & EC1). assert (EN1 : node_at h' x = Some n1) by (unfold node_at; rewrite EC1; reflexivity).
    pose proof S1 as S2. apply shows_node in S2. destruct S2 as (n0 & EN0 & _).
    destruct (HNN _ _ _ EN0 EN1) as [->|(i0 & d0 & K0 & K3 & [= <- <-] & ET0 & EM0 & EC0)].
    + exists (Store (t :: ts2) ws). split; [left; eapply p_refused; [apply take_picks; exact T|exact HB]|]. split; cbn [mem strongs weaks held old]; [|exact HW2].
      constructor; [|exact HK2]. apply (keep HS HST S1); cbn [mem strongs]; [left; reflexivity|congruence].
    + rewrite ET in ET0. injection ET0 as <-. rewrite EM in EM0. injection EM0 as <- <-.
      exists (Store (t' :: ts2) ws). split; [left; eapply p_replaced; [apply take_picks; exact T|exact HB]|]. split; cbn [mem strongs weaks held old]; [|exact HW2].
      constructor; [|exact HK2]. apply shows_node. exists n. split; [exact EN1|].
      assert (G : forall y u, In y (kids n) -> shows h y u -> shows h' y u).
      { intros y u Hy Hu. apply KS; [exact Hu|apply in_or_app; right; eapply node_at_edges; eauto|]. intros i1 d1 K4 [= <- <-] ET4. rewrite ET in ET4.
        injection ET4 as <- <-. apply in_or_app. left. apply HI1, in_or_app. left. exact Hy. }
      destruct n as [a b|a b|v], t' as [|l r|l r]; cbn in HN |- *; try contradiction; try exact HN; destruct HN; split; apply G; cbn; auto.
  - destruct (take i K) as [[x K']|] eqn:ET.
    2:{ injection E as <-. apply NO; [|reflexivity]. intros st'' HD. inversion HD; subst.
        match goal with H : picks _ _ _ _ |- _ => apply take_picks in H; rewrite (forall2_take_none _ HT ET) in H; discriminate end. }
    apply run_ok in E. destruct E as ([] & h' & E & ->). destruct (forall2_take _ HT ET) as (t & ts' & T & S1 & F1).
    exists (Store (t :: ts') (t :: ws)). split; [left; eapply p_downgrade, take_picks; exact T|].
    assert (F' : Forall2 (shows h') (x :: K') (t :: ts')) by (apply KA; [auto|apply incl_appl, incl_refl|discriminate]).
    split; cbn [mem strongs weaks held old]; [exact F'|]. constructor; [intros _; inversion F'; assumption|]. apply KW; [exact HW|apply incl_refl].
  - destruct (take j V) as [[x V']|] eqn:ET.
    2:{ injection E as <-. apply NO; [|reflexivity]. intros st'' HD. inversion HD; subst.
        all: match goal with H : picks _ _ _ _ |- _ => apply take_picks in H; rewrite (forall2_take_none _ HW ET) in H; discriminate end. }
    apply run_ok in E. destruct E as (b & h' & E & ->). destruct (forall2_take _ HW ET) as (t & ws' & T & S1 & F1).
    exists (Store (if b then t :: ts else ts) (t :: ws')). split; [left; destruct b; [eapply p_upgraded|eapply p_gone]; apply take_picks; exact T|].
    split; cbn [mem strongs weaks held old].
    + destruct b; [|apply KA; [exact HT|apply incl_appl, incl_refl|discriminate]]. apply KA; [constructor; [apply S1|exact HT]|apply incl_appl, incl_refl|discriminate].
      unfold upgrade, d_bind at 1, read in E. destruct (cell_at h x) as [[[|s] w v]|] eqn:EC; try discriminate E. unfold node_at. rewrite EC. cbn [value].
      intros ->. destruct (cons_count HC _ EC) as (_ & HV). cbn [value strong] in HV. specialize (proj1 HV eq_refl). discriminate.
    + apply KW; [auto|]. intros y [<-|Hy]; [exact (take_in _ _ ET)|exact (take_incl _ _ ET _ Hy)].
  - destruct (take j V) as [[x V']|] eqn:ET.
    2:{ injection E as <-. apply NO; [|reflexivity]. intros st'' HD. inversion HD; subst.
        all: match goal with H : picks _ _ _ _ |- _ => apply take_picks in H; rewrite (forall2_take_none _ HW ET) in H; discriminate end. }
    apply run_ok in E. destruct E as ([] & h' & E & ->). destruct (forall2_take _ HW ET) as (t & ws' & T & S1 & F1).
    exists (Store ts ws'). split; [left; eapply p_drop_weak, take_picks; exact T|]. split; cbn [mem strongs weaks held old].
    + apply KA; [exact HT|apply incl_appl, incl_refl|discriminate].
    + apply KW; [exact F1|]. exact (take_incl _ _ ET).
Qed.

(** ** Programs *)
Theorem steps_values arc fuel depth N : N < depth -> N * N + N < fuel -> forall (os : list (op X)) m st, sound m -> stands m st -> branch_cells (mem m) + length os <= N ->
  exists m' st', steps arc fuel depth os m = Ok m' /\ sound m' /\ branch_cells (mem m') <= branch_cells (mem m) + length os /\ pure os st st' /\ stands m' st'.
Proof.
  intros HD HF. induction os as [|o os IH]; intros m st HS HT HN.
  - exists m, st. split; [reflexivity|]. split; [exact HS|]. split; [lia|]. split; [apply pure_nil|exact HT].
  - cbn [length] in HN. destruct (@step_sound X arc fuel depth o m HS) as (m1 & E1 & HST); [unfold bc; lia|unfold bc; nia|].
    destruct (values_step arc fuel depth HS E1 HST HT) as (st1 & HP1 & HT1). pose proof HST as (S1 & B1 & _). unfold bc in B1.
    destruct (IH m1 st1 S1 HT1) as (m' & st' & E & S' & B' & HP & HT'); [lia|].
    exists m', st'. split; [cbn [steps]; rewrite E1; exact E|]. split; [exact S'|]. split; [cbn [length]; lia|]. split; [eapply pure_cons; eassumption|exact HT'].
Qed.
Lemma start_sound : sound (start (X := X)).
Proof.
  split; cbn.
  - split; [intros [|x] c; discriminate|intros x []|exists (fun x => x); intros [|x] n y; discriminate].
  - intros [|x] c; discriminate.
  - intros [|x] c; discriminate.
  - intros x [].
Qed.
Lemma start_stands : stands (start (X := X)) (Store [] []).
Proof. split; constructor. Qed.

(** The exclusive reference. *)
Lemma replace_exact arc fuel depth i d m m' x K1 n K2 old : sound m -> step arc fuel depth (OReplace i d) m = Ok m' ->
  S (branch_cells (mem m)) < depth -> S (branch_cells (mem m)) * S (branch_cells (mem m)) + S (branch_cells (mem m)) < fuel ->
  take i (strongs m) = Some (x, K1) -> make d K1 = Some (n, K2) -> cell_at (mem m) x = Some (Cell 1 0 (Some old)) -> node_at (mem m') x = Some n.
Proof.
  intros HS E HD HF ET EM EC. destruct m as [h K V]. cbn [mem strongs step] in *. rewrite ET, EM in E. apply run_ok in E. destruct E as ([] & h' & E & ->). cbn [mem].
  assert (HC2 : consistent h (x :: kids n ++ K2)).
  { eapply consistent_perm; [|exact (so_consistent HS)]. cbn [strongs]. rewrite (take_perm _ _ ET). apply perm_skip, (make_perm _ _ EM). }
  pose proof (ends_det (@replace_alone X arc fuel depth h x old n K2 HC2 EC HD HF) E) as HWent. pose proof HWent as (C' & F' & _).
  rewrite (F' x) by (apply reach_root; left; reflexivity). unfold node_at. rewrite (cell_at_upd _ _ _ _ EC), Nat.eqb_refl. reflexivity.
Qed.
End Values.
