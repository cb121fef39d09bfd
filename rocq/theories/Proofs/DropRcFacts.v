(** The drop algorithm on counted references. *)
From Coq Require Import List Arith Lia Permutation Bool.
From Verif.Model Require Import Prelude Drop DropRc.
From Verif.Spec Require Import Drops.
From Verif.Proofs Require Import HeapFacts.
Import ListNotations.
Set Implicit Arguments.

Section Rc.
Context {X : Type}.
Local Notation heap := (heap X).
Local Notation cell := (cell X).
Local Notation node := (node nat X).
Local Notation Cell := (@Cell X).
Implicit Types (h : heap) (K : list nat).

Definition ends {A} (m : H A) h (Q : A -> heap -> Prop) : Prop := exists a h', m h = Ok (a, h') /\ Q a h'.
Lemma ends_ret A (a : A) h (Q : A -> heap -> Prop) : Q a h -> ends (d_ret a) h Q.
Proof. intros. exists a, h. auto. Qed.
Lemma ends_bind A B (m : H A) (k : A -> H B) h P Q :
  ends m h P -> (forall a h', P a h' -> ends (k a) h' Q) -> ends (d_bind m k) h Q.
Proof. intros (a & h1 & E & HP) Hk. destruct (Hk _ _ HP) as (b & h2 & E2 & HQ). exists b, h2. unfold d_bind. rewrite E. auto. Qed.
Lemma ends_mono A (m : H A) h (P Q : A -> heap -> Prop) : ends m h P -> (forall a h', P a h' -> Q a h') -> ends m h Q.
Proof. intros (a & h1 & E & HP) HQ. exists a, h1. auto. Qed.
Lemma ends_read h x c : cell_at h x = Some c -> ends (read x) h (fun c' h' => c' = c /\ h' = h).
Proof. intros E. exists c, h. unfold read. rewrite E. auto. Qed.
Lemma ends_write h x oc : ends (write x oc) h (fun _ h' => h' = upd h x oc).
Proof. exists tt, (upd h x oc). auto. Qed.

Local Notation leaf := (@temp_leaf nat X).
Definition bc := @branch_cells X.
Definition weight (n : node) : nat := match branches n with Some _ => 1 | None => 0 end.
Definition oweight (oc : option cell) : nat := match oc with Some c => match value c with Some n => weight n | None => 0 end | None => 0 end.

Lemma bc_upd h x c oc : cell_at h x = Some c -> bc (upd h x oc) + oweight (Some c) = bc h + oweight oc.
Proof.
  intros E. pose proof (of_all_upd (fun n => match branches n with Some _ => [tt] | None => [] end) h x oc E) as P.
  apply Permutation_length in P. rewrite !app_length in P.
  assert (W : forall oc : option cell, length (onto (fun n => match branches n with Some _ => [tt] | None => [] end) oc) = oweight oc).
  { intros [[s w [n|]]|]; cbn; auto. unfold weight. destruct (branches n); auto. }
  rewrite !W in P. exact P.
Qed.
Lemma bc_grow h c : bc (grow h c) = bc h + oweight (Some c).
Proof.
  unfold bc, branch_cells. rewrite of_all_grow, app_length. f_equal. destruct c as [s w [n|]]; cbn; auto. unfold weight. destruct (branches n); auto.
Qed.
Lemma payloads_upd h x c oc : cell_at h x = Some c ->
  Permutation (payloads (upd h x oc) ++ onto payload (Some c)) (payloads h ++ onto payload oc).
Proof. apply of_all_upd. Qed.
Lemma payload_branch (n : node) : branches n <> None -> payload n = [].
Proof. destruct n as [a b|a b|[x|]]; cbn; congruence. Qed.
Lemma kids_leaf (n : node) : branches n = None -> kids n = [].
Proof. unfold kids. intros ->. reflexivity. Qed.

(** A change to a cell that cannot be reached, and no datum value lost. *)
Lemma change_upd K h x c oc : cell_at h x = Some c -> ~ reach h K x -> onto payload (Some c) = onto payload oc ->
  (exists s w v, c = Cell (S s) w v /\ (oc = gone w \/ exists s' v', oc = Some (Cell (S s') w v'))) ->
  change K h (upd h x oc).
Proof.
  intros E HR HP (s & w & v & -> & HO). split.
  - intros y Hy. unfold node_at. rewrite (cell_at_upd _ _ _ _ E). destruct (Nat.eqb_spec y x); [subst; contradiction|reflexivity].
  - split; [cbn; rewrite update_length; lia|]. intros y. rewrite (cell_at_upd _ _ _ _ E). destruct (Nat.eqb_spec y x) as [E0|]; [subst y|].
    + rewrite E. exact HO.
    + apply history_refl.
  - exists []. cbn [dropped upd]. rewrite app_nil_r. split; [reflexivity|]. cbn [app].
    apply (Permutation_app_inv_r (onto payload (Some (Cell (S s) w v)))). rewrite (payloads_upd _ _ oc E), <- HP. reflexivity.
Qed.

Lemma take_facts h K x n : consistent h (x :: K) -> node_at h x = Some n -> refs (x :: K) h x = 1 -> ~ reach h (kids n ++ K) x /\
  count K x = 0 /\ count (edges h) x = 0 /\ count (kids n) x = 0.
Proof.
  intros HC EN HS. rewrite refs_count, count_cons, Nat.eqb_refl in HS.
  assert (HK : count (kids n) x = 0).
  { destruct (count (kids n) x) eqn:E; [reflexivity|]. assert (HI : In x (kids n)) by (apply count_In; lia).
    pose proof (node_at_edges _ _ _ EN HI) as HE. apply count_In in HE. lia. }
  split; [|repeat split; lia]. intros HR. inversion HR as [? HI|? m ? HR' Hx Hy]; subst.
  - apply in_app_or in HI. destruct HI as [HI|HI]; apply count_In in HI; lia.
  - pose proof (node_at_edges _ _ _ Hx Hy) as HI. apply count_In in HI. lia.
Qed.

Ltac counts := intros; repeat rewrite ?count_app, ?count_cons, ?count_nil; cbn [onto value strong ostrong kids temp_leaf branches];
  repeat match goal with |- context [?a =? ?b] => destruct (Nat.eqb_spec a b); subst end; rewrite ?count_nil; try lia.

Lemma change_kids h h' K x n : node_at h x = Some n -> change (x :: K) h h' -> change (kids n ++ K) h h'.
Proof.
  intros EN [F1 F2 F3]. split; auto. intros y HR. apply F1. clear F1.
  induction HR as [y Hy|y m z HR IH Hy Hz]; [|eapply reach_kid; eauto].
  apply in_app_or in Hy. destruct Hy as [Hy|Hy]; [|apply reach_root; right; exact Hy].
  eapply reach_kid; [apply reach_root; left; reflexivity|exact EN|exact Hy].
Qed.

(** ** Operations *)
(** A datum is taken out: in place. *)
Lemma take_in_place h K x n : consistent h (x :: K) -> cell_at h x = Some (Cell 1 0 (Some n)) -> branches n <> None ->
  let h' := upd h x (Some (Cell 1 0 (Some leaf))) in
  consistent h' (x :: kids n ++ K) /\ change (kids n ++ K) h h' /\ S (bc h') = bc h /\ cell_at h' x = Some (Cell 1 0 (Some leaf)).
Proof.
  intros HC E HB h'. assert (EN : node_at h x = Some n) by (unfold node_at; rewrite E; reflexivity).
  assert (HS : refs (x :: K) h x = 1) by (destruct (cons_count HC _ E) as [HS _]; exact (eq_sym HS)).
  destruct (take_facts HC EN HS) as (F1 & F2 & F3 & F4).
  split; [|split; [|split]].
  - eapply consistent_upd; [exact HC|exact E|..].
    + intros c' [= <-]. split; discriminate.
    + counts.
    + left. intros y [].
  - apply change_upd with (c := Cell 1 0 (Some n)); auto.
    + cbn. apply payload_branch. exact HB.
    + exists 0, 0, (Some n). split; [reflexivity|]. right. exists 0, (Some leaf). reflexivity.
  - pose proof (bc_upd _ _ (Some (Cell 1 0 (Some leaf))) E) as P. cbn [oweight value] in P. unfold weight in P. cbn [branches temp_leaf] in P. fold h' in P.
    destruct (branches n); [lia|congruence].
  - unfold h'. rewrite (cell_at_upd _ _ _ _ E), Nat.eqb_refl. reflexivity.
Qed.

(** A datum is moved out of its memory. *)
Lemma unwrap_facts h K x w n : consistent h (x :: K) -> cell_at h x = Some (Cell 1 w (Some n)) -> branches n <> None ->
  let h' := upd h x (gone w) in
  consistent h' (kids n ++ K) /\ change (kids n ++ K) h h' /\ S (bc h') = bc h.
Proof.
  intros HC E HB h'. assert (EN : node_at h x = Some n) by (unfold node_at; rewrite E; reflexivity).
  assert (HS : refs (x :: K) h x = 1) by (destruct (cons_count HC _ E) as [HS _]; exact (eq_sym HS)).
  destruct (take_facts HC EN HS) as (F1 & F2 & F3 & F4).
  assert (G1 : onto (X:=X) kids (gone w) = []) by (destruct w; reflexivity).
  assert (G2 : ostrong (X:=X) (gone w) = 0) by (destruct w; reflexivity).
  assert (G3 : oweight (gone w) = 0) by (destruct w; reflexivity).
  assert (G4 : onto (X:=X) payload (gone w) = []) by (destruct w; reflexivity).
  split; [|split].
  - eapply consistent_upd; [exact HC|exact E|..].
    + intros c' HE. destruct w; cbn in HE; [discriminate|]. injection HE as <-. cbn. tauto.
    + rewrite G1, G2. counts.
    + left. rewrite G1. intros y [].
  - apply change_upd with (c := Cell 1 w (Some n)); auto.
    + rewrite G4. cbn. apply payload_branch. exact HB.
    + exists 0, w, (Some n). auto.
  - pose proof (bc_upd _ _ (gone w) E) as P. rewrite G3 in P. cbn [oweight value] in P. unfold weight in P. fold h' in P.
    destruct (branches n); [lia|congruence].
Qed.

Lemma grow_facts h K : consistent h K ->
  let h' := grow h (Cell 1 0 (Some leaf)) in
  consistent h' (length (cells h) :: K) /\ change K h h' /\ bc h' = bc h /\ cell_at h' (length (cells h)) = Some (Cell 1 0 (Some leaf)).
Proof.
  intros HC h'. split; [|split; [|split]].
  - apply consistent_grow; auto.
  - split.
    + intros x HR. unfold node_at, h'. rewrite cell_at_grow. destruct (Nat.eqb_spec x (length (cells h))) as [E0|]; [subst x|reflexivity].
      pose proof (reach_live HC (incl_refl K) HR) as HI. destruct (consistent_live _ HC HI) as (s & w & v & E). apply cell_at_length in E. lia.
    + split; [cbn; rewrite app_length; lia|]. intros x. unfold h'. rewrite cell_at_grow.
      destruct (Nat.eqb_spec x (length (cells h))) as [E0|]; [subst x|apply history_refl].
      rewrite cell_at_out by lia. right. split; [lia|eauto].
    + exists []. cbn [dropped grow app]. split; [unfold h'; cbn [dropped grow]; rewrite app_nil_r; reflexivity|]. unfold payloads, h'. rewrite of_all_grow. cbn [onto value payload temp_leaf]. rewrite app_nil_r. reflexivity.
  - unfold h'. rewrite bc_grow. cbn. unfold weight. cbn. lia.
  - unfold h'. rewrite cell_at_grow, Nat.eqb_refl. reflexivity.
Qed.

Definition took x K (n : node) h (r : option node * nat) h' : Prop :=
  match r with
  | (Some d, x') => d = n /\ consistent h' (x' :: kids n ++ K) /\ change (kids n ++ K) h h' /\ S (bc h') = bc h /\
      cell_at h' x' = Some (Cell 1 0 (Some leaf))
  | (None, x') => x' = x /\ consistent h' (x :: K) /\ change (x :: K) h h' /\ bc h' = bc h /\ cell_at h' x = cell_at h x /\ refs (x :: K) h x <> 1
  end.

Lemma ends_rc_try_replace h K x n : consistent h (x :: K) -> node_at h x = Some n -> branches n <> None ->
  ends (rc_try_replace x leaf) h (took x K n h).
Proof.
  intros HC EN HB. destruct (consistent_live x HC (or_introl eq_refl)) as (s & w & n' & E).
  assert (n' = n) by (unfold node_at in EN; rewrite E in EN; injection EN; auto). subst n'.
  destruct (grow_facts HC) as (C1 & D1 & B1 & L1). pose proof (cell_at_length _ _ E) as HL.
  set (h1 := grow h (Cell 1 0 (Some leaf))) in *.
  assert (E1 : cell_at h1 x = Some (Cell (S s) w (Some n))).
  { unfold h1. rewrite cell_at_grow. destruct (Nat.eqb_spec x (length (cells h))); [lia|exact E]. }
  unfold rc_try_replace. eapply ends_bind with (P := fun new h' => new = length (cells h) /\ h' = h1); [do 2 eexists; split; [reflexivity|auto]|].
  intros ? ? (-> & ->).
  destruct s as [|s].
  - assert (C1' : consistent h1 (x :: length (cells h) :: K)) by (eapply consistent_perm; [|exact C1]; apply perm_swap).
    destruct (unwrap_facts C1' E1 HB) as (C2 & D2 & B2). set (h2 := upd h1 x (gone w)) in *.
    eapply ends_bind with (P := fun old h' => old = Some n /\ h' = h2).
    { unfold try_unwrap. eapply ends_bind; [apply (ends_read _ _ E1)|]. intros ? ? (-> & ->).
      eapply ends_bind; [apply ends_write|]. intros ? ? ->. apply ends_ret. auto. }
    intros ? ? (-> & ->). apply ends_ret. split; [reflexivity|]. split; [|split; [|split]].
    + eapply consistent_perm; [|exact C2]. symmetry. apply Permutation_middle.
    + eapply change_trans; [eapply change_kids; [exact EN|exact D1]|]. eapply change_incl; [|exact D2].
      intros y HI. apply in_app_or in HI. apply in_or_app. destruct HI; [auto|right; right; auto].
    + lia.
    + unfold h2. rewrite (cell_at_upd _ _ _ _ E1). destruct (Nat.eqb_spec (length (cells h)) x); [lia|]. exact L1.
  - eapply ends_bind with (P := fun old h' => old = None /\ h' = h1).
    { unfold try_unwrap. eapply ends_bind; [apply (ends_read _ _ E1)|]. intros ? ? (-> & ->). apply ends_ret. auto. }
    intros ? ? (-> & ->). set (h2 := upd h1 (length (cells h)) None).
    eapply ends_bind with (P := fun old h' => old = Some leaf /\ h' = h2).
    { unfold try_unwrap. eapply ends_bind; [apply (ends_read _ _ L1)|]. intros ? ? (-> & ->).
      eapply ends_bind; [apply ends_write|]. intros ? ? ->. apply ends_ret. auto. }
    intros ? ? (-> & ->). apply ends_ret. split; [reflexivity|]. split; [|split; [|split; [|split]]].
    + eapply consistent_upd; [exact C1|exact L1|..]; [discriminate|counts|left; intros y []].
    + eapply change_trans; [exact D1|]. apply change_upd with (c := Cell 1 0 (Some leaf)); auto.
      * apply (unreachable C1 L1).
      * do 3 eexists. split; [reflexivity|]. left. reflexivity.
    + pose proof (bc_upd _ _ None L1) as P. cbn [oweight value] in P. unfold weight in P. cbn [branches temp_leaf] in P. fold h2 in P. lia.
    + unfold h2. rewrite (cell_at_upd _ _ _ _ L1). destruct (Nat.eqb_spec x (length (cells h))); [lia|]. rewrite E1, E. reflexivity.
    + destruct (cons_count HC _ E) as [HS _]. cbn [strong] in HS. lia.
Qed.

Lemma ends_trytake arc h K x n : consistent h (x :: K) -> node_at h x = Some n -> branches n <> None ->
  ends (trytake (rc_ops arc) x) h (took x K n h).
Proof.
  intros HC EN HB. unfold trytake. cbn [r_try_replace rc_ops]. destruct arc; [apply ends_rc_try_replace; auto|].
  destruct (consistent_live x HC (or_introl eq_refl)) as (s & w & n' & E).
  assert (n' = n) by (unfold node_at in EN; rewrite E in EN; injection EN; auto). subst n'.
  unfold try_replace_optim. eapply ends_bind; [apply (ends_read _ _ E)|]. intros ? ? (-> & ->). cbn [strong weak].
  destruct s as [|s]; cbn [Nat.eqb].
  - destruct w as [|w]; cbn [Nat.eqb]; [|apply ends_rc_try_replace; auto].
    eapply ends_bind with (P := fun m h' => m = n /\ h' = upd h x (Some (Cell 1 0 (Some leaf)))).
    { unfold get_mut_replace. eapply ends_bind; [apply (ends_read _ _ E)|]. intros ? ? (-> & ->).
      eapply ends_bind; [apply ends_write|]. intros ? ? ->. apply ends_ret. auto. }
    intros ? ? (-> & ->). apply ends_ret. split; [reflexivity|]. apply (take_in_place HC E HB).
  - apply ends_ret. split; [reflexivity|]. split; [exact HC|]. split; [apply change_refl|]. split; [reflexivity|]. split; [reflexivity|].
    destruct (cons_count HC _ E) as [HS _]. cbn [strong] in HS. lia.
Qed.

(** A new datum is put into memory from which the old one was taken. *)
Lemma ends_set h K x n : consistent h (x :: kids n ++ K) -> cell_at h x = Some (Cell 1 0 (Some leaf)) -> branches n <> None ->
  ends (rc_set x n) h (fun x' h' => x' = x /\ consistent h' (x :: K) /\ change K h h' /\ bc h' = S (bc h) /\ node_at h' x = Some n).
Proof.
  intros HC E HB. destruct (unreachable HC E) as (U1 & U2 & U3). rewrite count_app in U2.
  eapply ends_bind with (P := fun m h' => m = leaf /\ h' = upd h x (Some (Cell 1 0 (Some n)))).
  { unfold get_mut_replace. eapply ends_bind; [apply (ends_read _ _ E)|]. intros ? ? (-> & ->).
    eapply ends_bind; [apply ends_write|]. intros ? ? ->. apply ends_ret. auto. }
  intros ? ? (-> & ->). apply ends_ret. split; [reflexivity|]. split; [|split; [|split]].
  - eapply consistent_upd; [exact HC|exact E|..].
    + intros c' [= <-]. split; discriminate.
    + counts.
    + right. split; [exact U3|]. cbn. intros HI. apply count_In in HI. lia.
  - apply change_upd with (c := Cell 1 0 (Some leaf)); auto.
    + intros HR. apply U1. eapply reach_incl; [|exact HR]. intros y Hy. apply in_or_app. auto.
    + cbn. rewrite payload_branch by exact HB. reflexivity.
    + do 3 eexists. split; [reflexivity|]. right. eauto.
  - pose proof (bc_upd _ _ (Some (Cell 1 0 (Some n))) E) as P. cbn [oweight value] in P. unfold weight in P. cbn [branches temp_leaf] in P.
    destruct (branches n); [lia|congruence].
  - unfold node_at. rewrite (cell_at_upd _ _ _ _ E), Nat.eqb_refl. reflexivity.
Qed.

Lemma ends_class arc h x n : node_at h x = Some n -> ends (class_of (rc_ops arc) x) h (fun c h' => c = node_class n /\ h' = h).
Proof.
  unfold node_at. destruct (cell_at h x) as [c|] eqn:E; [|discriminate]. intros EV.
  exists (node_class n), h. split; [|auto]. unfold class_of. cbn [m_bind m_ret direct]. unfold d_bind. cbn [r_deref rc_ops]. unfold deref, d_bind, read. rewrite E, EV. reflexivity.
Qed.

(** ** Selecting a side *)
Definition chosen lock l r (nl nr : node) K h (sel : selection (DR:=nat) (X:=X)) h' : Prop :=
  match sel with
  | inl (Left, d, reuse, oc, other) => d = nl /\ oc = node_class nr /\ other = r /\ branches d <> None /\ (oc = Leaf \/ lock <> Some Right) /\
      consistent h' (reuse :: kids d ++ r :: K) /\ change (kids d ++ r :: K) h h' /\ S (bc h') = bc h /\ cell_at h' reuse = Some (Cell 1 0 (Some leaf))
  | inl (Right, d, reuse, oc, other) => d = nr /\ oc = node_class nl /\ other = l /\ branches d <> None /\ (oc = Leaf \/ lock <> Some Left) /\
      consistent h' (reuse :: kids d ++ l :: K) /\ change (kids d ++ l :: K) h h' /\ S (bc h') = bc h /\ cell_at h' reuse = Some (Cell 1 0 (Some leaf))
  | inr (l', r') => l' = l /\ r' = r /\ consistent h' (l :: r :: K) /\ change (l :: r :: K) h h' /\ bc h' = bc h
  end.

Lemma class_branch (n : node) : node_class n = Branch <-> branches n <> None.
Proof. unfold node_class. destruct (branches n); split; congruence. Qed.

Section Select.
Context (arc : bool) (l r : nat) (nl nr : node) (K : list nat).

Lemma ends_take_left lock h : consistent h (l :: r :: K) -> node_at h l = Some nl ->
  node_class nl = Branch -> (node_class nr = Leaf \/ lock <> Some Right) ->
  ends (take_left (rc_ops arc) (node_class nl) (node_class nr) l r) h (chosen lock l r nl nr K h).
Proof.
  intros HC EN HB HL. apply class_branch in HB. eapply ends_bind; [apply ends_trytake; eassumption|].
  intros [[d|] x'] h' HT; apply ends_ret; unfold chosen.
  - destruct HT as (-> & C & D & B & E). auto 10.
  - destruct HT as (-> & C & D & B & E). auto.
Qed.
Lemma ends_take_right lock h : consistent h (l :: r :: K) -> node_at h r = Some nr ->
  node_class nr = Branch -> (node_class nl = Leaf \/ lock <> Some Left) ->
  ends (take_right (rc_ops arc) (node_class nl) (node_class nr) l r) h (chosen lock l r nl nr K h).
Proof.
  intros HC EN HB HL. apply class_branch in HB.
  assert (HC' : consistent h (r :: l :: K)) by (eapply consistent_perm; [apply perm_swap|exact HC]).
  eapply ends_bind; [apply ends_trytake; eassumption|].
  intros [[d|] x'] h' HT; apply ends_ret; unfold chosen.
  - destruct HT as (-> & C & D & B & E). auto 10.
  - destruct HT as (-> & C & D & B & E). do 2 (split; [reflexivity|]).
    split; [eapply consistent_perm; [apply perm_swap|exact C]|]. split; [|exact B].
    eapply change_incl; [|exact D]. intros y [Hy|[Hy|Hy]]; [right; left|left|right; right]; auto.
Qed.
Lemma ends_take_either h : consistent h (l :: r :: K) -> node_at h l = Some nl -> node_at h r = Some nr ->
  node_class nl = Branch -> node_class nr = Branch ->
  ends (take_either (rc_ops arc) (node_class nl) (node_class nr) l r) h (chosen None l r nl nr K h).
Proof.
  intros HC EL ER HL HR. pose proof (proj1 (class_branch _) HL) as HL'. eapply ends_bind; [apply ends_trytake; eassumption|].
  intros [[d|] x'] h' HT.
  - apply ends_ret. destruct HT as (-> & C & D & B & E). unfold chosen. assert (@None side <> Some Right) by discriminate. auto 10.
  - destruct HT as (-> & C & D & B & E & _).
    assert (ER' : node_at h' r = Some nr) by (rewrite (ch_frame D); [exact ER|apply reach_root; right; left; reflexivity]).
    eapply ends_mono; [apply (ends_take_right (lock := None) C ER' HR); right; discriminate|].
    intros [[[[[[|] d] x] oc] other]|[l' r']] h2 HS; unfold chosen in *.
    + destruct HS as (-> & S1 & S2 & S3 & S4 & S5 & S6 & S7 & S8). do 6 (split; [auto; try congruence|]). split; [|split; [lia|exact S8]].
      eapply change_trans; [eapply change_kids; [exact EL|exact D]|exact S6].
    + destruct HS as (-> & S1 & S2 & S3 & S4 & S5 & S6 & S7 & S8). do 6 (split; [auto; try congruence|]). split; [|split; [lia|exact S8]].
      eapply change_trans; [eapply change_kids; [exact ER|]|exact S6]. eapply change_incl; [|exact D].
      intros y [Hy|[Hy|Hy]]; [right; left|left|right; right]; auto.
    + destruct HS as (-> & -> & S3 & S4 & S5). do 3 (split; [auto|]). split; [|lia]. eapply change_trans; [exact D|exact S4].
Qed.
Lemma ends_select lock h : consistent h (l :: r :: K) -> node_at h l = Some nl -> node_at h r = Some nr ->
  ends (select (rc_ops arc) lock (node_class nl) (node_class nr) l r) h (chosen lock l r nl nr K h).
Proof.
  intros HC EL ER.
  pose proof (fun A B => ends_take_left (lock := lock) HC EL A B) as TL.
  pose proof (fun A B => ends_take_right (lock := lock) HC ER A B) as TR.
  pose proof (fun A B => ends_take_either HC EL ER A B) as TE.
  destruct (node_class nl) eqn:CL, (node_class nr) eqn:CR; destruct lock as [[]|]; cbn [select];
    try (apply TL; auto; try (right; discriminate); fail); try (apply TR; auto; try (right; discriminate); fail);
    try (apply TE; auto; fail); apply ends_ret; unfold chosen; auto using change_refl.
Qed.
End Select.

(** ** Paths to one side *)
Inductive spath h (s : side) : nat -> list nat -> Prop :=
| sp_nil x : spath h s x []
| sp_cons x n l r p : node_at h x = Some n -> branches n = Some (l, r) -> spath h s (match s with Left => l | Right => r end) p -> spath h s x (x :: p).
Definition path_bound h s x m : Prop := forall p, spath h s x p -> length p <= m.

Lemma branches_kids (n : node) l r : branches n = Some (l, r) -> kids n = [l; r].
Proof. unfold kids. intros ->. reflexivity. Qed.
Lemma spath_frame K h h' s x p : frame K h h' -> reach h' K x -> spath h' s x p -> spath h s x p.
Proof.
  intros HF HR HP. revert HR. induction HP as [x|x n l r p E EB HP IH]; intros HR; [constructor|].
  assert (E' : node_at h x = Some n) by (rewrite <- HF; [exact E|eapply frame_reach'; eauto]).
  econstructor; [exact E'|exact EB|]. apply IH.
  eapply reach_kid; [exact HR|exact E|]. rewrite (branches_kids _ EB). destruct s; cbn; auto.
Qed.

Definition branchy (oc : option cell) : bool :=
  match oc with Some c => match value c with Some n => match branches n with Some _ => true | None => false end | None => false end | None => false end.
Lemma count_filter (l : list (option cell)) (k : nat) :
  length (filter (fun x => branchy (match nth_error l (x - k) with Some oc => oc | None => None end)) (seq k (length l))) =
  length (flat_map (onto (fun n => match branches n with Some _ => [tt] | None => [] end)) l).
Proof.
  revert k. induction l as [|oc l IH]; intros k; [reflexivity|]. cbn [length seq filter]. rewrite Nat.sub_diag. cbn [nth_error flat_map].
  rewrite app_length. assert (E : filter (fun x => branchy match nth_error (oc :: l) (x - k) with Some oc0 => oc0 | None => None end) (seq (S k) (length l)) =
    filter (fun x => branchy match nth_error l (x - S k) with Some oc0 => oc0 | None => None end) (seq (S k) (length l))).
  { apply filter_ext_in. intros x Hx. apply in_seq in Hx. replace (x - k) with (S (x - S k)) by lia. reflexivity. }
  destruct (branchy oc) eqn:EB; cbn [length]; rewrite E, IH; destruct oc as [[s w [n|]]|]; cbn in EB |- *; try discriminate; auto; destruct (branches n); auto; discriminate.
Qed.
Lemma path_bound_all K h s x : consistent h K -> path_bound h s x (bc h).
Proof.
  intros HC p HP. destruct HC as [_ _ [rank HA]].
  assert (F : Forall (fun y => rank y <= rank x) p /\ NoDup p /\ Forall (fun y => branchy (cell_at h y) = true) p).
  { induction HP as [x|x n l r p E EB HP IH]; [repeat constructor|].
    assert (HL : rank (match s with Left => l | Right => r end) < rank x).
    { apply (HA _ _ _ E). rewrite (branches_kids _ EB). destruct s; cbn; auto. }
    destruct IH as (I1 & I2 & I3). split; [|split].
    - constructor; [lia|]. eapply Forall_impl; [|exact I1]. cbn. intros. lia.
    - constructor; [|exact I2]. intros HI. rewrite Forall_forall in I1. specialize (I1 _ HI). lia.
    - constructor; [|exact I3]. unfold node_at in E. destruct (cell_at h x) as [[? ? v]|]; [|discriminate]. cbn in E. rewrite E. cbn. rewrite EB. reflexivity. }
  destruct F as (_ & F1 & F2). unfold bc, branch_cells. rewrite of_all_onto, <- (count_filter (cells h) 0).
  apply NoDup_incl_length; [exact F1|]. intros y Hy. rewrite Forall_forall in F2. specialize (F2 _ Hy).
  apply filter_In. rewrite Nat.sub_0_r. split; [|exact F2]. apply in_seq. split; [lia|].
  destruct (cell_at h y) as [c|] eqn:E; [|discriminate]. apply cell_at_length in E. lia.
Qed.
Lemma path_bound_step h s x n l r m : node_at h x = Some n -> branches n = Some (l, r) -> path_bound h s x m ->
  1 <= m /\ path_bound h s (match s with Left => l | Right => r end) (m - 1).
Proof.
  intros E EB HP. assert (H1 : 1 <= m).
  { apply (HP [x]). econstructor; [exact E|exact EB|]. destruct s; constructor. }
  split; [exact H1|]. intros p Hp. specialize (HP (x :: p)). cbn in HP. assert (S (length p) <= m); [|lia].
  apply HP. econstructor; eauto.
Qed.

(** ** The loop *)
Definition after K h (_ : unit) h' : Prop := consistent h' K /\ change K h h' /\ bc h' <= bc h.

Section Loop.
Context (arc : bool) (drop : nat -> H (X:=X) unit) (bound : nat).
Context (HD : forall h K x, consistent h (x :: K) -> bc h < bound -> ends (drop x) h (after K h)).

Definition enough fuel lock h l r : Prop :=
  exists m, S (bc h) * S (bc h) + m + 2 <= fuel /\
    match lock with
    | Some s => path_bound h s (match s with Left => l | Right => r end) m
    | None => bc h <= m
    end.

Lemma rc_loop : forall fuel lock top h K l r, branches top = Some (l, r) -> consistent h (l :: r :: K) -> S (bc h) <= bound ->
  enough fuel lock h l r -> ends (algo1_loop (rc_ops arc) drop fuel lock top) h (after K h).
Proof.
  induction fuel as [|fuel IH]; intros lock top h K l r EB HC HN (m & HF & HM); [lia|].
  assert (NL : exists nl, node_at h l = Some nl).
  { destruct (consistent_live l HC (or_introl eq_refl)) as (s & w & n & E). exists n. unfold node_at. rewrite E. reflexivity. }
  assert (NR : exists nr, node_at h r = Some nr).
  { destruct (consistent_live r HC (or_intror (or_introl eq_refl))) as (s & w & n & E). exists n. unfold node_at. rewrite E. reflexivity. }
  destruct NL as (nl & NL), NR as (nr & NR).
  cbn [algo1_loop]. rewrite EB.
  eapply ends_bind; [apply (ends_class arc _ _ NL)|]. intros ? ? (-> & ->).
  eapply ends_bind; [apply (ends_class arc _ _ NR)|]. intros ? ? (-> & ->).
  eapply ends_bind; [apply (ends_select arc lock HC NL NR)|]. intros sel h1 HS.
  destruct sel as [[[[[[|] d] reuse] oc] other]|[l' r']].
  - destruct HS as (-> & -> & -> & HB & HL & C1 & D1 & B1 & E1). destruct (branches nl) as [[sl sr]|] eqn:EL; [|congruence].
    rewrite (branches_kids _ EL) in C1, D1. cbn [app] in C1, D1. unfold node_class at 1. unfold node_class in HL.
    destruct (branches nr) as [[rl rr]|] eqn:ER.
    + assert (C1' : consistent h1 (reuse :: kids (@NList nat X sr r) ++ sl :: K)).
      { eapply consistent_perm; [|exact C1]. cbn. apply perm_skip. apply (Permutation_middle [sr; r] K sl). }
      assert (HB' : branches (@NList nat X sr r) <> None) by discriminate.
      eapply ends_bind; [apply (ends_set _ _ C1' E1 HB')|]. intros ? h2 (-> & C2 & D2 & B2 & N2).
      assert (D12 : change (sl :: K) h h2).
      { eapply change_trans; [|exact D2]. eapply change_incl; [|exact D1]. intros y [Hy|Hy]; [left|right; right; right]; auto. }
      eapply ends_mono.
      * eapply IH; [reflexivity| |lia|].
        -- eapply consistent_perm; [apply perm_swap|exact C2].
        -- assert (PB : forall k, path_bound h Left l k -> 1 <= k /\ path_bound h2 Left sl (k - 1)).
           { intros k HP. destruct (@path_bound_step _ _ _ _ _ _ _ NL EL HP) as [K1 K2]. split; [exact K1|]. intros p Hp. apply K2.
             eapply spath_frame; [exact (ch_frame D12)|apply reach_root; left; reflexivity|exact Hp]. }
           replace (bc h2) with (bc h) by lia. destruct lock as [[|]|].
           ++ destruct (PB _ HM) as [K1 K2]. exists (m - 1). split; [|exact K2]. replace (bc h2) with (bc h) by lia. lia.
           ++ destruct HL as [HL|HL]; congruence.
           ++ destruct (PB _ (@path_bound_all _ _ Left l HC)) as [K1 K2]. exists (bc h - 1). split; [|exact K2]. replace (bc h2) with (bc h) by lia. lia.
      * intros ? h3 (C3 & D3 & B3). split; [exact C3|]. split; [|lia].
        eapply change_trans; [|exact D3]. eapply change_incl; [|exact D12]. intros y Hy. right. exact Hy.
    + assert (C1' : consistent h1 (r :: reuse :: sl :: sr :: K)).
      { eapply consistent_perm; [|exact C1]. symmetry. apply (Permutation_middle [reuse; sl; sr] K r). }
      eapply ends_bind; [apply (HD C1'); lia|]. intros ? h2 (C2 & D2 & B2).
      eapply ends_bind; [apply (HD C2); lia|]. intros ? h3 (C3 & D3 & B3).
      eapply ends_mono.
      * eapply IH; [exact EL|exact C3|lia|]. exists (bc h3). split; [|lia]. nia.
      * intros ? h4 (C4 & D4 & B4). split; [exact C4|]. split; [|lia].
        eapply change_trans; [eapply change_incl; [|exact D1]|]. { intros y Hy. do 3 right. exact Hy. }
        eapply change_trans; [eapply change_incl; [|exact D2]|]. { intros y Hy. do 3 right. exact Hy. }
        eapply change_trans; [eapply change_incl; [|exact D3]|exact D4]. intros y Hy. do 2 right. exact Hy.
  - destruct HS as (-> & -> & -> & HB & HL & C1 & D1 & B1 & E1). destruct (branches nr) as [[sl sr]|] eqn:ER; [|congruence].
    rewrite (branches_kids _ ER) in C1, D1. cbn [app] in C1, D1. unfold node_class at 1. unfold node_class in HL.
    destruct (branches nl) as [[ll lr]|] eqn:EL.
    + assert (C1' : consistent h1 (reuse :: kids (@NList nat X l sl) ++ sr :: K)).
      { eapply consistent_perm; [|exact C1]. cbn. apply perm_skip. apply (Permutation_trans (l' := sl :: l :: sr :: K)); [|apply perm_swap].
        apply perm_skip, perm_swap. }
      assert (HB' : branches (@NList nat X l sl) <> None) by discriminate.
      eapply ends_bind; [apply (ends_set _ _ C1' E1 HB')|]. intros ? h2 (-> & C2 & D2 & B2 & N2).
      assert (D12 : change (sr :: K) h h2).
      { eapply change_trans; [|exact D2]. eapply change_incl; [|exact D1]. intros y [Hy|Hy]; [right; left|right; right; right]; auto. }
      eapply ends_mono.
      * eapply IH; [reflexivity|exact C2|lia|].
        -- assert (PB : forall k, path_bound h Right r k -> 1 <= k /\ path_bound h2 Right sr (k - 1)).
           { intros k HP. destruct (@path_bound_step _ _ _ _ _ _ _ NR ER HP) as [K1 K2]. split; [exact K1|]. intros p Hp. apply K2.
             eapply spath_frame; [exact (ch_frame D12)|apply reach_root; left; reflexivity|exact Hp]. }
           destruct lock as [[|]|].
           ++ destruct HL as [HL|HL]; congruence.
           ++ destruct (PB _ HM) as [K1 K2]. exists (m - 1). split; [|exact K2]. replace (bc h2) with (bc h) by lia. lia.
           ++ destruct (PB _ (@path_bound_all _ _ Right r HC)) as [K1 K2]. exists (bc h - 1). split; [|exact K2]. replace (bc h2) with (bc h) by lia. lia.
      * intros ? h3 (C3 & D3 & B3). split; [exact C3|]. split; [|lia].
        eapply change_trans; [|exact D3]. eapply change_incl; [|exact D12]. intros y Hy. right. exact Hy.
    + assert (C1' : consistent h1 (l :: reuse :: sl :: sr :: K)).
      { eapply consistent_perm; [|exact C1]. symmetry. apply (Permutation_middle [reuse; sl; sr] K l). }
      eapply ends_bind; [apply (HD C1'); lia|]. intros ? h2 (C2 & D2 & B2).
      eapply ends_bind; [apply (HD C2); lia|]. intros ? h3 (C3 & D3 & B3).
      eapply ends_mono.
      * eapply IH; [exact ER|exact C3|lia|]. exists (bc h3). split; [|lia]. nia.
      * intros ? h4 (C4 & D4 & B4). split; [exact C4|]. split; [|lia].
        eapply change_trans; [eapply change_incl; [|exact D1]|]. { intros y Hy. do 3 right. exact Hy. }
        eapply change_trans; [eapply change_incl; [|exact D2]|]. { intros y Hy. do 3 right. exact Hy. }
        eapply change_trans; [eapply change_incl; [|exact D3]|exact D4]. intros y Hy. do 2 right. exact Hy.
  - destruct HS as (-> & -> & C1 & D1 & B1).
    assert (C1' : consistent h1 (r :: l :: K)) by (eapply consistent_perm; [apply perm_swap|exact C1]).
    eapply ends_bind; [apply (HD C1'); lia|]. intros ? h2 (C2 & D2 & B2).
    eapply ends_mono; [apply (HD C2); lia|]. intros ? h3 (C3 & D3 & B3). split; [exact C3|]. split; [|lia].
    eapply change_trans; [eapply change_incl; [|exact D1]|]. { intros y Hy. do 2 right. exact Hy. }
    eapply change_trans; [eapply change_incl; [|exact D2]|exact D3]. intros y Hy. right. exact Hy.
Qed.
End Loop.

(** A reference to a leaf, or one of several, is dropped. *)
Lemma ends_release_shared h K x s w v : consistent h (x :: K) -> cell_at h x = Some (Cell (S (S s)) w v) ->
  ends (write x (Some (Cell (S s) w v))) h (after K h).
Proof.
  intros HC E. exists tt, (upd h x (Some (Cell (S s) w v))). split; [reflexivity|]. split; [|split].
  - eapply consistent_upd; [exact HC|exact E|..].
    + intros c' [= <-]. cbn. destruct (cons_count HC _ E) as [_ HV]. cbn in HV. destruct v; split; try discriminate. pose proof (proj1 HV eq_refl). discriminate.
    + counts.
    + left. intros y Hy. exact Hy.
  - split.
    + intros y _. unfold node_at. rewrite (cell_at_upd _ _ _ _ E). destruct (Nat.eqb_spec y x); [subst; rewrite E|]; reflexivity.
    + split; [cbn; rewrite update_length; lia|]. intros y. rewrite (cell_at_upd _ _ _ _ E). destruct (Nat.eqb_spec y x); [subst|apply history_refl].
      rewrite E. right. eauto.
    + exists []. rewrite app_nil_r. split; [reflexivity|]. cbn [app].
      apply (Permutation_app_inv_r (onto payload (Some (Cell (S (S s)) w v)))). rewrite (payloads_upd _ _ (Some (Cell (S s) w v)) E). reflexivity.
  - pose proof (bc_upd _ _ (Some (Cell (S s) w v)) E) as P. cbn [oweight value] in P. lia.
Qed.

Lemma ends_release_leaf h K x w (n : node) (m : H unit) : consistent h (x :: K) -> cell_at h x = Some (Cell 1 w (Some n)) -> branches n = None ->
  (forall h, m h = Ok (tt, Heap (cells h) (dropped h ++ payload n))) ->
  ends (d_bind (write x (Some (Cell 0 w None))) (fun _ => d_bind m (fun _ =>
    match w with 0 => write x None | S _ => d_ret tt end))) h (after K h).
Proof.
  intros HC E HB Hm. set (h1 := upd h x (Some (Cell 0 w None))). set (h2 := Heap (cells h1) (dropped h1 ++ payload n)).
  destruct (unreachable HC E) as (U1 & U2 & U3).
  assert (E1 : forall y, cell_at h1 y = if y =? x then Some (Cell 0 w None) else cell_at h y) by (intros; apply (cell_at_upd _ _ _ _ E)).
  assert (C1 : consistent h1 K).
  { eapply consistent_upd; [exact HC|exact E|..].
    - intros c' [= <-]. cbn. tauto.
    - cbn [onto value]. rewrite (kids_leaf _ HB). counts.
    - left. intros y []. }
  assert (C2 : consistent h2 K) by (destruct C1 as [A1 A2 A3]; split; [exact A1|exact A2|exact A3]).
  assert (P2 : Permutation (payload n ++ payloads h2) (payloads h)).
  { pose proof (payloads_upd _ _ (Some (Cell 0 w None)) E) as P. cbn [onto value] in P. rewrite app_nil_r in P.
    rewrite Permutation_app_comm. exact P. }
  assert (B2 : bc h2 <= bc h).
  { pose proof (bc_upd _ _ (Some (Cell 0 w None)) E) as P. cbn [oweight value] in P. change (bc h2) with (bc h1). unfold h1. lia. }
  eapply ends_bind; [apply ends_write|]. intros ? ? ->. fold h1.
  eapply ends_bind with (P := fun _ h' => h' = h2); [exists tt, h2; rewrite Hm; auto|]. intros ? ? ->.
  assert (E2 : cell_at h2 x = Some (Cell 0 w None)) by (change (cell_at h1 x = Some (Cell 0 w None)); rewrite E1, Nat.eqb_refl; reflexivity).
  destruct w as [|w].
  - exists tt, (upd h2 x None). split; [reflexivity|]. split; [|split].
    + eapply consistent_upd; [exact C2|exact E2|..]; [discriminate|counts|left; intros y []].
    + split.
      * intros y HR. unfold node_at. rewrite (cell_at_upd _ _ _ _ E2). change (cell_at h2 y) with (cell_at h1 y). rewrite E1.
        destruct (Nat.eqb_spec y x); [subst; contradiction|reflexivity].
      * split; [cbn; rewrite !update_length; lia|]. intros y. rewrite (cell_at_upd _ _ _ _ E2). change (cell_at h2 y) with (cell_at h1 y). rewrite E1.
        destruct (Nat.eqb_spec y x); [subst; rewrite E; left; reflexivity|apply history_refl].
      * exists (payload n). split; [reflexivity|]. rewrite <- P2. apply Permutation_app_head.
        pose proof (payloads_upd _ _ None E2) as P. cbn [onto value] in P. rewrite !app_nil_r in P. exact P.
    + pose proof (bc_upd _ _ None E2) as P. cbn [oweight value] in P. lia.
  - apply ends_ret. split; [exact C2|]. split; [|exact B2]. split.
    + intros y HR. unfold node_at. change (cell_at h2 y) with (cell_at h1 y). rewrite E1.
      destruct (Nat.eqb_spec y x); [subst; contradiction|reflexivity].
    + split; [cbn; rewrite !update_length; lia|]. intros y. change (cell_at h2 y) with (cell_at h1 y). rewrite E1.
      destruct (Nat.eqb_spec y x); [subst; rewrite E; left; reflexivity|apply history_refl].
    + exists (payload n). split; [reflexivity|exact P2].
Qed.

Theorem rc_drop_after arc fuel : forall depth h K x, consistent h (x :: K) -> bc h < depth -> bc h * bc h + bc h + 1 <= fuel ->
  ends (rc_drop arc fuel depth x) h (after K h).
Proof.
  induction depth as [|depth IH]; intros h K x HC HN HF; [lia|].
  destruct (consistent_live x HC (or_introl eq_refl)) as (s & w & n & E).
  assert (EN : node_at h x = Some n) by (unfold node_at; rewrite E; reflexivity).
  eapply ends_bind with (P := fun x' h' => consistent h' (x' :: K) /\ change K h h' /\ bc h' <= bc h /\
    ((exists n, node_at h' x' = Some n /\ branches n = None) \/ refs (x' :: K) h' x' <> 1)).
  - eapply ends_bind; [apply (ends_class arc _ _ EN)|]. intros ? ? (-> & ->). unfold node_class.
    destruct (branches n) as [[l r]|] eqn:EB.
    2:{ apply ends_ret. split; [exact HC|]. split; [apply change_refl|]. split; [lia|]. eauto. }
    assert (HB : branches n <> None) by congruence.
    eapply ends_bind; [apply (ends_trytake arc HC EN HB)|]. intros [[d|] x'] h1 HT.
    + destruct HT as (-> & C1 & D1 & B1 & E1). rewrite (branches_kids _ EB) in C1, D1. cbn [app] in C1, D1.
      assert (C1' : consistent h1 (l :: r :: x' :: K)).
      { eapply consistent_perm; [|exact C1]. apply (Permutation_middle [l; r] K x'). }
      eapply ends_bind.
      * eapply rc_loop with (bound := bc h) (K := x' :: K); [|exact EB|exact C1'|lia|].
        -- intros h2 K2 y HC2 HN2. apply IH; [exact HC2|lia|nia].
        -- exists (bc h1). split; [|lia]. nia.
      * intros ? h2 (C2 & D2 & B2). apply ends_ret. split; [exact C2|]. split; [|split; [lia|]].
        -- eapply change_trans; [eapply change_incl; [|exact D1]|eapply change_incl; [|exact D2]]; intros y Hy; [do 2 right|right]; exact Hy.
        -- left. exists leaf. split; [|reflexivity]. rewrite (ch_frame D2) by (apply reach_root; left; reflexivity). unfold node_at. rewrite E1. reflexivity.
    + destruct HT as (-> & C1 & D1 & B1 & E1 & R1). apply ends_ret. split; [exact C1|]. split; [|split; [lia|]].
      * eapply change_incl; [|exact D1]. intros y Hy. right. exact Hy.
      * right. destruct (cons_count HC _ E) as [S1 _]. rewrite E in E1. destruct (cons_count C1 _ E1) as [S2 _]. lia.
  - intros x' h1 (C1 & D1 & B1 & HO). destruct (consistent_live x' C1 (or_introl eq_refl)) as (s' & w' & n' & E1).
    eapply ends_bind; [apply (ends_read _ _ E1)|]. intros ? ? (-> & ->).
    assert (G : forall m, ends m h1 (after K h1) -> ends m h1 (after K h)).
    { intros m Hm. eapply ends_mono; [exact Hm|]. intros ? h2 (C2 & D2 & B2). split; [exact C2|]. split; [|lia]. eapply change_trans; eauto. }
    apply G. destruct s' as [|s']; [|apply ends_release_shared; assumption].
    destruct HO as [(n0 & EN0 & HB)|HO].
    + unfold node_at in EN0. rewrite E1 in EN0. injection EN0 as ->.
      eapply (@ends_release_leaf _ _ _ _ _ _ C1 E1 HB). intros h2. destruct n0 as [a b|a b|[v|]]; try discriminate HB; cbn.
      * reflexivity.
      * rewrite app_nil_r. destruct h2; reflexivity.
    + destruct (cons_count C1 _ E1) as [S1 _]. cbn [strong] in S1. congruence.
Qed.

Lemma after_released_many h K1 K u h' : consistent h (K1 ++ K) -> after K h u h' -> released K h h'.
Proof.
  intros HC (C' & [F HH L] & B').
  assert (R : forall y n, node_at h' y = Some n -> reach h K y).
  { intros y n EN. eapply frame_reach'; [exact F|]. eapply all_reachable; eauto. }
  assert (LV : forall y s w v, cell_at h' y = Some (Cell (S s) w v) -> exists n, node_at h' y = Some n).
  { intros y s w v EC. destruct (cons_count C' _ EC) as [_ HV]. cbn in HV. unfold node_at. rewrite EC. cbn.
    destruct v as [n|]; [eauto|]. pose proof (proj1 HV eq_refl). discriminate. }
  split; [exact C'| | | | |exact L].
  - intros y HR. pose proof (F _ HR) as EN. pose proof (reach_live HC (incl_appr K1 (incl_refl K)) HR) as HI.
    destruct (consistent_live _ HC HI) as (s & w & n & EC). exists (S s), w, n. split; [exact EC|].
    unfold node_at in EN. rewrite EC in EN. cbn in EN. destruct (cell_at h' y) as [[s' w' v']|] eqn:EC'; [|discriminate]. cbn in EN. subst v'.
    destruct (cons_count C' _ EC') as [HS _]. cbn in HS. subst s'.
    destruct HH as [_ HH]. specialize (HH y). rewrite EC in HH. destruct HH as [HH|(s' & v & HH)]; rewrite EC' in HH.
    + destruct w; cbn in HH; discriminate.
    + injection HH as _ ->. reflexivity.
  - intros y s w n EC HR. destruct HH as [_ HH]. specialize (HH y). rewrite EC in HH.
    destruct s as [|s].
    + destruct (cons_count HC _ EC) as [_ HV]. cbn in HV. pose proof (proj2 HV eq_refl). discriminate.
    + destruct HH as [HH|(s' & v & HH)]; [exact HH|]. exfalso. destruct (LV _ _ _ _ HH) as (m & EM). apply HR. eapply R. exact EM.
  - intros y s w EC. destruct HH as [_ HH]. specialize (HH y). rewrite EC in HH. destruct s as [|s]; [exact HH|].
    destruct (cons_count HC _ EC) as [_ HV]. cbn in HV. pose proof (proj1 HV eq_refl). discriminate.
  - intros y EC. destruct HH as [_ HH]. specialize (HH y). rewrite EC in HH. destruct HH as [HH|(_ & s & v & HH)]; [exact HH|].
    exfalso. destruct (LV _ _ _ _ HH) as (m & EM). pose proof (R _ _ EM) as HR. pose proof (reach_live HC (incl_appr K1 (incl_refl K)) HR) as HI.
    destruct (consistent_live _ HC HI) as (s0 & w0 & n0 & EC0). congruence.
Qed.
Lemma after_released h K x u h' : consistent h (x :: K) -> after K h u h' -> released K h h'.
Proof. exact (@after_released_many h [x] K u h'). Qed.
End Rc.
