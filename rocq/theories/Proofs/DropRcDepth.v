(** How deep the dropping of counted references recurses at most. *)
From Coq Require Import List Arith Lia Permutation Bool.
From Verif.Model Require Import Prelude Drop DropRc.
From Verif.Spec Require Import Drops.
From Verif.Proofs Require Import HeapFacts DropRcFacts.
Import ListNotations.
Set Implicit Arguments.

Section Depth.
Context {X : Type}.
Local Notation heap := (heap X).
Local Notation cell := (cell X).
Local Notation node := (node nat X).
Local Notation Cell := (@Cell X).
Local Notation leaf := (@temp_leaf nat X).
Local Notation bc := (@bc X).
Implicit Types (h : heap) (K : list nat).

Lemma ends_and A (m : H A) h (P Q : A -> heap -> Prop) : ends m h P -> ends m h Q -> ends m h (fun a h' => P a h' /\ Q a h').
Proof. intros (a & h' & E & HP) (b & h'' & E' & HQ). rewrite E in E'. injection E' as <- <-. exists a, h'. auto. Qed.

(** ** Shared branches *)
Definition shb h (y : nat) : bool := shared_branch h y.
Definition wt h (l : list nat) : nat := length (filter (shb h) l).
Definition less h h' : Prop := forall y, shb h' y = true -> shb h y = true.

Lemma wt_app h l l' : wt h (l ++ l') = wt h l + wt h l'.
Proof. unfold wt. rewrite filter_app, app_length. reflexivity. Qed.
Lemma wt_cons h y l : wt h (y :: l) = wt h [y] + wt h l.
Proof. apply (wt_app h [y] l). Qed.
Lemma wt_perm h l l' : Permutation l l' -> wt h l = wt h l'.
Proof.
  intros P. induction P as [|x l l' P IH|x y l|l1 l2 l3 P1 IH1 P2 IH2]; [reflexivity| | |congruence].
  - rewrite wt_cons, (wt_cons h x l'). lia.
  - change (y :: x :: l) with ([y] ++ [x] ++ l). change (x :: y :: l) with ([x] ++ [y] ++ l). rewrite !wt_app. lia.
Qed.
Lemma wt_less h h' l : less h h' -> wt h' l <= wt h l.
Proof.
  intros HL. induction l as [|y l IH]; [reflexivity|]. unfold wt in *. cbn. specialize (HL y).
  destruct (shb h' y); [rewrite HL by reflexivity; cbn; lia|]. destruct (shb h y); cbn; lia.
Qed.
Lemma less_refl h : less h h. Proof. intros y. auto. Qed.
Lemma less_trans h1 h2 h3 : less h1 h2 -> less h2 h3 -> less h1 h3.
Proof. intros A B y HY. apply A, B, HY. Qed.

Lemma shb_unique h x w v : cell_at h x = Some (Cell 1 w v) -> shb h x = false.
Proof. intros E. unfold shb, shared_branch. rewrite E. reflexivity. Qed.
Lemma wt_false h x : shb h x = false -> wt h [x] = 0.
Proof. unfold wt. cbn. intros ->. reflexivity. Qed.
Lemma wt_true h x : shb h x = true -> wt h [x] = 1.
Proof. unfold wt. cbn. intros ->. reflexivity. Qed.

(** Only the changed cell matters. *)
Lemma less_upd h x c oc : cell_at h x = Some c ->
  (forall c', oc = Some c' -> strong c' <= 1 \/ (value c' = value c /\ strong c' <= strong c)) -> less h (upd h x oc).
Proof.
  intros E HO y. unfold shb, shared_branch. rewrite (cell_at_upd _ _ _ _ E). destruct (Nat.eqb_spec y x) as [->|]; [|auto].
  rewrite E. destruct oc as [[s w v]|]; [|discriminate]. destruct c as [s0 w0 v0]. specialize (HO _ eq_refl). cbn in HO.
  destruct s as [|[|s]]; try discriminate. destruct HO as [HO|[-> HO]]; [lia|]. destruct s0 as [|[|s0]]; [lia|lia|]. auto.
Qed.
Lemma less_grow h n : less h (grow h (Cell 1 0 (Some n))).
Proof. intros y. unfold shb, shared_branch. rewrite cell_at_grow. destruct (y =? _); [discriminate|auto]. Qed.

(** ** The references in the datums that others cannot reach *)
Section Others.
Context (p : nat -> bool).
Definition Ep h : list nat := flat_map (fun x => if p x then [] else onto kids (cell_at h x)) (seq 0 (length (cells h))).
Definition T h : nat := wt h (Ep h).

Lemma flat_map_same A (f g : nat -> list A) l : (forall x, In x l -> f x = g x) -> flat_map f l = flat_map g l.
Proof. intros HE. induction l as [|x l IH]; [reflexivity|]. cbn. rewrite HE, IH; cbn; auto. intros y Hy. apply HE. cbn. auto. Qed.
Lemma Ep_same h x c oc : cell_at h x = Some c -> onto kids oc = onto kids (Some c) -> Ep (upd h x oc) = Ep h.
Proof.
  intros E HK. unfold Ep. cbn [cells upd]. rewrite update_length. apply flat_map_same. intros y _.
  rewrite (cell_at_upd _ _ _ _ E). destruct (Nat.eqb_spec y x) as [->|]; [rewrite E, HK|]; reflexivity.
Qed.
Lemma Ep_grow h : Ep (grow h (Cell 1 0 (Some leaf))) = Ep h.
Proof.
  unfold Ep. cbn [cells grow]. rewrite app_length, seq_app, flat_map_app. cbn [length seq flat_map Nat.add].
  rewrite cell_at_grow, Nat.eqb_refl. cbn [onto value kids temp_leaf branches].
  assert (EE : (if p (length (cells h)) then @nil nat else []) = []) by (destruct (p _); reflexivity).
  rewrite EE. cbn [app]. rewrite app_nil_r. apply flat_map_same. intros y Hy. apply in_seq in Hy.
  rewrite cell_at_grow, (proj2 (Nat.eqb_neq _ _)) by lia. reflexivity.
Qed.
Lemma Ep_upd h x c oc : cell_at h x = Some c -> p x = false ->
  Permutation (Ep (upd h x oc) ++ onto kids (Some c)) (Ep h ++ onto kids oc).
Proof.
  intros E HP. pose proof (cell_at_length _ _ E) as HL. unfold Ep. cbn [cells upd]. rewrite update_length.
  assert (EL : length (cells h) = x + S (length (cells h) - S x)) by lia. rewrite EL, seq_app, !flat_map_app. cbn [seq flat_map Nat.add].
  rewrite (@cell_at_upd _ _ _ _ oc x E), Nat.eqb_refl, HP, E.
  assert (E1 : forall l, ~ In x l -> flat_map (fun y => if p y then [] else onto kids (cell_at (upd h x oc) y)) l =
    flat_map (fun y => if p y then [] else onto kids (cell_at h y)) l).
  { intros l HI. apply flat_map_same. intros y Hy. rewrite (cell_at_upd _ _ _ _ E). destruct (Nat.eqb_spec y x); [subst; contradiction|reflexivity]. }
  rewrite !E1 by (intros HI; apply in_seq in HI; lia).
  set (A := flat_map _ (seq 0 x)). set (B := flat_map _ (seq (S x) _)). set (u := onto kids oc). set (v := onto kids (Some c)).
  rewrite <- !app_assoc. apply Permutation_app_head.
  rewrite (Permutation_app_comm B v), (Permutation_app_comm B u), !app_assoc. apply Permutation_app_tail, Permutation_app_comm.
Qed.

Context (K0 : list nat).
Definition shielded h : Prop := forall x, p x = true -> reach h K0 x.
Lemma shielded_change K h h' : incl K0 K -> change K h h' -> shielded h -> shielded h'.
Proof. intros HI HC HS x Hx. eapply frame_reach; [eapply frame_incl; [exact HI|exact (ch_frame HC)]|]. auto. Qed.
Lemma not_shielded h K x : shielded h -> incl K0 K -> ~ reach h K x -> p x = false.
Proof. intros HS HI HR. destruct (p x) eqn:E; [|reflexivity]. exfalso. apply HR. eapply reach_incl; [exact HI|]. auto. Qed.

(** ** Operations *)
Definition took_t (n : node) h (r : option node * nat) h' : Prop :=
  less h h' /\
  match fst r with
  | Some _ => T h' + wt h' (kids n) <= T h
  | None => T h' <= T h
  end.

Lemma upd_take h x w n oc : p x = false -> cell_at h x = Some (Cell 1 w (Some n)) -> onto kids oc = [] ->
  (forall c', oc = Some c' -> strong c' <= 1) ->
  less h (upd h x oc) /\ T (upd h x oc) + wt (upd h x oc) (kids n) <= T h.
Proof.
  intros HP E HK HO. assert (L : less h (upd h x oc)).
  { eapply less_upd; [exact E|]. intros c' ->. left. auto. }
  split; [exact L|]. unfold T. rewrite <- wt_app. etransitivity; [apply (wt_less _ L)|].
  pose proof (@Ep_upd _ _ _ oc E HP) as P. rewrite HK, app_nil_r in P. cbn [onto value] in P. rewrite (wt_perm h P). lia.
Qed.

Lemma rc_try_replace_t h K x n : consistent h (x :: K) -> shielded h -> incl K0 K -> node_at h x = Some n -> branches n <> None ->
  ends (rc_try_replace x leaf) h (took_t n h).
Proof.
  intros HC HS HI EN HB. destruct (consistent_live x HC (or_introl eq_refl)) as (s & w & n' & E).
  assert (n' = n) by (unfold node_at in EN; rewrite E in EN; injection EN; auto). subst n'.
  destruct (grow_facts HC) as (C1 & D1 & B1 & L1). pose proof (cell_at_length _ _ E) as HL.
  set (h1 := grow h (Cell 1 0 (Some leaf))) in *.
  assert (G1 : less h h1) by apply less_grow.
  assert (G2 : T h1 <= T h) by (unfold T, h1 at 2; rewrite Ep_grow; apply wt_less; exact G1).
  assert (E1 : cell_at h1 x = Some (Cell (S s) w (Some n))).
  { unfold h1. rewrite cell_at_grow. destruct (Nat.eqb_spec x (length (cells h))); [lia|exact E]. }
  unfold rc_try_replace. eapply ends_bind with (P := fun new h' => new = length (cells h) /\ h' = h1); [do 2 eexists; split; [reflexivity|auto]|].
  intros ? ? (-> & ->).
  destruct s as [|s].
  - assert (HP : p x = false) by (apply (not_shielded HS HI), (unreachable HC E)).
    destruct (@upd_take h1 x w n (gone w) HP E1) as (M1 & M2); [destruct w; reflexivity|destruct w; intros c' [=]; subst; cbn; lia|].
    set (h2 := upd h1 x (gone w)) in *.
    eapply ends_bind with (P := fun old h' => old = Some n /\ h' = h2).
    { unfold try_unwrap. eapply ends_bind; [apply (ends_read _ _ E1)|]. intros ? ? (-> & ->).
      eapply ends_bind; [apply ends_write|]. intros ? ? ->. apply ends_ret. auto. }
    intros ? ? (-> & ->). apply ends_ret. split; [eapply less_trans; eauto|]. cbn [fst]. lia.
  - eapply ends_bind with (P := fun old h' => old = None /\ h' = h1).
    { unfold try_unwrap. eapply ends_bind; [apply (ends_read _ _ E1)|]. intros ? ? (-> & ->). apply ends_ret. auto. }
    intros ? ? (-> & ->). set (h2 := upd h1 (length (cells h)) None).
    assert (M1 : less h1 h2) by (eapply less_upd; [exact L1|]; discriminate).
    assert (M2 : T h2 <= T h1) by (unfold T, h2 at 2; rewrite (@Ep_same _ _ _ None L1 eq_refl); apply wt_less; exact M1).
    eapply ends_bind with (P := fun old h' => old = Some leaf /\ h' = h2).
    { unfold try_unwrap. eapply ends_bind; [apply (ends_read _ _ L1)|]. intros ? ? (-> & ->).
      eapply ends_bind; [apply ends_write|]. intros ? ? ->. apply ends_ret. auto. }
    intros ? ? (-> & ->). apply ends_ret. split; [eapply less_trans; eauto|]. cbn [fst]. lia.
Qed.

Lemma trytake_t arc h K x n : consistent h (x :: K) -> shielded h -> incl K0 K -> node_at h x = Some n -> branches n <> None ->
  ends (trytake (rc_ops arc) x) h (took_t n h).
Proof.
  intros HC HS HI EN HB. unfold trytake. cbn [r_try_replace rc_ops]. destruct arc; [eapply rc_try_replace_t; eauto|].
  destruct (consistent_live x HC (or_introl eq_refl)) as (s & w & n' & E).
  assert (n' = n) by (unfold node_at in EN; rewrite E in EN; injection EN; auto). subst n'.
  unfold try_replace_optim. eapply ends_bind; [apply (ends_read _ _ E)|]. intros ? ? (-> & ->). cbn [strong weak].
  destruct s as [|s]; cbn [Nat.eqb].
  - destruct w as [|w]; cbn [Nat.eqb]; [|eapply rc_try_replace_t; eauto].
    assert (HP : p x = false) by (apply (not_shielded HS HI), (unreachable HC E)).
    eapply ends_bind with (P := fun m h' => m = n /\ h' = upd h x (Some (Cell 1 0 (Some leaf)))).
    { unfold get_mut_replace. eapply ends_bind; [apply (ends_read _ _ E)|]. intros ? ? (-> & ->).
      eapply ends_bind; [apply ends_write|]. intros ? ? ->. apply ends_ret. auto. }
    intros ? ? (-> & ->). apply ends_ret.
    destruct (@upd_take h x 0 n (Some (Cell 1 0 (Some leaf))) HP E eq_refl) as (M1 & M2); [intros c' [= <-]; cbn; lia|].
    split; [exact M1|exact M2].
  - apply ends_ret. split; [apply less_refl|]. cbn [fst]. lia.
Qed.

Lemma set_t h K x n : consistent h (x :: kids n ++ K) -> shielded h -> incl K0 K -> cell_at h x = Some (Cell 1 0 (Some leaf)) ->
  ends (rc_set x n) h (fun _ h' => less h h' /\ T h' <= T h + wt h (kids n) /\ shb h' x = false).
Proof.
  intros HC HS HI E. assert (HP : p x = false).
  { apply (not_shielded (K := kids n ++ K) HS); [|apply (unreachable HC E)]. intros y Hy. apply in_or_app. auto. }
  eapply ends_bind with (P := fun m h' => m = leaf /\ h' = upd h x (Some (Cell 1 0 (Some n)))).
  { unfold get_mut_replace. eapply ends_bind; [apply (ends_read _ _ E)|]. intros ? ? (-> & ->).
    eapply ends_bind; [apply ends_write|]. intros ? ? ->. apply ends_ret. auto. }
  intros ? ? (-> & ->). apply ends_ret. set (h' := upd h x (Some (Cell 1 0 (Some n)))).
  assert (L : less h h') by (eapply less_upd; [exact E|]; intros c' [= <-]; left; cbn; lia).
  split; [exact L|]. split.
  - unfold T. rewrite <- wt_app. etransitivity; [apply (wt_less _ L)|].
    pose proof (@Ep_upd _ _ _ (Some (Cell 1 0 (Some n))) E HP) as P. cbn [onto value kids temp_leaf branches] in P. rewrite app_nil_r in P.
    fold h' in P. rewrite (wt_perm h P). apply Nat.le_refl.
  - apply (@shb_unique h' x 0 (Some n)). unfold h'. rewrite (cell_at_upd _ _ _ _ E), Nat.eqb_refl. reflexivity.
Qed.

(** ** Selecting a side *)
Definition chosen_t l r (nl nr : node) h (sel : selection (DR:=nat) (X:=X)) h' : Prop :=
  less h h' /\
  match sel with
  | inl (_, d, _, _, _) => T h' + wt h' (kids d) <= T h
  | inr _ => T h' <= T h /\ ((branches nl = None /\ branches nr = None) \/ 1 <= wt h [l] + wt h [r])
  end.

Lemma failed_shared h K x n : consistent h (x :: K) -> node_at h x = Some n -> branches n <> None -> refs (x :: K) h x <> 1 -> wt h [x] = 1.
Proof.
  intros HC EN HB HR. destruct (consistent_live x HC (or_introl eq_refl)) as (s & w & n' & E).
  assert (n' = n) by (unfold node_at in EN; rewrite E in EN; injection EN; auto). subst n'.
  destruct (cons_count HC _ E) as [HS _]. cbn [strong] in HS. apply wt_true. unfold shb, shared_branch. rewrite E.
  destruct s as [|s]; [congruence|]. destruct (branches n); congruence.
Qed.

Section Select.
Context (arc : bool) (l r : nat) (nl nr : node) (K : list nat) (HK : incl K0 K).

Lemma take_left_t h : consistent h (l :: r :: K) -> shielded h -> node_at h l = Some nl -> branches nl <> None ->
  ends (take_left (rc_ops arc) (node_class nl) (node_class nr) l r) h (chosen_t l r nl nr h).
Proof.
  intros HC HS EN HB. assert (HI : incl K0 (r :: K)) by (intros y Hy; right; auto).
  eapply ends_bind; [apply ends_and; [apply (ends_trytake arc HC EN HB)|apply (trytake_t arc HC HS HI EN HB)]|].
  intros [[d|] x'] h' (HT & HL & HW); cbn [fst] in HW; apply ends_ret; split; try exact HL.
  - destruct HT as (-> & _). exact HW.
  - destruct HT as (-> & _ & _ & _ & _ & R1). split; [exact HW|]. right. rewrite (failed_shared HC EN HB R1). lia.
Qed.
Lemma take_right_t h : consistent h (l :: r :: K) -> shielded h -> node_at h r = Some nr -> branches nr <> None ->
  ends (take_right (rc_ops arc) (node_class nl) (node_class nr) l r) h (chosen_t l r nl nr h).
Proof.
  intros HC HS EN HB. assert (HI : incl K0 (l :: K)) by (intros y Hy; right; auto).
  assert (HC' : consistent h (r :: l :: K)) by (eapply consistent_perm; [apply perm_swap|exact HC]).
  eapply ends_bind; [apply ends_and; [apply (ends_trytake arc HC' EN HB)|apply (trytake_t arc HC' HS HI EN HB)]|].
  intros [[d|] x'] h' (HT & HL & HW); cbn [fst] in HW; apply ends_ret; split; try exact HL.
  - destruct HT as (-> & _). exact HW.
  - destruct HT as (-> & _ & _ & _ & _ & R1). split; [exact HW|]. right. rewrite (failed_shared HC' EN HB R1). lia.
Qed.
Lemma take_either_t h : consistent h (l :: r :: K) -> shielded h -> node_at h l = Some nl -> node_at h r = Some nr ->
  branches nl <> None -> branches nr <> None ->
  ends (take_either (rc_ops arc) (node_class nl) (node_class nr) l r) h (chosen_t l r nl nr h).
Proof.
  intros HC HS EL ER HL HR. assert (HI : incl K0 (r :: K)) by (intros y Hy; right; auto).
  eapply ends_bind; [apply ends_and; [apply (ends_trytake arc HC EL HL)|apply (trytake_t arc HC HS HI EL HL)]|].
  intros [[d|] x'] h' (HT & HLs & HW); cbn [fst] in HW.
  - apply ends_ret. split; [exact HLs|]. destruct HT as (-> & _). exact HW.
  - destruct HT as (-> & C & D & B & E & R1).
    assert (ER' : node_at h' r = Some nr) by (rewrite (ch_frame D); [exact ER|apply reach_root; right; left; reflexivity]).
    assert (HS' : shielded h') by (eapply shielded_change; [|exact D|exact HS]; intros y Hy; do 2 right; auto).
    pose proof (failed_shared HC EL HL R1) as W1.
    eapply ends_mono; [apply (take_right_t C HS' ER' HR)|].
    intros sel h2 (L2 & HS2). split; [eapply less_trans; eauto|].
    destruct sel as [[[[[? d] ?] ?] ?]|?]; [lia|]. destruct HS2 as (HS2 & _). split; [lia|]. right. lia.
Qed.
Lemma select_t lock h : consistent h (l :: r :: K) -> shielded h -> node_at h l = Some nl -> node_at h r = Some nr ->
  ends (select (rc_ops arc) lock (node_class nl) (node_class nr) l r) h (chosen_t l r nl nr h).
Proof.
  intros HC HS EL ER.
  pose proof (take_left_t HC HS EL) as TL. pose proof (take_right_t HC HS ER) as TR. pose proof (take_either_t HC HS EL ER) as TE.
  rewrite <- !class_branch in *.
  assert (LF : node_class nl = Leaf -> branches nl = None) by (unfold node_class; destruct (branches nl); congruence).
  assert (RF : node_class nr = Leaf -> branches nr = None) by (unfold node_class; destruct (branches nr); congruence).
  destruct (node_class nl) eqn:CL, (node_class nr) eqn:CR; destruct lock as [[]|]; cbn [select];
    try (apply TL; auto; fail); try (apply TR; auto; fail); try (apply TE; auto; fail);
    apply ends_ret; split; try apply less_refl; auto.
Qed.
End Select.

(** ** The loop *)
(** The depth needed for one reference. *)
Definition dneed h x : nat :=
  match node_at h x with Some n => match branches n with Some _ => 2 + T h | None => 1 end | None => 1 end.
Lemma dneed_le h x : dneed h x <= 2 + T h.
Proof. unfold dneed. destruct (node_at h x) as [n|]; [destruct (branches n)|]; lia. Qed.
Lemma dneed_leaf h x n : node_at h x = Some n -> branches n = None -> dneed h x = 1.
Proof. unfold dneed. intros -> ->. reflexivity. Qed.
Definition after_t K h (u : unit) h' : Prop := after K h u h' /\ less h h' /\ T h' <= T h.

Section Loop.
Context (arc : bool) (drop : nat -> H (X:=X) unit) (bound b : nat).
Context (HD : forall h K x, consistent h (x :: K) -> shielded h -> incl K0 K -> bc h <= bound -> dneed h x <= b ->
  ends (drop x) h (after_t K h)).

Lemma rc_loop_t : forall fuel lock top h K l r, branches top = Some (l, r) -> consistent h (l :: r :: K) ->
  shielded h -> incl K0 K -> S (bc h) <= bound -> 1 + T h + wt h [l] + wt h [r] <= b ->
  enough fuel lock h l r -> ends (algo1_loop (rc_ops arc) drop fuel lock top) h
    (fun u h' => after K h u h' /\ less h h' /\ T h' <= T h + wt h [l] + wt h [r]).
Proof.
  induction fuel as [|fuel IH]; intros lock top h K l r EB HC HS HI HN HW (m & HF & HM); [lia|].
  assert (NL : exists nl, node_at h l = Some nl).
  { destruct (consistent_live l HC (or_introl eq_refl)) as (s & w & n & E). exists n. unfold node_at. rewrite E. reflexivity. }
  assert (NR : exists nr, node_at h r = Some nr).
  { destruct (consistent_live r HC (or_intror (or_introl eq_refl))) as (s & w & n & E). exists n. unfold node_at. rewrite E. reflexivity. }
  destruct NL as (nl & NL), NR as (nr & NR).
  cbn [algo1_loop]. rewrite EB.
  eapply ends_bind; [apply (ends_class arc _ _ NL)|]. intros ? ? (-> & ->).
  eapply ends_bind; [apply (ends_class arc _ _ NR)|]. intros ? ? (-> & ->).
  eapply ends_bind; [apply ends_and; [apply (ends_select arc lock HC NL NR)|apply (select_t arc HI lock HC HS NL NR)]|].
  intros sel h1 (HSel & HL1 & HW1).
  destruct sel as [[[[[[|] d] reuse] oc] other]|[l' r']].
  - destruct HSel as (-> & -> & -> & HB & HL & C1 & D1 & B1 & E1). destruct (branches nl) as [[sl sr]|] eqn:EL; [|congruence].
    rewrite (branches_kids _ EL) in C1, D1, HW1. cbn [app] in C1, D1. unfold node_class at 1. unfold node_class in HL.
    assert (HS1 : shielded h1) by (eapply shielded_change; [|exact D1|exact HS]; intros y Hy; do 3 right; auto).
    rewrite wt_cons in HW1.
    destruct (branches nr) as [[rl rr]|] eqn:ER.
    + assert (C1' : consistent h1 (reuse :: kids (@NList nat X sr r) ++ sl :: K)).
      { eapply consistent_perm; [|exact C1]. cbn. apply perm_skip. apply (Permutation_middle [sr; r] K sl). }
      assert (HB' : branches (@NList nat X sr r) <> None) by discriminate.
      assert (HI1 : incl K0 (sl :: K)) by (intros y Hy; right; auto).
      eapply ends_bind; [apply ends_and; [apply (ends_set _ _ C1' E1 HB')|apply (set_t _ C1' HS1 HI1 E1)]|].
      intros ? h2 ((-> & C2 & D2 & B2 & N2) & L2 & W2 & U2). cbn [kids branches] in W2. rewrite wt_cons in W2. apply wt_false in U2.
      assert (D12 : change (sl :: K) h h2).
      { eapply change_trans; [|exact D2]. eapply change_incl; [|exact D1]. intros y [Hy|Hy]; [left|right; right; right]; auto. }
      pose proof (wt_less [r] HL1). pose proof (wt_less [sl] L2).
      assert (HN2 : 1 + T h2 + wt h2 [sl] + wt h2 [reuse] <= b) by lia.
      eapply ends_mono.
      * eapply IH; [reflexivity| | | |lia|exact HN2|].
        -- eapply consistent_perm; [apply perm_swap|exact C2].
        -- eapply shielded_change; [|exact D2|exact HS1]. exact HI1.
        -- exact HI.
        -- assert (PB : forall k, path_bound h Left l k -> 1 <= k /\ path_bound h2 Left sl (k - 1)).
           { intros k HP. destruct (@path_bound_step _ _ _ _ _ _ _ _ NL EL HP) as [K1 K2]. split; [exact K1|]. intros q Hq. apply K2.
             eapply spath_frame; [exact (ch_frame D12)|apply reach_root; left; reflexivity|exact Hq]. }
           replace (bc h2) with (bc h) by lia. destruct lock as [[|]|].
           ++ destruct (PB _ HM) as [K1 K2]. exists (m - 1). split; [|exact K2]. replace (bc h2) with (bc h) by lia. lia.
           ++ destruct HL as [HL|HL]; congruence.
           ++ destruct (PB _ (@path_bound_all _ _ _ Left l HC)) as [K1 K2]. exists (bc h - 1). split; [|exact K2]. replace (bc h2) with (bc h) by lia. lia.
      * intros ? h3 ((C3 & D3 & B3) & L3 & W3). split; [split; [exact C3|]; split; [|lia]|].
        -- eapply change_trans; [|exact D3]. eapply change_incl; [|exact D12]. intros y Hy. right. exact Hy.
        -- split; [eapply less_trans; [exact HL1|]; eapply less_trans; eauto|]. lia.
    + assert (C1' : consistent h1 (r :: reuse :: sl :: sr :: K)).
      { eapply consistent_perm; [|exact C1]. symmetry. apply (Permutation_middle [reuse; sl; sr] K r). }
      assert (NR1 : node_at h1 r = Some nr) by (rewrite (ch_frame D1); [exact NR|apply reach_root; do 2 right; left; reflexivity]).
      eapply ends_bind; [apply (HD C1' HS1); [intros y Hy; do 3 right; auto|lia|rewrite (@dneed_leaf _ _ _ NR1 ER); lia]|].
      intros ? h2 ((C2 & D2 & B2) & L2 & W2).
      assert (HS2 : shielded h2) by (eapply shielded_change; [|exact D2|exact HS1]; intros y Hy; do 3 right; auto).
      assert (NU2 : node_at h2 reuse = Some leaf).
      { rewrite (ch_frame D2) by (apply reach_root; left; reflexivity). unfold node_at. rewrite E1. reflexivity. }
      eapply ends_bind; [apply (HD C2 HS2); [intros y Hy; do 2 right; auto|lia|rewrite (@dneed_leaf _ _ _ NU2 eq_refl); lia]|].
      intros ? h3 ((C3 & D3 & B3) & L3 & W3).
      assert (HS3 : shielded h3) by (eapply shielded_change; [|exact D3|exact HS2]; intros y Hy; do 2 right; auto).
      pose proof (wt_less [sl] (less_trans L2 L3)). pose proof (wt_less [sr] (less_trans L2 L3)).
      assert (HN3 : 1 + T h3 + wt h3 [sl] + wt h3 [sr] <= b) by lia.
      eapply ends_mono.
      * eapply IH; [exact EL|exact C3|exact HS3|exact HI|lia|exact HN3|]. exists (bc h3). split; [|lia]. nia.
      * intros ? h4 ((C4 & D4 & B4) & L4 & W4). split; [split; [exact C4|]; split; [|lia]|].
        -- eapply change_trans; [eapply change_incl; [|exact D1]|]. { intros y Hy. do 3 right. exact Hy. }
           eapply change_trans; [eapply change_incl; [|exact D2]|]. { intros y Hy. do 3 right. exact Hy. }
           eapply change_trans; [eapply change_incl; [|exact D3]|exact D4]. intros y Hy. do 2 right. exact Hy.
        -- split; [eapply less_trans; [exact HL1|]; eapply less_trans; [exact L2|]; eapply less_trans; eauto|]. lia.
  - destruct HSel as (-> & -> & -> & HB & HL & C1 & D1 & B1 & E1). destruct (branches nr) as [[sl sr]|] eqn:ER; [|congruence].
    rewrite (branches_kids _ ER) in C1, D1, HW1. cbn [app] in C1, D1. unfold node_class at 1. unfold node_class in HL.
    assert (HS1 : shielded h1) by (eapply shielded_change; [|exact D1|exact HS]; intros y Hy; do 3 right; auto).
    rewrite wt_cons in HW1.
    destruct (branches nl) as [[ll lr]|] eqn:EL.
    + assert (C1' : consistent h1 (reuse :: kids (@NList nat X l sl) ++ sr :: K)).
      { eapply consistent_perm; [|exact C1]. cbn. apply perm_skip. apply (Permutation_trans (l' := sl :: l :: sr :: K)); [|apply perm_swap].
        apply perm_skip, perm_swap. }
      assert (HB' : branches (@NList nat X l sl) <> None) by discriminate.
      assert (HI1 : incl K0 (sr :: K)) by (intros y Hy; right; auto).
      eapply ends_bind; [apply ends_and; [apply (ends_set _ _ C1' E1 HB')|apply (set_t _ C1' HS1 HI1 E1)]|].
      intros ? h2 ((-> & C2 & D2 & B2 & N2) & L2 & W2 & U2). cbn [kids branches] in W2. rewrite wt_cons in W2. apply wt_false in U2.
      assert (D12 : change (sr :: K) h h2).
      { eapply change_trans; [|exact D2]. eapply change_incl; [|exact D1]. intros y [Hy|Hy]; [right; left|right; right; right]; auto. }
      pose proof (wt_less [l] HL1). pose proof (wt_less [sr] L2).
      assert (HN2 : 1 + T h2 + wt h2 [reuse] + wt h2 [sr] <= b) by lia.
      eapply ends_mono.
      * eapply IH; [reflexivity|exact C2| |exact HI|lia|exact HN2|].
        -- eapply shielded_change; [|exact D2|exact HS1]. exact HI1.
        -- assert (PB : forall k, path_bound h Right r k -> 1 <= k /\ path_bound h2 Right sr (k - 1)).
           { intros k HP. destruct (@path_bound_step _ _ _ _ _ _ _ _ NR ER HP) as [K1 K2]. split; [exact K1|]. intros q Hq. apply K2.
             eapply spath_frame; [exact (ch_frame D12)|apply reach_root; left; reflexivity|exact Hq]. }
           destruct lock as [[|]|].
           ++ destruct HL as [HL|HL]; congruence.
           ++ destruct (PB _ HM) as [K1 K2]. exists (m - 1). split; [|exact K2]. replace (bc h2) with (bc h) by lia. lia.
           ++ destruct (PB _ (@path_bound_all _ _ _ Right r HC)) as [K1 K2]. exists (bc h - 1). split; [|exact K2]. replace (bc h2) with (bc h) by lia. lia.
      * intros ? h3 ((C3 & D3 & B3) & L3 & W3). split; [split; [exact C3|]; split; [|lia]|].
        -- eapply change_trans; [|exact D3]. eapply change_incl; [|exact D12]. intros y Hy. right. exact Hy.
        -- split; [eapply less_trans; [exact HL1|]; eapply less_trans; eauto|]. lia.
    + assert (C1' : consistent h1 (l :: reuse :: sl :: sr :: K)).
      { eapply consistent_perm; [|exact C1]. symmetry. apply (Permutation_middle [reuse; sl; sr] K l). }
      assert (NL1 : node_at h1 l = Some nl) by (rewrite (ch_frame D1); [exact NL|apply reach_root; do 2 right; left; reflexivity]).
      eapply ends_bind; [apply (HD C1' HS1); [intros y Hy; do 3 right; auto|lia|rewrite (@dneed_leaf _ _ _ NL1 EL); lia]|].
      intros ? h2 ((C2 & D2 & B2) & L2 & W2).
      assert (HS2 : shielded h2) by (eapply shielded_change; [|exact D2|exact HS1]; intros y Hy; do 3 right; auto).
      assert (NU2 : node_at h2 reuse = Some leaf).
      { rewrite (ch_frame D2) by (apply reach_root; left; reflexivity). unfold node_at. rewrite E1. reflexivity. }
      eapply ends_bind; [apply (HD C2 HS2); [intros y Hy; do 2 right; auto|lia|rewrite (@dneed_leaf _ _ _ NU2 eq_refl); lia]|].
      intros ? h3 ((C3 & D3 & B3) & L3 & W3).
      assert (HS3 : shielded h3) by (eapply shielded_change; [|exact D3|exact HS2]; intros y Hy; do 2 right; auto).
      pose proof (wt_less [sl] (less_trans L2 L3)). pose proof (wt_less [sr] (less_trans L2 L3)).
      assert (HN3 : 1 + T h3 + wt h3 [sl] + wt h3 [sr] <= b) by lia.
      eapply ends_mono.
      * eapply IH; [exact ER|exact C3|exact HS3|exact HI|lia|exact HN3|]. exists (bc h3). split; [|lia]. nia.
      * intros ? h4 ((C4 & D4 & B4) & L4 & W4). split; [split; [exact C4|]; split; [|lia]|].
        -- eapply change_trans; [eapply change_incl; [|exact D1]|]. { intros y Hy. do 3 right. exact Hy. }
           eapply change_trans; [eapply change_incl; [|exact D2]|]. { intros y Hy. do 3 right. exact Hy. }
           eapply change_trans; [eapply change_incl; [|exact D3]|exact D4]. intros y Hy. do 2 right. exact Hy.
        -- split; [eapply less_trans; [exact HL1|]; eapply less_trans; [exact L2|]; eapply less_trans; eauto|]. lia.
  - destruct HSel as (-> & -> & C1 & D1 & B1). destruct HW1 as (HW1 & HB1).
    assert (HS1 : shielded h1) by (eapply shielded_change; [|exact D1|exact HS]; intros y Hy; do 2 right; auto).
    assert (C1' : consistent h1 (r :: l :: K)) by (eapply consistent_perm; [apply perm_swap|exact C1]).
    assert (NR1 : node_at h1 r = Some nr) by (rewrite (ch_frame D1); [exact NR|apply reach_root; right; left; reflexivity]).
    assert (NL1 : node_at h1 l = Some nl) by (rewrite (ch_frame D1); [exact NL|apply reach_root; left; reflexivity]).
    eapply ends_bind.
    { apply (HD C1' HS1); [intros y Hy; right; auto|lia|].
      destruct HB1 as [(HB1 & HB2)|HB1]; [rewrite (@dneed_leaf _ _ _ NR1 HB2); lia|]. pose proof (dneed_le h1 r). lia. }
    intros ? h2 ((C2 & D2 & B2) & L2 & W2).
    assert (HS2 : shielded h2) by (eapply shielded_change; [|exact D2|exact HS1]; intros y Hy; right; auto).
    assert (NL2 : node_at h2 l = Some nl) by (rewrite (ch_frame D2); [exact NL1|apply reach_root; left; reflexivity]).
    eapply ends_mono.
    { apply (HD C2 HS2 HI); [lia|].
      destruct HB1 as [(HB1 & HB2)|HB1]; [rewrite (@dneed_leaf _ _ _ NL2 HB1); lia|]. pose proof (dneed_le h2 l). lia. }
    intros ? h3 ((C3 & D3 & B3) & L3 & W3). split; [split; [exact C3|]; split; [|lia]|].
    + eapply change_trans; [eapply change_incl; [|exact D1]|]. { intros y Hy. do 2 right. exact Hy. }
      eapply change_trans; [eapply change_incl; [|exact D2]|exact D3]. intros y Hy. right. exact Hy.
    + split; [eapply less_trans; [exact HL1|]; eapply less_trans; eauto|]. lia.
Qed.
End Loop.

(** A reference to a leaf, or one of several, is dropped. *)
Lemma release_shared_t h K x s w v : consistent h (x :: K) -> cell_at h x = Some (Cell (S (S s)) w v) ->
  ends (write x (Some (Cell (S s) w v))) h (after_t K h).
Proof.
  intros HC E. apply ends_and; [apply (ends_release_shared HC E)|].
  exists tt, (upd h x (Some (Cell (S s) w v))). split; [reflexivity|].
  assert (L : less h (upd h x (Some (Cell (S s) w v)))) by (eapply less_upd; [exact E|]; intros c' [= <-]; right; cbn; split; [reflexivity|lia]).
  split; [exact L|]. unfold T. rewrite (@Ep_same _ _ _ (Some (Cell (S s) w v)) E eq_refl). apply wt_less. exact L.
Qed.
Lemma release_leaf_t h K x w (n : node) (m : H unit) : consistent h (x :: K) -> cell_at h x = Some (Cell 1 w (Some n)) -> branches n = None ->
  (forall h, m h = Ok (tt, Heap (cells h) (dropped h ++ payload n))) ->
  ends (d_bind (write x (Some (Cell 0 w None))) (fun _ => d_bind m (fun _ =>
    match w with 0 => write x None | S _ => d_ret tt end))) h (after_t K h).
Proof.
  intros HC E HB Hm. apply ends_and; [apply (ends_release_leaf _ HC E HB Hm)|].
  set (h1 := upd h x (Some (Cell 0 w None))). set (h2 := Heap (cells h1) (dropped h1 ++ payload n)).
  assert (L1 : less h h1) by (eapply less_upd; [exact E|]; intros c' [= <-]; left; cbn; lia).
  assert (T1 : T h1 <= T h).
  { unfold T, h1 at 2. rewrite (@Ep_same _ _ _ (Some (Cell 0 w None)) E) by (cbn; rewrite (kids_leaf _ HB); reflexivity). apply wt_less. exact L1. }
  assert (E2 : cell_at h2 x = Some (Cell 0 w None)).
  { change (cell_at h1 x = Some (Cell 0 w None)). unfold h1. rewrite (cell_at_upd _ _ _ _ E), Nat.eqb_refl. reflexivity. }
  eapply ends_bind; [apply ends_write|]. intros ? ? ->. fold h1.
  eapply ends_bind with (P := fun _ h' => h' = h2); [exists tt, h2; rewrite Hm; auto|]. intros ? ? ->.
  destruct w as [|w].
  - exists tt, (upd h2 x None). split; [reflexivity|].
    assert (L2 : less h2 (upd h2 x None)) by (eapply less_upd; [exact E2|]; discriminate).
    split; [eapply less_trans; [exact L1|exact L2]|]. unfold T. rewrite (@Ep_same _ _ _ None E2 eq_refl).
    etransitivity; [apply (wt_less _ L2)|]. exact T1.
  - apply ends_ret. split; [exact L1|exact T1].
Qed.

Theorem rc_drop_t arc fuel : forall depth h K x, consistent h (x :: K) -> shielded h -> incl K0 K -> dneed h x <= depth ->
  bc h * bc h + bc h + 1 <= fuel -> ends (rc_drop arc fuel depth x) h (after_t K h).
Proof.
  induction depth as [|depth IH]; intros h K x HC HS HI HN HF.
  { exfalso. unfold dneed in HN. destruct (node_at h x) as [n|]; [destruct (branches n)|]; lia. }
  destruct (consistent_live x HC (or_introl eq_refl)) as (s & w & n & E).
  assert (EN : node_at h x = Some n) by (unfold node_at; rewrite E; reflexivity).
  eapply ends_bind with (P := fun x' h' => (consistent h' (x' :: K) /\ change K h h' /\ bc h' <= bc h /\
    ((exists n, node_at h' x' = Some n /\ branches n = None) \/ refs (x' :: K) h' x' <> 1)) /\ less h h' /\ T h' <= T h).
  - eapply ends_bind; [apply (ends_class arc _ _ EN)|]. intros ? ? (-> & ->). unfold node_class.
    destruct (branches n) as [[l r]|] eqn:EB.
    2:{ apply ends_ret. split; [|split; [apply less_refl|lia]]. split; [exact HC|]. split; [apply change_refl|]. split; [lia|]. eauto. }
    assert (HB : branches n <> None) by congruence.
    eapply ends_bind; [apply ends_and; [apply (ends_trytake arc HC EN HB)|apply (trytake_t arc HC HS HI EN HB)]|].
    intros [[d|] x'] h1 (HT & L1 & W1); cbn [fst] in W1.
    + destruct HT as (-> & C1 & D1 & B1 & E1). rewrite (branches_kids _ EB) in C1, D1, W1. cbn [app] in C1, D1.
      rewrite wt_cons in W1.
      assert (C1' : consistent h1 (l :: r :: x' :: K)).
      { eapply consistent_perm; [|exact C1]. apply (Permutation_middle [l; r] K x'). }
      assert (HS1 : shielded h1) by (eapply shielded_change; [|exact D1|exact HS]; intros y Hy; do 2 right; auto).
      assert (HNN : dneed h x = 2 + T h) by (unfold dneed; rewrite EN, EB; reflexivity).
      eapply ends_bind.
      * eapply rc_loop_t with (bound := bc h) (b := depth) (K := x' :: K); [|exact EB|exact C1'|exact HS1| |lia|lia|].
        -- intros h2 K2 y HC2 HS2 HI2 HN2 HB2. apply IH; [exact HC2|exact HS2|exact HI2|exact HB2|nia].
        -- intros y Hy. right. auto.
        -- exists (bc h1). split; [|lia]. nia.
      * intros ? h2 ((C2 & D2 & B2) & L2 & W2). apply ends_ret. split; [|split; [eapply less_trans; eauto|lia]].
        split; [exact C2|]. split; [|split; [lia|]].
        -- eapply change_trans; [eapply change_incl; [|exact D1]|eapply change_incl; [|exact D2]]; intros y Hy; [do 2 right|right]; exact Hy.
        -- left. exists leaf. split; [|reflexivity]. rewrite (ch_frame D2) by (apply reach_root; left; reflexivity). unfold node_at. rewrite E1. reflexivity.
    + destruct HT as (-> & C1 & D1 & B1 & E1 & R1). apply ends_ret. split; [|split; [exact L1|exact W1]]. split; [exact C1|]. split; [|split; [lia|]].
      * eapply change_incl; [|exact D1]. intros y Hy. right. exact Hy.
      * right. destruct (cons_count HC _ E) as [S1 _]. rewrite E in E1. destruct (cons_count C1 _ E1) as [S2 _]. lia.
  - intros x' h1 ((C1 & D1 & B1 & HO) & L1 & W1). destruct (consistent_live x' C1 (or_introl eq_refl)) as (s' & w' & n' & E1).
    eapply ends_bind; [apply (ends_read _ _ E1)|]. intros ? ? (-> & ->).
    assert (G : forall m, ends m h1 (after_t K h1) -> ends m h1 (after_t K h)).
    { intros m Hm. eapply ends_mono; [exact Hm|]. intros ? h2 ((C2 & D2 & B2) & L2 & W2). split; [|split; [eapply less_trans; eauto|lia]].
      split; [exact C2|]. split; [|lia]. eapply change_trans; eauto. }
    apply G. destruct s' as [|s']; [|apply release_shared_t; assumption].
    destruct HO as [(n0 & EN0 & HB)|HO].
    + unfold node_at in EN0. rewrite E1 in EN0. injection EN0 as ->.
      eapply (@release_leaf_t _ _ _ _ _ _ C1 E1 HB). intros h2. destruct n0 as [a b|a b|[v|]]; try discriminate HB; cbn.
      * reflexivity.
      * rewrite app_nil_r. destruct h2; reflexivity.
    + destruct (cons_count C1 _ E1) as [S1 _]. cbn [strong] in S1. congruence.
Qed.
End Others.
End Depth.

(** ** All that others cannot reach *)
Section Own.
Context {X : Type}.
Implicit Types (h : heap X) (K : list nat).

Lemma reach_inv h K y : reach h K y -> In y K \/ exists x n, reach h K x /\ node_at h x = Some n /\ In y (kids n).
Proof. intros HR. destruct HR; eauto 6. Qed.
Lemma some_decided A (P : A -> Prop) l : (forall x, In x l -> P x \/ ~ P x) -> (exists x, In x l /\ P x) \/ ~ exists x, In x l /\ P x.
Proof.
  induction l as [|a l IH]; intros HP; [right; intros (x & [] & _)|].
  destruct (HP a (or_introl eq_refl)) as [|NP]; [left; exists a; cbn; auto|].
  destruct IH as [(x & Hx & Px)|N]; [intros; apply HP; cbn; auto|left; exists x; cbn; auto|].
  right. intros (x & [<-|Hx] & Px); eauto.
Qed.
Lemma reach_decided h K K' : consistent h K' -> forall y, reach h K y \/ ~ reach h K y.
Proof.
  intros HC. destruct (cons_acyclic HC) as (rank & HR). set (M := list_max (map rank (seq 0 (length (cells h))))).
  assert (HM : forall x n, node_at h x = Some n -> rank x <= M).
  { intros x n E. pose proof (proj1 (list_max_le (map rank (seq 0 (length (cells h)))) M) (Nat.le_refl _)) as HA. rewrite Forall_forall in HA.
    apply HA, in_map, in_seq. unfold node_at in E. destruct (cell_at h x) eqn:EC; [|discriminate]. apply cell_at_length in EC. lia. }
  assert (G : forall k y, M - rank y < k -> reach h K y \/ ~ reach h K y).
  { induction k as [|k IH]; intros y Hk; [lia|]. destruct (in_dec Nat.eq_dec y K) as [HI|NI]; [left; apply reach_root; exact HI|].
    destruct (@some_decided _ (fun x => reach h K x /\ exists n, node_at h x = Some n /\ In y (kids n)) (seq 0 (length (cells h)))) as [(x & _ & R & n & E & HI)|N].
    - intros x _. destruct (node_at h x) as [n|] eqn:E; [|right; intros (_ & n & [=] & _)].
      destruct (in_dec Nat.eq_dec y (kids n)) as [HI|NI']; [|right; intros (_ & n' & [= <-] & HI); contradiction].
      destruct (IH x) as [R|R]; [pose proof (HR _ _ _ E HI); pose proof (HM _ _ E); lia|left; eauto|right; intros (R' & _); contradiction].
    - left. eapply reach_kid; eauto.
    - right. intros R. destruct (reach_inv R) as [HI|(x & n & R' & E & HI)]; [contradiction|]. apply N. exists x. split; [|eauto].
      apply in_seq. unfold node_at in E. destruct (cell_at h x) eqn:EC; [|discriminate]. apply cell_at_length in EC. lia. }
  intros y. apply (G (S (M - rank y))). lia.
Qed.
Lemma selected A (P : A -> Prop) l : (forall x, P x \/ ~ P x) -> exists l', forall x, In x l' <-> In x l /\ P x.
Proof.
  intros HP. induction l as [|a l (l' & IH)]; [exists []; cbn; tauto|]. destruct (HP a) as [Pa|Na].
  - exists (a :: l'). intros x. cbn. rewrite IH. split; [intros [->|[]]; auto|intros [[->|] ?]; auto].
  - exists l'. intros x. rewrite IH. cbn. split; [intros []; auto|intros [[->|] ?]; [contradiction|auto]].
Qed.

(** Over the datums at different addresses at most. *)
Lemma sum_incl A (f : A -> nat) l l' : NoDup l -> incl l l' -> list_sum (map f l) <= list_sum (map f l').
Proof.
  intros ND. revert l'. induction ND as [|a l NI ND IH]; intros l' HI; [cbn; lia|].
  destruct (in_split a l' (HI a (or_introl eq_refl))) as (u & v & ->). specialize (IH (u ++ v)).
  assert (incl l (u ++ v)).
  { intros x Hx. specialize (HI x (or_intror Hx)). apply in_app_or in HI. apply in_or_app. destruct HI as [|[->|]]; auto. contradiction. }
  specialize (IH H). rewrite map_app, list_sum_app in *. unfold list_sum in *. cbn [map fold_right] in *. lia.
Qed.
Lemma wt_flat_map h (f : nat -> list nat) l : wt h (flat_map f l) = list_sum (map (fun x => wt h (f x)) l).
Proof. induction l as [|a l IH]; [reflexivity|]. cbn [flat_map map list_sum fold_right]. rewrite wt_app, IH. reflexivity. Qed.

Lemma own_T h K own : (forall y n, node_at h y = Some n -> In y own \/ reach h K y) ->
  exists p, shielded p K h /\ T p h <= shared_refs h own.
Proof.
  intros HO.
  set (p := fun y => match node_at h y with Some _ => negb (existsb (Nat.eqb y) own) | None => false end).
  assert (HP : forall y, p y = true -> reach h K y).
  { intros y. unfold p. destruct (node_at h y) as [n|] eqn:E; [|discriminate]. intros HN. destruct (HO _ _ E) as [HI|]; [|assumption].
    apply negb_true_iff in HN. rewrite <- not_true_iff_false in HN. exfalso. apply HN, existsb_exists. exists y. rewrite Nat.eqb_refl. auto. }
  assert (HT : T p h <= shared_refs h own).
  { unfold T, Ep. rewrite wt_flat_map. change (shared_refs h own) with (wt h (flat_map (fun x => match node_at h x with Some n => kids n | None => [] end) own)).
    rewrite wt_flat_map.
    set (f := fun x => wt h (match node_at h x with Some n => kids n | None => [] end)).
    set (sel := filter (fun y => existsb (Nat.eqb y) own) (seq 0 (length (cells h)))).
    transitivity (list_sum (map f sel)).
    - unfold sel. induction (seq 0 (length (cells h))) as [|y l IH]; [cbn; lia|]. cbn [map list_sum fold_right filter].
      change (fold_right Nat.add 0) with list_sum.
      assert (EQ : onto kids (cell_at h y) = match node_at h y with Some n => kids n | None => [] end).
      { unfold node_at. destruct (cell_at h y); reflexivity. }
      rewrite EQ. unfold p at 1. destruct (existsb (Nat.eqb y) own) eqn:EX; cbn [map list_sum fold_right].
      + change (fold_right Nat.add 0) with list_sum. fold (f y).
        replace (if match node_at h y with Some _ => negb true | None => false end then [] else match node_at h y with Some n => kids n | None => [] end)
          with (match node_at h y with Some n => kids n | None => [] end) by (destruct (node_at h y); reflexivity).
        change (wt h match node_at h y with Some n => kids n | None => [] end) with (f y). apply Nat.add_le_mono_l. exact IH.
      + replace (if match node_at h y with Some _ => negb false | None => false end then [] else match node_at h y with Some n => kids n | None => [] end)
          with (@nil nat) by (destruct (node_at h y); reflexivity). cbn. exact IH.
    - apply sum_incl; [apply NoDup_filter, seq_NoDup|]. intros y Hy. apply filter_In in Hy. destruct Hy as [_ Hy].
      apply existsb_exists in Hy. destruct Hy as (z & Hz & EZ). apply Nat.eqb_eq in EZ. subst. exact Hz. }
  exists p. split; [exact HP|exact HT].
Qed.

Theorem rc_drop_depth arc fuel depth h K x own : consistent h (x :: K) ->
  (forall y n, node_at h y = Some n -> In y own \/ reach h K y) ->
  2 + shared_refs h own <= depth -> bc h * bc h + bc h + 1 <= fuel ->
  ends (rc_drop arc fuel depth x) h (after K h).
Proof.
  intros HC HO HD HF. destruct (own_T own HO) as (p & HP & HT).
  eapply ends_mono; [apply (@rc_drop_t X p K arc fuel depth h K x HC HP (incl_refl K)); [|exact HF]|].
  - pose proof (dneed_le p h x). lia.
  - intros u h' (HA & _). exact HA.
Qed.

Lemma own_exists h K K1 : consistent h (K1 ++ K) -> exists own,
  (forall y n, node_at h y = Some n -> In y own \/ reach h K y) /\ forall y, In y own -> reach h K1 y.
Proof.
  intros HC. destruct (@selected _ (fun y => ~ reach h K y /\ node_at h y <> None) (seq 0 (length (cells h)))) as (own & HS).
  { intros y. destruct (reach_decided K HC y); [right; tauto|]. destruct (node_at h y); [left; split; [assumption|discriminate]|right; tauto]. }
  exists own. split.
  - intros y n E. destruct (reach_decided K HC y) as [|N]; [auto|left]. apply HS. split; [|split; [exact N|congruence]].
    apply in_seq. unfold node_at in E. destruct (cell_at h y) eqn:EC; [|discriminate]. apply cell_at_length in EC. lia.
  - intros y HI. apply HS in HI. destruct HI as (_ & N & L). destruct (node_at h y) as [n|] eqn:E; [|congruence].
    pose proof (all_reachable _ HC E) as R. apply (proj1 (reach_app h K1 K y)) in R. tauto.
Qed.

Lemma unshared_refs h K1 own : (forall y, reach h K1 y -> shared_branch h y = false) -> (forall y, In y own -> reach h K1 y) ->
  shared_refs h own = 0.
Proof.
  intros HU HR. unfold shared_refs.
  assert (G : forall l, (forall y, In y l -> shared_branch h y = false) -> filter (shared_branch h) l = []).
  { induction l as [|y l IH]; intros Hl; [reflexivity|]. cbn. rewrite Hl by (cbn; auto). apply IH. intros z Hz. apply Hl. cbn. auto. }
  rewrite G; [reflexivity|]. intros y HI. apply in_flat_map in HI. destruct HI as (z & Hz & HI). apply HU.
  destruct (node_at h z) as [n|] eqn:EN; [|contradiction]. eapply reach_kid; [apply HR; exact Hz|exact EN|exact HI].
Qed.

Theorem rc_drop_unshared arc fuel depth h K x : consistent h (x :: K) ->
  (forall y, reach h [x] y -> shared_branch h y = false) ->
  2 <= depth -> bc h * bc h + bc h + 1 <= fuel -> ends (rc_drop arc fuel depth x) h (after K h).
Proof.
  intros HC HU HD HF. destruct (own_exists K [x] HC) as (own & HO & HR). eapply rc_drop_depth; [exact HC|exact HO| |exact HF].
  rewrite (unshared_refs own HU HR). exact HD.
Qed.
End Own.
