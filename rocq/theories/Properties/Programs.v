(** Programs that share datums by counted references (C52). *)
From Coq Require Import List Arith Lia Permutation.
From Verif.Model Require Import Prelude Drop DropRc RcProgram.
From Verif.Spec Require Import Drops Programs.
From Verif.Proofs Require Import HeapFacts DropRcFacts RcProgramFacts RcProgramValues.
Import ListNotations.
Set Implicit Arguments.

Section Programs.
Context {X : Type}.
Implicit Types (os : list (op X)) (m : machine X).

(** Enough steps and nested drops for a program of [n] operations. *)
Definition enough (n fuel depth : nat) : Prop := n < depth /\ n * n + n < fuel.

(** Every program runs to its end, without a panic and without any use of memory that is
    freed or of data that is moved out.  Then the counts are the numbers of references,
    there are no cycles and no memory that nothing refers to, and each value that the
    program has brought in has either been dropped once or is in a datum. *)
Theorem C52_safe : forall arc fuel depth os, enough (length os) fuel depth ->
  exists vs m, executes arc fuel depth os start vs m /\ steps arc fuel depth os start = Ok m /\ sound m /\
    Permutation (dropped (mem m) ++ payloads (mem m)) vs.
Proof.
  intros arc fuel depth os (HD & HF). destruct (@executes_sound X arc fuel depth (length os) os start start_sound) as (vs & m & EX & E & HS & xs & L & P); [apply Nat.le_refl|exact HD|exact HF|].
  exists vs, m. split; [exact EX|]. split; [exact E|]. split; [exact HS|]. cbn in L, P. rewrite L. rewrite app_nil_r in P. exact P.
Qed.

(** When it has dropped its strong references, all values have been dropped; when the
    weak ones too, all memory is freed. *)
Theorem C52_freed : forall arc fuel depth os vs m, enough (length os) fuel depth -> executes arc fuel depth os start vs m ->
  strongs m = [] -> Permutation (dropped (mem m)) vs /\ (weaks m = [] -> forall x, cell_at (mem m) x = None).
Proof.
  intros arc fuel depth os vs m HE EX EK. destruct (C52_safe arc os HE) as (vs' & m1 & EX1 & _ & HS & HP).
  assert (D : vs' = vs /\ m1 = m).
  { clear -EX EX1. revert vs' m1 EX1. induction EX as [m0|o os m0 m2 vs m' E _ IH]; intros vs' m1 EX1; inversion EX1; subst; [auto|].
    match goal with H : step _ _ _ _ _ = Ok ?m3, H' : executes _ _ _ _ ?m3 _ _ |- _ => rewrite E in H; injection H as <-; destruct (IH _ _ H') as (-> & ->); auto end. }
  destruct D as (-> & ->). pose proof (so_consistent HS) as HC. rewrite EK in HC.
  assert (HN : forall x, node_at (mem m) x = None).
  { intros x. destruct (node_at (mem m) x) as [n|] eqn:E; [|reflexivity]. exfalso. pose proof (all_reachable _ HC E) as HR. clear E. induction HR as [x []|]; auto. }
  split.
  - rewrite <- HP. assert (EP : payloads (mem m) = []); [|rewrite EP, app_nil_r; reflexivity].
    unfold payloads. rewrite of_all_onto. assert (G : forall oc, In oc (cells (mem m)) -> onto (@payload X) oc = []).
    { intros oc HI. apply In_nth_error in HI. destruct HI as (x & E). specialize (HN x). unfold node_at, cell_at in HN. rewrite E in HN. destruct oc as [c|]; [|reflexivity].
      cbn [onto]. rewrite HN. reflexivity. }
    induction (cells (mem m)) as [|oc l IH]; [reflexivity|]. cbn [flat_map]. rewrite G by (left; reflexivity). apply IH. intros o Ho. apply G. right. exact Ho.
  - intros EV x. destruct (cell_at (mem m) x) as [c|] eqn:E; [|reflexivity]. exfalso. specialize (HN x). unfold node_at in HN. rewrite E in HN.
    pose proof (so_weak HS _ E) as HW. rewrite EV in HW. cbn in HW. pose proof (proj1 (proj2 (cons_count HC _ E)) HN). destruct (so_kept HS _ E); lia.
Qed.

(** What a program can read through its references is as if each of them had a copy of
    the data of its own: cloning a reference is like copying the value, an assignment
    through [get_mut] changes what one variable shows and nothing else, and a weak
    reference gives what it was made of or nothing. *)
Theorem C52_values : forall arc fuel depth os, enough (length os) fuel depth ->
  exists m st, steps arc fuel depth os start = Ok m /\ pure os (Store [] []) st /\ stands m st.
Proof.
  intros arc fuel depth os (HD & HF). destruct (steps_values arc HD HF os start_sound start_stands) as (m & st & E & _ & _ & HP & HT); [apply Nat.le_refl|].
  exists m, st. auto.
Qed.
(** Every reference shows one value: there is no other reading of what is there. *)
Theorem C52_one_value : forall m st st', stands m st -> stands m st' -> held st' = held st.
Proof.
  intros m st st' [HT _] [HT' _]. revert HT HT'. generalize (strongs m), (held st), (held st'). intros K ts ts' HF. revert ts'.
  induction HF as [|x t K ts H _ IH]; intros ts' HF'; inversion HF'; subst; [reflexivity|]. f_equal; [eapply shows_unique; eassumption|auto].
Qed.

(** An assignment is done exactly if there is no other reference, strong or weak, in a
    variable or in a datum... *)
Theorem C52_exclusive : forall arc fuel depth os m i d m' x K1 n K2, enough (S (length os)) fuel depth ->
  steps arc fuel depth os start = Ok m -> step arc fuel depth (OReplace i d) m = Ok m' ->
  take i (strongs m) = Some (x, K1) -> make d K1 = Some (n, K2) ->
  (~ In x K1 -> ~ In x (weaks m) -> ~ In x (edges (mem m)) -> node_at (mem m') x = Some n) /\
  (In x K1 \/ In x (weaks m) \/ In x (edges (mem m)) -> node_at (mem m') x = node_at (mem m) x).
Proof.
  intros arc fuel depth os m i d m' x K1 n K2 (HD & HF) E E' ET EM.
  destruct (steps_values arc HD HF os start_sound start_stands) as (m1 & st & E1 & HS & HB & _); [cbn; lia|]. rewrite E in E1. injection E1 as <-.
  change (branch_cells (mem start)) with 0 in HB. cbn in HB.
  assert (HC : consistent (mem m) (x :: K1)) by (eapply consistent_perm; [apply (take_perm _ _ ET)|exact (so_consistent HS)]).
  destruct (consistent_live x HC (or_introl eq_refl)) as (s & w & old & EC). split.
  - intros N1 N2 N3. eapply replace_exact; [exact HS|exact E'|lia|nia|exact ET|exact EM|].
    assert (EN : node_at (mem m) x = Some old) by (unfold node_at; rewrite EC; reflexivity).
    destruct (cons_count HC _ EC) as (HR & _). rewrite refs_count, count_cons, Nat.eqb_refl in HR. cbn [strong] in HR.
    pose proof (so_weak HS _ EC) as HW. cbn [weak] in HW. apply (count_occ_not_In Nat.eq_dec) in N1, N2, N3. unfold count in HR.
    rewrite EC. f_equal. f_equal; lia.
  - intros HO. destruct (@step_sound X arc fuel depth (OReplace i d) m HS) as (m2 & E2 & HST); [unfold bc; lia|unfold bc; nia|]. rewrite E' in E2. injection E2 as <-.
    assert (HI' : In x (strongs m' ++ edges (mem m'))).
    { destruct m as [h K V]. cbn [step strongs] in E', ET. rewrite ET, EM in E'. apply run_ok in E'. destruct E' as ([] & h' & _ & ->). left. reflexivity. }
    unfold node_at at 2. rewrite EC. cbn [value]. eapply (same_node HST); [unfold node_at; rewrite EC; reflexivity|exact HI'|].
    intros i0 d0 K0 [= <- <-] ET0 EC0. rewrite ET in ET0. injection ET0 as <-. destruct HO as [HO|[HO|HO]].
    + apply (alone _ (so_consistent HS) ET EC0). apply in_or_app. left. exact HO.
    + pose proof (so_weak HS _ EC0) as HW. cbn [weak] in HW. apply (count_occ_In Nat.eq_dec) in HO. lia.
    + apply (alone _ (so_consistent HS) ET EC0). apply in_or_app. right. exact HO.
Qed.

(** ...and a weak reference can be made strong exactly as long as its datum can be
    reached from a strong one. *)
Theorem C52_upgrade : forall arc fuel depth os m j m' x V', enough (length os) fuel depth ->
  steps arc fuel depth os start = Ok m -> step arc fuel depth (OUpgrade j) m = Ok m' -> take j (weaks m) = Some (x, V') ->
  (reach (mem m) (strongs m) x -> strongs m' = x :: strongs m) /\ (~ reach (mem m) (strongs m) x -> strongs m' = strongs m).
Proof.
  intros arc fuel depth os m j m' x V' (HD & HF) E E' ET.
  destruct (steps_values arc HD HF os start_sound start_stands) as (m1 & st & E1 & HS & _); [cbn; lia|]. rewrite E in E1. injection E1 as <-.
  pose proof (so_consistent HS) as HC. destruct m as [h K V]. cbn [step mem strongs weaks] in *. rewrite ET in E'. apply run_ok in E'. destruct E' as (b & h' & E' & ->). cbn [strongs].
  unfold upgrade, d_bind, read in E'. split.
  - intros HR. pose proof (reach_live HC (incl_refl _) HR) as HI. destruct (consistent_live x HC HI) as (s & w & n & EC). rewrite EC in E'. cbn in E'.
    injection E' as <- _. reflexivity.
  - intros HR. destruct (cell_at h x) as [[[|s] w v]|] eqn:EC; try discriminate E'; [injection E' as <- _; reflexivity|].
    destruct HR. destruct v as [n|]; [|discriminate (proj1 (proj2 (cons_count HC _ EC)) eq_refl)].
    eapply all_reachable; [exact HC|]. unfold node_at. rewrite EC. reflexivity.
Qed.
End Programs.

Print Assumptions C52_safe.
Print Assumptions C52_freed.
Print Assumptions C52_values.
Print Assumptions C52_one_value.
Print Assumptions C52_exclusive.
Print Assumptions C52_upgrade.

(** ** A concrete case *)
(** Two leaves, a list of them, and a combination of that list and one of the leaves,
    which is shared; then an assignment to the list, which is shared too. *)
Definition building : list (op nat) :=
  [ONew (MLeaf (Some 1)); ONew (MLeaf (Some 2)); OClone 0; ONew (MList 0 1); OClone 0; ONew (MComb 0 1); OReplace 1 (MLeaf (Some 7)); ODowngrade 0; OChild 1 Left].
(** The combination goes away; the list still has a weak reference, which is made strong
    and dropped; then there is only one reference left for an assignment. *)
Definition taking : list (op nat) :=
  [ODrop 0; ODrop 0; OReplace 0 (MLeaf (Some 8)); OUpgrade 0; ODropWeak 0; ODrop 0; OReplace 0 (MLeaf (Some 9))].

Definition pair : tree nat := TList (TLeaf (Some 2)) (TLeaf (Some 1)).
Definition after_building : machine nat := Machine
  (Heap [Some (Cell 1 0 (Some (NLeaf (Some 1)))); Some (Cell 2 0 (Some (NLeaf (Some 2)))); Some (Cell 3 1 (Some (NList 1 0))); Some (Cell 1 0 (Some (NComb 2 1)))] [7])
  [2; 3; 2] [2].
(** The assignment was refused, and its value dropped. *)
Example builds_shared : steps false 1000 100 building start = Ok after_building. Proof. vm_compute. reflexivity. Qed.
Example building_enough : enough (length building) 1000 100 /\ enough (S (length (building ++ taking))) 1000 100. Proof. split; split; cbn; lia. Qed.
(** What the three strong references and the weak one show, as for any other run of it. *)
Example building_stands : forall st, stands after_building st -> held st = [pair; TComb pair (TLeaf (Some 2)); pair].
Proof.
  intros st HS. refine (@C52_one_value nat after_building (Store [pair; TComb pair (TLeaf (Some 2)); pair] [pair]) st _ HS).
  assert (L0 : shows (mem after_building) 0 (TLeaf (Some 1))) by (apply shows_leaf; reflexivity).
  assert (L1 : shows (mem after_building) 1 (TLeaf (Some 2))) by (apply shows_leaf; reflexivity).
  assert (L2 : shows (mem after_building) 2 pair) by (eapply shows_list; [reflexivity|exact L1|exact L0]).
  assert (L3 : shows (mem after_building) 3 (TComb pair (TLeaf (Some 2)))) by (eapply shows_comb; [reflexivity|exact L2|exact L1]).
  split; repeat constructor; auto.
Qed.
(** The last assignment is done: then there is only one reference. *)
Example takes_alone : steps false 1000 100 (building ++ taking) start =
  Ok (Machine (Heap [None; None; Some (Cell 1 0 (Some (NLeaf (Some 9)))); None] [7; 8; 2; 1]) [2] []).
Proof. vm_compute. reflexivity. Qed.
(** With [DatumArc], and the last reference dropped: all memory is freed. *)
Example takes_all : steps true 1000 100 (building ++ taking ++ [ODrop 0]) start =
  Ok (Machine (Heap [None; None; None; None; None; None; None; None; None] [7; 8; 2; 1; 9]) [] []).
Proof. vm_compute. reflexivity. Qed.
(** The case of [C52_exclusive] and that of [C52_upgrade] with a datum that is gone. *)
Example exclusive_case : exists m m', steps false 1000 100 (building ++ firstn 6 taking) start = Ok m /\ step false 1000 100 (OReplace 0 (MLeaf (Some 9))) m = Ok m' /\
  take 0 (strongs m) = Some (2, []) /\ ~ In 2 (weaks m) /\ ~ In 2 (edges (mem m)) /\ node_at (mem m') 2 = Some (NLeaf (Some 9)).
Proof.
  do 2 eexists. split; [vm_compute; reflexivity|]. split; [vm_compute; reflexivity|]. split; [reflexivity|].
  split; [intros []|]. split; [intros [H|[H|[]]]; discriminate|reflexivity].
Qed.
Example upgrade_gone : exists m m', steps false 1000 100 [ONew (MLeaf (Some 1)); ODowngrade 0; ODrop 0] start = Ok m /\ step false 1000 100 (OUpgrade 0) m = Ok m' /\
  take 0 (weaks m) = Some (0, []) /\ strongs m' = [] /\ cell_at (mem m') 0 = Some (Cell 0 1 None).
Proof. do 2 eexists. split; [vm_compute; reflexivity|]. split; [vm_compute; reflexivity|]. repeat split; reflexivity. Qed.
