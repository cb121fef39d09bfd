(** Dropping atomically counted datums in many threads (C46). *)
From Coq Require Import List Arith Lia Permutation Relations.
From Verif.Model Require Import Prelude Drop DropRc DropArc.
From Verif.Spec Require Import Drops Threads.
From Verif.Proofs Require Import HeapFacts HeapLink ThreadFacts ThreadRuns.
Import ListNotations.
Set Implicit Arguments.

Section Threads.
Context {X : Type}.
Implicit Types w : world X.

(** Whatever the threads do, and however their steps are interleaved, no drop panics
    or uses memory that is freed or data that is moved out: each has ended or can do its
    next step. *)
Theorem C46_safe : forall w0 w p, orderly w0 -> steps w0 w -> In p (running w) ->
  p = Done tt \/ exists B (m : H B) k b h', p = Atomic m k /\ m (mem w) = Ok (b, h').
Proof. intros w0 w p HO HS HI. destruct (good_steps HS HO) as (gs & HG). eapply good_progress; eauto. Qed.

(** A step of a drop changes nothing that the program can reach from its references,
    and it does not take away the exclusive access to a datum, be it in a variable or inside of
    other datums to which there is exclusive access. *)
Theorem C46_others : forall w0 w w', orderly w0 -> steps w0 w -> drop_step w w' ->
  (forall x, reach (mem w) (strongs w) x -> node_at (mem w) x <> None /\ node_at (mem w') x = node_at (mem w) x) /\
  (forall x, exclusive (mem w) (strongs w) x -> cell_at (mem w') x = cell_at (mem w) x).
Proof.
  intros w0 w w' HO HS HD. destruct (good_steps HS HO) as (gs & HG). destruct (good_drop HG HD) as (gs' & _ & [F O]). split; [|exact O].
  intros x HR. split; [|apply F; exact HR]. destruct HG as (_ & [IS _ _ _]). cbn [e_strong] in IS. apply (cons_refs IS). eapply reach_live; [exact IS| |exact HR].
  apply incl_appr, incl_refl.
Qed.

(** At no time has a value been dropped that is still in a datum, or more than
    once. *)
Theorem C46_once : forall w0 w, orderly w0 -> steps w0 w -> exists moved, Permutation (dropped (mem w) ++ payloads (mem w) ++ moved) (made w).
Proof.
  intros w0 w HO HS. destruct (good_steps HS HO) as (gs & _ & [_ _ IV _]). cbn [e_vals e_made] in IV. rewrite app_nil_r in IV. eauto.
Qed.

(** When all drops have ended, all counts are exact, no memory is left that nothing
    refers to, and exactly the values that are in no datum have been dropped, each once. *)
Theorem C46_complete : forall w0 w, orderly w0 -> steps w0 w -> (forall p, In p (running w) -> p = Done tt) -> orderly w.
Proof. intros w0 w HO HS HD. destruct (good_steps HS HO) as (gs & HG). eapply good_done; eauto. Qed.

(** The drops end, in whichever order their steps are done... *)
Theorem C46_ends : well_founded (fun w' w => drop_step w w').
Proof. exact (@drop_acc X). Qed.
(** ...and then all is in order. *)
Theorem C46_finish : forall w0 w, orderly w0 -> steps w0 w -> exists w', clos_refl_trans _ (@drop_step X) w w' /\ orderly w' /\
  strongs w' = strongs w /\ weaks w' = weaks w /\ made w' = made w.
Proof. intros w0 w HO HS. destruct (good_steps HS HO) as (gs & HG). eapply run_out; eauto. Qed.

(** When the program has dropped all references, nothing is left. *)
Theorem C46_all_freed : forall w0 w, orderly w0 -> steps w0 w -> (forall p, In p (running w) -> p = Done tt) -> strongs w = [] -> weaks w = [] ->
  (forall x, cell_at (mem w) x = None) /\ Permutation (dropped (mem w)) (made w).
Proof.
  intros w0 w HO HS HD EK EW. destruct (C46_complete HO HS HD) as [_ OS OW OV]. rewrite EK in OS. rewrite EW in OW.
  assert (HN : forall x, node_at (mem w) x = None).
  { intros x. destruct (node_at (mem w) x) as [n|] eqn:E; [|reflexivity]. exfalso. pose proof (all_reachable _ OS E) as HR. clear E. induction HR as [x []|]; auto. }
  split.
  - intros x. specialize (HN x). specialize (OW x). unfold node_at in HN. destruct (cell_at (mem w) x) as [c|] eqn:E; [|reflexivity].
    destruct OW as (W0 & W1). destruct (cons_count OS _ E) as (_ & HV). cbn in W0. specialize (W1 (proj1 HV HN)). lia.
  - rewrite <- OV. assert (EP : payloads (mem w) = []); [|rewrite EP, app_nil_r; reflexivity].
    unfold payloads. rewrite of_all_onto. assert (G : forall oc, In oc (cells (mem w)) -> onto (@payload X) oc = []).
    { intros oc HI. apply In_nth_error in HI. destruct HI as (x & E). specialize (HN x). unfold node_at, cell_at in HN. rewrite E in HN. destruct oc as [c|]; [|reflexivity].
      cbn [onto]. rewrite HN. reflexivity. }
    induction (cells (mem w)) as [|oc l IH]; [reflexivity|]. cbn [flat_map]. rewrite G by (left; reflexivity). apply IH. intros o Ho. apply G. right. exact Ho.
Qed.
End Threads.

Print Assumptions C46_safe.
Print Assumptions C46_others.
Print Assumptions C46_once.
Print Assumptions C46_complete.
Print Assumptions C46_ends.
Print Assumptions C46_finish.
Print Assumptions C46_all_freed.

(** ** A concrete case *)
(** Two lists (2 and 4) with a common tail (1); there is a weak reference to 3, and
    another strong reference to the element (0) of the tail. *)
Definition two_lists : heap nat := Heap
  [Some (Cell 2 0 (Some (NLeaf (Some 100)))); Some (Cell 2 0 (Some (NList 0 8)));
   Some (Cell 1 0 (Some (NList 5 3))); Some (Cell 1 1 (Some (NList 6 1)));
   Some (Cell 1 0 (Some (NList 7 1)));
   Some (Cell 1 0 (Some (NLeaf (Some 101)))); Some (Cell 1 0 (Some (NLeaf (Some 102)))); Some (Cell 1 0 (Some (NLeaf (Some 103))));
   Some (Cell 1 0 (Some (NLeaf None)))] [].
Definition before : world nat := World two_lists [2; 4; 0] [3] [] [100; 101; 102; 103].

Lemma before_orderly : orderly before.
Proof.
  split; cbn [before mem strongs weaks running made].
  - intros p [].
  - split.
    + intros x c E. do 9 (destruct x as [|x]; [injection E as <-; vm_compute; split; [reflexivity|split; discriminate]|]).
      unfold cell_at in E. cbn in E. destruct x; discriminate.
    + intros x HI. vm_compute in HI. repeat (destruct HI as [<-|HI]; [discriminate|]). contradiction.
    + exists (fun x => match x with 1 => 1 | 3 => 2 | 2 => 3 | 4 => 2 | _ => 0 end). intros x n y E HI.
      do 9 (destruct x as [|x]; [injection E as <-; cbn in HI; repeat (destruct HI as [<-|HI]; [lia|]); contradiction|]).
      unfold node_at, cell_at in E. cbn in E. destruct x; discriminate.
  - intros x. do 9 (destruct x as [|x]; [vm_compute; split; [reflexivity|discriminate]|]).
    unfold cell_at. cbn. destruct x; cbn; lia.
  - vm_compute. apply (perm_trans (l' := [100; 101; 102; 103])); reflexivity.
Qed.

(** Steps of the threads in a given order. *)
Fixpoint schedule {X} (order : list bool) (h : heap X) (p q : prog X unit) : option (heap X * prog X unit * prog X unit) :=
  match order with
  | [] => Some (h, p, q)
  | first :: order =>
      match (if first then p else q) with
      | Atomic m k =>
          match m h with
          | Ok (b, h') => if first then schedule order h' (k b) q else schedule order h' p (k b)
          | _ => None
          end
      | _ => None
      end
  end.
Lemma schedule_steps X order : forall w0 (h h' : heap X) K W mk p q p' q', schedule order h p q = Some (h', p', q') ->
  steps w0 (World h K W [p; q] mk) -> steps w0 (World h' K W [p'; q'] mk).
Proof.
  induction order as [|f order IH]; intros w0 h h' K W mk p q p' q' E HS; cbn in E; [injection E as <- <- <-; exact HS|].
  destruct f.
  - destruct p as [a| | |B m k]; try discriminate. destruct (m h) as [[b h1]| | |] eqn:EM; try discriminate.
    eapply IH; [exact E|]. eapply steps_more; [exact HS|]. left. exact (@step_drop X h h1 K W [] [q] mk B m k b EM).
  - destruct q as [a| | |B m k]; try discriminate. destruct (m h) as [[b h1]| | |] eqn:EM; try discriminate.
    eapply IH; [exact E|]. eapply steps_more; [exact HS|]. left. exact (@step_drop X h h1 K W [p] [] mk B m k b EM).
Qed.
Definition dropping : world nat := World two_lists [0] [3] [arc_drop 9 4 4; arc_drop 9 4 2] [100; 101; 102; 103].
Lemma dropping_steps : steps before dropping.
Proof.
  assert (L : forall h x n, node_at (X:=nat) h x = Some n -> branches n = None -> unfolds h x TLeaf) by (intros h x n E1 E2; exists n; auto).
  assert (B : forall h x n a b l r, node_at (X:=nat) h x = Some n -> branches n = Some (a, b) -> unfolds h a l -> unfolds h b r -> unfolds h x (TBranch l r)).
  { intros h x n a b l r E1 E2 U1 U2. exists n. eauto 8. }
  assert (U1 : unfolds two_lists 1 (TBranch TLeaf TLeaf)) by (eapply B; [reflexivity|reflexivity|eapply L; reflexivity|eapply L; reflexivity]).
  assert (U3 : unfolds two_lists 3 (TBranch TLeaf (TBranch TLeaf TLeaf))) by (eapply B; [reflexivity|reflexivity|eapply L; reflexivity|exact U1]).
  eapply steps_more; [eapply steps_more; [apply steps_none|]|]; right.
  - eapply (@step_begin _ _ _ [4; 0] _ _ _ 2 9 4); [reflexivity|].
    eapply ample_of; [eapply B; [reflexivity|reflexivity|eapply L; reflexivity|exact U3]|cbn; lia|cbn; lia].
  - eapply (@step_begin _ _ _ [0] _ _ _ 4 9 4); [reflexivity|].
    eapply ample_of; [eapply B; [reflexivity|reflexivity|eapply L; reflexivity|exact U1]|cbn; lia|cbn; lia].
Qed.

(** The first thread fails to take the tail, which has two references.  Then the
    second thread runs to its end.  The reference of the first is then the last one, and it
    drops the tail by recursion.  This is the race described in src/drop.rs 75-83. *)
Definition after : heap nat :=
  Heap ([Some (Cell 1 0 (Some (NLeaf (Some 100)))); None; None; Some (Cell 0 1 None)] ++ repeat None 12) [101; 102; 103].
Example C46_case : orderly before /\
  schedule (repeat true 15 ++ repeat false 34 ++ repeat true 13) two_lists (arc_drop 9 4 4) (arc_drop 9 4 2) = Some (after, Done tt, Done tt) /\
  steps before (World after [0] [3] [Done tt; Done tt] [100; 101; 102; 103]).
Proof.
  assert (E : schedule (repeat true 15 ++ repeat false 34 ++ repeat true 13) two_lists (arc_drop 9 4 4) (arc_drop 9 4 2) = Some (after, Done tt, Done tt))
    by (vm_compute; reflexivity).
  split; [exact before_orderly|]. split; [exact E|]. exact (schedule_steps _ E dropping_steps).
Qed.
(** The rest of the program does steps in between: it makes another reference to the
    element, and drops the weak reference. *)
Example C46_case_client : exists w, steps before w /\ strongs w = [0; 0] /\ weaks w = [] /\ length (running w) = 2.
Proof.
  set (h1 := set_cell two_lists 0 (Cell 3 0 (Some (NLeaf (Some 100))))).
  assert (E : exists h2, dec_weak 3 h1 = Ok (tt, h2)) by (eexists; reflexivity). destruct E as (h2 & E).
  exists (World h2 [0; 0] [] (running dropping) (made dropping)). split; [|repeat split].
  eapply steps_more; [eapply steps_more; [exact dropping_steps|right]|right].
  - apply (@step_clone _ two_lists [0] [3] (running dropping) (made dropping) 0 2 0 (Some (NLeaf (Some 100)))); [apply reach_root; left; reflexivity|reflexivity].
  - apply (@step_weak_drop _ h1 h2 [0; 0] [3] [] (running dropping) (made dropping) 3); [reflexivity|exact E].
Qed.
(** In the same state, there is exclusive access to the element of the first list and, before anything
    is dropped, to both lists; but not to their common tail, and not where there is a weak reference. *)
Example C46_case_exclusive : exclusive (mem before) (strongs before) 5 /\ exclusive (mem before) (strongs before) 4 /\
  ~ exclusive (mem before) (strongs before) 3 /\ ~ exclusive (mem before) (strongs before) 1 /\
  (exists w', step (World two_lists [2; 4; 0] [3] [] [100; 101; 102; 103]) w' /\ node_at (mem w') 5 = Some (NList 4 0)).
Proof.
  assert (E2 : exclusive (mem before) (strongs before) 2) by (eapply only_var; [cbn; auto|reflexivity]).
  assert (N : forall x v, cell_at two_lists x = Some v -> v <> Cell 1 0 (value v) -> ~ exclusive (mem before) (strongs before) x).
  { intros x v E D HX. destruct (exclusive_cell HX) as (u & F). change (cell_at two_lists x = Some (Cell 1 0 u)) in F. rewrite E in F. injection F as ->. apply D. reflexivity. }
  split; [|split; [|split; [|split]]].
  - eapply only_kid; [exact E2|reflexivity|cbn; auto|reflexivity].
  - eapply only_var; [cbn; auto|reflexivity].
  - eapply N; [reflexivity|discriminate].
  - eapply N; [reflexivity|discriminate].
  - eexists. split.
    + right. apply (@step_link _ two_lists [2; 4; 0] [2] [3] [] _ 5 (Some 101) (NList 4 0)); [apply (Permutation_app_comm [2] [4; 0])| |reflexivity].
      eapply only_kid; [eapply only_var with (x := 2); [cbn; auto|reflexivity]|reflexivity|cbn; auto|reflexivity].
    + reflexivity.
Qed.
