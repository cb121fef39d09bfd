(** C63: threads that parse with atomically counted references, while any other threads use
    the same memory. *)
From Coq Require Import List Arith NArith Bool Lia Permutation Operators_Properties.
From Verif.Model Require Import Prelude Parser Unwind Iter Alloc Drop DropRc DropArc RcParser ArcParser Premade DefaultClassifier Chunk
  TextIter TextVec PosStr PosStrish TextMethods DatumMethods.
From Verif.Spec Require Import Contract History Drops Threads RcParser ArcParser.
From Verif.Proofs Require Import HeapFacts HeapLink AllocFacts ThreadFacts ThreadRuns ThreadPool ArcTask ArcSim ArcRun.
From Verif.Properties Require Termination Unwind RcParser Threads.
From Verif.Tests Require Import Cases.
Import ListNotations.
Set Implicit Arguments.

Section Any.
Context {S T ET Pos CE : Type}.
Local Notation X := (leaf_value T ET).
Local Notation heap1 := (rc_mem T ET).
Local Notation datum1 := (rc_datum T ET).
Local Notation W2 := (oracle T ET Pos CE).
Local Notation thread := (thread S T ET Pos CE).
Local Notation config := (config S T ET Pos CE).
Local Notation world := (world X).
Context (umax : N) (cc : classifier) (so1 : stream_ops S unit T Pos) (so2 : stream_ops S W2 T Pos) (co1 : concat_ops unit T) (co2 : concat_ops W2 T).
(** The streams' and texts' functions do not use the state that they are given. *)
Context (HS : plain_stream so1 so2) (HC : plain_concat co1 co2).
(** A lookup depends on the tree of the operator only. *)
Context (find : heap1 -> datum1 -> option arc_kind) (kind : datum T ET -> option arc_kind).
Context (HF : forall h n d, is_tree h n d -> find h n = kind d).
Implicit Types (t : thread) (w : world) (c : config).
Local Notation th_step := (th_step (S:=S) (Pos:=Pos) (CE:=CE) find).
Local Notation c_step := (c_step (CE:=CE) umax cc so1 co1 find).
Local Notation c_steps := (c_steps (CE:=CE) umax cc so1 co1 find).
Local Notation unw := (unw_iter_next umax cc so2 co2 rc_alloc (told kind)).
Local Notation all_ok := (all_ok umax cc so2 co2 find kind).
Local Notation thread_ok := (thread_ok umax cc so2 co2 find kind).

Lemma reached w0 c : orderly w0 -> c_steps (Config w0 []) c -> all_ok c.
Proof. intros HO HT. exact (steps_ok HS HC HF HT (begin_ok umax cc so2 co2 find kind HO)). Qed.
Lemma split_thread c t : In t (threads c) -> exists w ts us, c = Config w (ts ++ t :: us).
Proof. intros HI. destruct (in_split _ _ HI) as (ts & us & E). exists (others c), ts, us. destruct c. cbn in *. subst. reflexivity. Qed.
Lemma pool_in h K W ps mk (p : prog X unit) : pool (X:=X) h K W ps mk -> In p ps -> p = Done tt \/ exists B (m : H B) k b h', p = Atomic m k /\ m h = Ok (b, h').
Proof.
  intros HP HI. destruct (in_split _ _ HI) as (l & r & ->). eapply pool_progress with (ps := l ++ r). eapply pool_perm; [reflexivity| |exact HP].
  symmetry. apply Permutation_middle.
Qed.

Lemma progress w t P qs : pool (mem w) (strongs w ++ th_refs t ++ P) (weaks w) (running w ++ th_drop t :: qs) (made w) -> thread_ok (mem w) t ->
  (th_drop t = Done tt /\ th_in t = None /\ exists r, th_task t = Ended r) \/ exists w' t', th_step w t w' t'.
Proof.
  intros HP HT. destruct w as [h K W ps mk], t as [f st es R p i ta]. unfold ArcRun.thread_ok in HT.
  cbn [mem strongs weaks running made th_fuel th_from th_calls th_refs th_drop th_in th_task] in *.
  destruct (pool_in _ HP (in_elt p ps qs)) as [->|(B & m & k & b & h' & -> & E)].
  2: { right. do 2 eexists. eapply th_dropping. exact E. }
  destruct i as [h0|].
  { destruct HT as (n & a & k & R0 & -> & _). right. do 2 eexists. apply (th_return find (S:=S)) with (r := inl None) (K' := K). reflexivity. }
  destruct HT as (R0 & PR & HO). destruct (pool_consistent HP) as (L & C).
  assert (CR : consistent h (R0 ++ (K ++ P) ++ L)).
  { eapply consistent_perm; [|exact C]. rewrite (app_assoc R0). apply Permutation_app_tail. rewrite PR. apply Permutation_app_swap_app. }
  destruct ta as [a|n k|x k|x n k|x k|n k|n a k]; specialize (HO h _ (guar_refl _ _) CR); cbn [ok] in HO.
  - left. eauto.
  - destruct HO as (R1 & P1 & _). right. do 2 eexists. eapply th_new; [rewrite PR; exact P1|reflexivity].
  - destruct HO as (c & Ec & _). right. do 2 eexists. eapply th_read. exact Ec.
  - destruct HO as (R1 & P1 & _ & Ec & _). right. do 2 eexists. eapply th_write; [rewrite PR; exact P1|exact Ec].
  - destruct HO as (R1 & P1 & _). right. assert (PX : Permutation (K ++ R ++ P) (x :: K ++ R1 ++ P)).
    { rewrite PR, P1. cbn [app]. symmetry. apply Permutation_middle. }
    pose proof (pool_perm PX (Permutation_refl _) HP) as HP1. destruct (pool_ample HP1) as (fuel & depth & HA).
    do 2 eexists. eapply th_begin; [rewrite PR; exact P1|exact HA].
  - right. do 2 eexists. apply th_find.
  - destruct HO as (R1 & P1 & _). right. do 2 eexists. eapply th_call. rewrite PR. exact P1.
Qed.

(** Whatever all of the program does, there is no panic and no use of memory that is freed or
    taken: a thread that parses has returned or can go on... *)
Theorem C63_safe : forall w0 c t, orderly w0 -> c_steps (Config w0 []) c -> In t (threads c) ->
  (th_drop t = Done tt /\ th_in t = None /\ exists r, th_task t = Ended r) \/ exists w' t', th_step (others c) t w' t'.
Proof.
  intros w0 c t HO HT HI. pose proof (reached HO HT) as HA. destruct (split_thread _ _ HI) as (w & ts & us & ->). apply thread_rest in HA.
  destruct HA as (HP & HT0 & _). cbn [others]. eapply progress; eassumption.
Qed.
(** ...and so for the drops of others. *)
Theorem C63_safe_drops : forall w0 c p, orderly w0 -> c_steps (Config w0 []) c -> In p (running (others c)) ->
  p = Done tt \/ exists B (m : H B) k b h', p = Atomic m k /\ m (mem (others c)) = Ok (b, h').
Proof.
  intros w0 c p HO HT HI. destruct (reached HO HT) as [HP _]. eapply pool_in; [exact HP|]. apply in_or_app. left. exact HI.
Qed.

(** When the parser changes memory that it has made, nothing else can see it: there is one reference to
    it, no weak one, and no way from any other thread's references. *)
Theorem C63_write : forall w0 w ts us t x n k, orderly w0 -> c_steps (Config w0 []) (Config w (ts ++ t :: us)) ->
  th_task t = WriteAt x n k -> th_in t = None ->
  cell_at (mem w) x = Some (Cell 1 0 (Some (NLeaf None))) /\ exclusive (mem w) (th_refs t) x /\
  ~ reach (mem w) (strongs w ++ flat_map th_refs (ts ++ us)) x.
Proof.
  intros w0 w ts us t x n k HO HT ET0 EI. pose proof (reached HO HT) as HA. apply thread_rest in HA. destruct HA as (HP & HT0 & _).
  unfold ArcRun.thread_ok in HT0. rewrite EI, ET0 in HT0. destruct HT0 as (R & PR & HW). destruct (pool_consistent HP) as (L & C).
  set (P := flat_map th_refs (ts ++ us)) in *.
  assert (CR : consistent (mem w) (R ++ (strongs w ++ P) ++ L)).
  { eapply consistent_perm; [|exact C]. rewrite (app_assoc R). apply Permutation_app_tail. rewrite PR. apply Permutation_app_swap_app. }
  specialize (HW _ _ (guar_refl _ _) CR). destruct HW as (R1 & P1 & HX & Ex & _). split; [exact Ex|].
  assert (HX' : exclusive (mem w) (th_refs t) x).
  { eapply exclusive_incl; [|exact HX]. intros y Hy. eapply Permutation_in; [symmetry; rewrite PR; exact P1|]. apply in_or_app. auto. }
  split; [exact HX'|]. apply exclusive_apart with (K := th_refs t ++ L).
  - eapply consistent_perm; [|exact CR]. rewrite PR. apply Permutation_app_swap_app.
  - eapply exclusive_incl; [|exact HX']. apply incl_appl, incl_refl.
Qed.

(** What a call of [next] returns is what it would return alone, on trees, from combiners that give the same
    answers; it asks them the same, in the same order.  All references that the thread has left are those
    in the datum that it returns. *)
Theorem C63_result : forall w0 c t r1 st1, orderly w0 -> c_steps (Config w0 []) c -> In t (threads c) ->
  th_in t = None -> th_task t = Ended (r1, st1) ->
  exists calls r2, Forall2 event_is (th_calls t) calls /\
  unw (th_fuel t) (PState (ps_strm (th_from t)) (ps_depth (th_from t)) (map snd calls, [])) =
    (r2, PState (ps_strm st1) (ps_depth st1) ([], map fst calls)) /\
  match r1, r2 with
  | Ok o1, Ok o2 => is_result (mem (others c)) o1 o2 /\ Permutation (th_refs t) (flat_map kids (datum_of o1))
  | Panic, Panic => th_refs t = []
  | OutOfFuel, OutOfFuel => True
  | _, _ => False
  end.
Proof.
  intros w0 c t r1 st1 HO HT HI EI EE. pose proof (reached HO HT) as HA. destruct (split_thread _ _ HI) as (w & ts & us & ->). apply thread_rest in HA.
  destruct HA as (HP & HT0 & _). unfold ArcRun.thread_ok in HT0. rewrite EI, EE in HT0. destruct HT0 as (R & PR & HW). destruct (pool_consistent HP) as (L & C).
  set (P := flat_map th_refs (ts ++ us)) in *.
  assert (CR : consistent (mem w) (R ++ (strongs w ++ P) ++ L)).
  { eapply consistent_perm; [|exact C]. rewrite (app_assoc R). apply Permutation_app_tail. rewrite PR. apply Permutation_app_swap_app. }
  specialize (HW _ _ (guar_refl _ _) CR). destruct HW as (cs & r2 & F & E & H). cbn [fst snd] in E, H. exists cs, r2. split; [exact F|]. split; [exact E|]. cbn [others].
  destruct r1 as [o1|e1| |], r2 as [o2|e2| |]; try contradiction; try exact I.
  - destruct H as [H1 H2]. split; [exact H1|]. rewrite PR. exact H2.
  - subst R. apply Permutation_nil. symmetry. exact PR.
Qed.

(** A step of a thread that parses changes nothing that the others can reach, and takes no exclusive
    access from them... *)
Theorem C63_others : forall w0 w ts us t w' t', orderly w0 -> c_steps (Config w0 []) (Config w (ts ++ t :: us)) -> th_step w t w' t' ->
  let refs := strongs w ++ flat_map th_refs (ts ++ us) in
  (forall x, reach (mem w) refs x -> node_at (mem w) x <> None /\ node_at (mem w') x = node_at (mem w) x) /\
  (forall x, exclusive (mem w) refs x -> cell_at (mem w') x = cell_at (mem w) x).
Proof.
  intros w0 w ts us t w' t' HO HT HTS refs. pose proof (reached HO HT) as HA. apply thread_rest in HA. destruct HA as (HP & HT0 & _).
  destruct (th_step_ok _ _ _ _ _ _ _ HP HT0 HTS) as (_ & _ & [F O]). split; [|exact O]. intros x HR. split; [|apply F; exact HR].
  destruct (pool_consistent HP) as (L & C). apply (cons_refs C). eapply reach_live; [exact C| |exact HR].
  unfold refs. intros y Hy. apply in_app_or in Hy. rewrite !in_app_iff. tauto.
Qed.
(** ...and no step of others changes what a thread that parses can reach. *)
Theorem C63_keeps : forall w0 w ts w', orderly w0 -> c_steps (Config w0 []) (Config w ts) -> step w w' ->
  let refs := flat_map th_refs ts in
  (forall x, reach (mem w) refs x -> node_at (mem w) x <> None /\ node_at (mem w') x = node_at (mem w) x) /\
  (forall x, exclusive (mem w) refs x -> cell_at (mem w') x = cell_at (mem w) x).
Proof.
  intros w0 w ts w' HO HT HTS refs. destruct (reached HO HT) as [HP _]. cbn [everything others threads mem strongs weaks running made] in HP.
  destruct (others_step _ _ HP HTS) as (_ & [F O]). split; [|exact O]. intros x HR. split; [|apply F; exact HR].
  destruct (pool_consistent HP) as (L & C). apply (cons_refs C). eapply reach_live; [exact C| |exact HR].
  unfold refs. intros y Hy. rewrite !in_app_iff. tauto.
Qed.

(** No value in a datum is dropped twice, or made from nothing. *)
Theorem C63_once : forall w0 c, orderly w0 -> c_steps (Config w0 []) c ->
  exists moved, Permutation (dropped (mem (others c)) ++ payloads (mem (others c)) ++ moved) (made (others c)).
Proof.
  intros w0 c HO HT. destruct (reached HO HT) as [(gs & _ & [_ _ IV _]) _]. cbn [e_vals e_made] in IV. rewrite app_nil_r in IV. eauto.
Qed.
(** When all drops have ended, all counts are exact and no memory is left that nothing refers to. *)
Theorem C63_complete : forall w0 c, orderly w0 -> c_steps (Config w0 []) c ->
  (forall p, In p (running (everything c)) -> p = Done tt) -> orderly (everything c).
Proof. intros w0 c HO HT HD. destruct (reached HO HT) as [(gs & HG) _]. exact (good_done HG HD). Qed.

(** A call of [next] comes to its end, in whichever way its steps are mixed with others', if the
    combiners return... *)
Theorem C63_ends : well_founded (fun t' t => exists w w', th_step w t w' t').
Proof.
  assert (HD : forall t, th_drop t = Done tt -> Acc (fun t' t => exists w w', th_step w t w' t') t -> forall p, th_drop t = Done tt ->
     Acc (fun t' t => exists w w', th_step w t w' t') (Thread (th_fuel t) (th_from t) (th_calls t) (th_refs t) p (th_in t) (th_task t))).
  { intros t _ HA p E. induction (child_acc p) as [p _ IH]. constructor. intros t' (w & w' & HT).
    remember (Thread (th_fuel t) (th_from t) (th_calls t) (th_refs t) p (th_in t) (th_task t)) as u eqn:Eu. destruct HT as [h h' K W ps mk f st es R i ta B m k b Hm|h h' K W ps mk f st es R R' n k x Hp Hf|h K W ps mk f st es R x k c0 Hc|h K W ps mk f st es R R' x n k s0 wk o Hp Hc|h K W ps mk f st es R R' x k fuel depth Hp Ha|h K W ps mk f st es R n k|h K W ps mk f st es R R' n a k Hp|h0 h K K' W ps mk f st es R n a k r Hp]; injection Eu as E1 E2 E3 E4 E5 E6 E7.
    1: { subst. apply IH. cbn. eauto. }
    all: destruct t as [tf ts0 te tr td ti tt0]; cbn in *; subst; destruct HA as [HA]; apply HA; exists (World h K W ps mk); eexists; econstructor; eauto. }
  intros [f st es R p i ta]. revert es R p i.
  assert (H0 : forall es R i, Acc (fun t' t => exists w w', th_step w t w' t') (Thread f st es R (Done tt) i ta)).
  2: { intros es R p i. exact (HD (Thread f st es R (Done tt) i ta) eq_refl (H0 es R i) p eq_refl). }
  induction ta as [r|n k IH|x k IH|x n k IH|x k IH|n k IH|n a k IH]; intros es R i.
  1: { constructor. intros t' (w & w' & HT). inversion HT. }
  1, 2, 3, 5: constructor; intros t' (w & w' & HT); inversion HT; subst; apply IH.
  - constructor. intros t' (w & w' & HT). inversion HT. subst. exact (HD (Thread f st es R' (Done tt) None k) eq_refl (IH es R' None) _ eq_refl).
  - assert (HS0 : forall es R h0, Acc (fun t' t => exists w w', th_step w t w' t') (Thread f st es R (Done tt) (Some h0) (CallComb n a k))).
    { intros es' R' h0. constructor. intros t' (w & w' & HT). inversion HT; subst; apply IH. }
    destruct i as [h0|]; [apply HS0|]. constructor. intros t' (w & w' & HT). inversion HT. subst. apply HS0.
Qed.

(** ...and so does all: whenever it is left to go on alone, to where all has returned and all is in order. *)
Lemma steps_trans c1 c2 c3 : c_steps c1 c2 -> c_steps c2 c3 -> c_steps c1 c3.
Proof. intros H1 H2. induction H2 as [c|c c' c'' H2 IH HT]; [exact H1|]. eapply c_more; [exact (IH H1)|exact HT]. Qed.
Theorem C63_finish : forall w0 c, orderly w0 -> c_steps (Config w0 []) c ->
  exists w', c_steps c (Config w' []) /\ orderly w' /\ weaks w' = weaks (others c).
Proof.
  intros w0 c HO HT. apply (reached HO) in HT. clear HO. destruct c as [w ts]. cbn [others]. revert w HT.
  induction ts as [|t ts IH]; intros w HA.
  - destruct HA as [HP _]. unfold everything in HP. cbn [others threads flat_map map mem strongs weaks running made] in HP. rewrite !app_nil_r in HP. destruct HP as (gs & HG).
    replace (World (mem w) (strongs w) (weaks w) (running w) (made w)) with w in HG by (destruct w; reflexivity).
    destruct (run_out HG) as (w' & HR & HO & _ & E & _). exists w'. split; [|split; [exact HO|exact E]].
    clear - HR. apply clos_rt_rtn1 in HR. induction HR as [|y z HD HR IH]; [constructor|]. eapply c_more; [exact IH|]. apply c_others. left. exact HD.
  - revert w HA. induction (C63_ends t) as [t _ IHt]. intros w HA.
    pose proof (proj1 (thread_rest umax cc so2 co2 find kind w [] ts t) HA) as (HP & HT0 & _). cbn [app] in HP.
    destruct (progress _ _ _ _ HP HT0) as [(E1 & E2 & r & E3)|(w1 & t1 & HT)].
    + destruct t as [f st es R p i ta]. cbn in E1, E2, E3. subst. destruct w as [h K W ps mk].
      assert (HF1 : c_step (Config (World h K W ps mk) (Thread f st es R (Done tt) None (Ended r) :: ts)) (Config (World h (K ++ R) W ps mk) ts))
        by exact (c_finish umax cc so1 co1 find h K W ps mk [] ts f st es R r).
      destruct (IH _ (step_ok HS HC HF HA HF1)) as (w' & HR & HO & E). exists w'. split; [|split; [exact HO|exact E]].
      eapply steps_trans; [eapply c_more; [apply c_none|exact HF1]|exact HR].
    + assert (HF1 : c_step (Config w (t :: ts)) (Config w1 (t1 :: ts))) by exact (c_thread umax cc so1 co1 [] ts HT).
      destruct (IHt t1 (ex_intro _ w (ex_intro _ w1 HT)) w1 (step_ok HS HC HF HA HF1)) as (w' & HR & HO & E). exists w'. split; [|split; [exact HO|]].
      * eapply steps_trans; [eapply c_more; [apply c_none|exact HF1]|exact HR].
      * rewrite E. destruct HT; reflexivity.
Qed.

(** When the program has dropped all references, what the parsers made included, nothing is left. *)
Theorem C63_freed : forall w0 c, orderly w0 -> c_steps (Config w0 []) c -> (forall p, In p (running (everything c)) -> p = Done tt) ->
  strongs (everything c) = [] -> weaks (others c) = [] ->
  (forall x, cell_at (mem (others c)) x = None) /\ Permutation (dropped (mem (others c))) (made (others c)).
Proof.
  intros w0 c HO HT HD EK EW. exact (Threads.C46_all_freed (C63_complete HO HT HD) (steps_none _) HD EK EW).
Qed.

(** The bound on recursion in the model does not matter, and there are no panics but those of the combiners. *)
Section Enough.
Context {V : Type} (Rs : S -> list (Prelude.item Pos) -> list (Prelude.item Pos) -> Prop) (Rt : T -> list (Prelude.item Pos) -> Prop) (F : Prop) (view : W2 -> V).
Context (SC : stream_contract F view so2 Rs Rt) (TC : concat_contract F view co2 Rt) (AC : alloc_contract F view (@rc_alloc W2 T ET)).
Theorem C63_enough : forall w0 c t r1 st1 s, orderly w0 -> c_steps (Config w0 []) c -> In t (threads c) ->
  th_in t = None -> th_task t = Ended (r1, st1) ->
  ps_depth (th_from t) = 0%N -> Rs (ps_strm (th_from t)) s [] -> (N.of_nat (length s) <= umax)%N -> 3 * length s + 3 <= th_fuel t ->
  exists o1, r1 = Ok o1.
Proof.
  intros w0 c t r1 st1 s HO HT HI EI EE D HR HU HL. destruct (C63_result t HO HT HI EI EE) as (cs & r2 & _ & E & H).
  set (st := PState (ps_strm (th_from t)) (ps_depth (th_from t)) (map snd cs, @nil (asked T ET))) in *.
  destruct (Termination.C01_next_returns umax cc so2 co2 rc_alloc (told kind) Rs Rt F view SC TC AC st s [] st D HR HU) as (r & p & _ & _ & _ & o & st2 & HN & _); [constructor|].
  pose proof (Unwind.C59_same umax cc so2 co2 rc_alloc (told kind) (th_fuel t) st) as HE. rewrite E, (HN _ HL) in HE. destruct HE as (-> & _).
  destruct r1 as [o1|[]| |]; try contradiction. eauto.
Qed.
End Enough.
End Any.
Print Assumptions C63_safe.
Print Assumptions C63_safe_drops.
Print Assumptions C63_write.
Print Assumptions C63_result.
Print Assumptions C63_others.
Print Assumptions C63_keeps.
Print Assumptions C63_once.
Print Assumptions C63_complete.
Print Assumptions C63_ends.
Print Assumptions C63_finish.
Print Assumptions C63_freed.
Print Assumptions C63_enough.

(** ** Cases *)
Section Exec.
Context {S T ET Pos CE : Type}.
Local Notation X := (leaf_value T ET).
Local Notation heap1 := (rc_mem T ET).
Local Notation datum1 := (rc_datum T ET).
Local Notation E := (error Pos (option CE)).
Local Notation thread := (thread S T ET Pos CE).
Local Notation config := (config S T ET Pos CE).
Local Notation world := (world X).
Context (umax : N) (cc : classifier) (so : stream_ops S unit T Pos) (co : concat_ops unit T) (find : heap1 -> datum1 -> option arc_kind).
Local Notation th_step := (th_step (S:=S) (Pos:=Pos) (CE:=CE) find).
Local Notation c_step := (c_step (CE:=CE) umax cc so co find).
Local Notation c_steps := (c_steps (CE:=CE) umax cc so co find).

Fixpoint take_one (x : nat) (l : list nat) : option (list nat) :=
  match l with
  | [] => None
  | y :: l => if Nat.eqb x y then Some l else option_map (cons y) (take_one x l)
  end.
Fixpoint take_all (xs l : list nat) : option (list nat) :=
  match xs with
  | [] => Some l
  | x :: xs => match take_one x l with Some l => take_all xs l | None => None end
  end.
Lemma take_one_ok x l l' : take_one x l = Some l' -> Permutation l (x :: l').
Proof.
  revert l'. induction l as [|y l IH]; intros l' H; [discriminate|]. cbn in H. destruct (Nat.eqb_spec x y) as [->|_]; [injection H as <-; reflexivity|].
  destruct (take_one x l) as [l1|]; [|discriminate]. injection H as <-. rewrite (IH l1 eq_refl). apply perm_swap.
Qed.
Lemma take_all_ok xs : forall l l', take_all xs l = Some l' -> Permutation l (xs ++ l').
Proof.
  induction xs as [|x xs IH]; intros l l' H; cbn in H; [injection H as <-; reflexivity|]. destruct (take_one x l) as [l1|] eqn:E1; [|discriminate].
  rewrite (take_one_ok _ _ E1). cbn. apply perm_skip, IH, H.
Qed.
Fixpoint tree_at (fuel : nat) (h : heap1) (x : nat) : option tree :=
  match fuel with
  | 0 => None
  | Datatypes.S f =>
      match node_at h x with
      | None => None
      | Some n =>
          match branches n with
          | None => Some TLeaf
          | Some (a, b) => match tree_at f h a, tree_at f h b with Some l, Some r => Some (TBranch l r) | _, _ => None end
          end
      end
  end.
Lemma tree_at_ok fuel h : forall x t, tree_at fuel h x = Some t -> unfolds h x t.
Proof.
  induction fuel as [|f IH]; intros x t H; [discriminate|]. cbn in H. destruct (node_at h x) as [n|] eqn:En; [|discriminate].
  destruct (branches n) as [[a b]|] eqn:Eb.
  - destruct (tree_at f h a) as [l|] eqn:E1; [|discriminate]. destruct (tree_at f h b) as [r|] eqn:E2; [|discriminate]. injection H as <-. cbn. eauto 10.
  - injection H as <-. cbn. eauto.
Qed.
Definition drop_of (h : heap1) (x : nat) : option (prog X unit) :=
  match tree_at (length (cells h)) h x with Some t => Some (arc_drop (tsize t * tsize t) (Datatypes.S (tsize t)) x) | None => None end.
Lemma drop_of_ok h x p : drop_of h x = Some p -> exists fuel depth, p = arc_drop fuel depth x /\ ample h x fuel depth.
Proof.
  unfold drop_of. destruct (tree_at _ h x) as [t|] eqn:Et; [|discriminate]. intros H. exists (tsize t * tsize t), (Datatypes.S (tsize t)). split.
  - apply (f_equal (fun o => match o with Some q => q | None => p end)) in H. symmetry. exact H.
  - eapply ample_of; [exact (tree_at_ok _ _ _ Et)|lia|lia].
Qed.

(** A step of a thread that parses, if it is not waiting for a combiner. *)
Definition th_exec (w : world) (t : thread) : option (world * thread) :=
  let '(World h K W ps mk) := w in
  let '(Thread f st es R p i ta) := t in
  match p with
  | Atomic m k => match m h with Ok (b, h') => Some (World h' K W ps mk, Thread f st es R (k b) i ta) | _ => None end
  | Done tt =>
      match i, ta with
      | None, MakeRef n k =>
          match take_all (kids n) R, fresh (Cell 1 0 (Some n)) h with
          | Some R', Ok (x, h') => Some (World h' K W ps (mk ++ payload n), Thread f st es (x :: R') (Done tt) None (k x))
          | _, _ => None
          end
      | None, ReadCell x k => match cell_at h x with Some c => Some (w, Thread f st es R (Done tt) None (k c)) | None => None end
      | None, WriteAt x n k =>
          match take_all (kids n) R, cell_at h x with
          | Some R', Some (Cell s wk (Some (NLeaf o))) =>
              Some (World (Heap (cells (set_cell h x (Cell s wk (Some n)))) (dropped h ++ payload (NLeaf (DR:=nat) o))) K W ps (mk ++ payload n), Thread f st es R' (Done tt) None k)
          | _, _ => None
          end
      | None, DropRef x k =>
          match take_one x R, drop_of h x with
          | Some R', Some p => Some (w, Thread f st es R' p None k)
          | _, _ => None
          end
      | None, FindComb n k => Some (w, Thread f st es R (Done tt) None (k (find h n)))
      | None, CallComb n a k =>
          match take_all (kids n ++ a_refs a) R with
          | Some R' => Some (World h (K ++ kids n ++ a_refs a) W ps mk, Thread f st es R' (Done tt) (Some h) (CallComb n a k))
          | None => None
          end
      | _, _ => None
      end
  | _ => None
  end.
Lemma th_exec_ok w t w' t' : th_exec w t = Some (w', t') -> th_step w t w' t'.
Proof.
  destruct w as [h K W ps mk], t as [f st es R p i ta]. cbn [th_exec]. intros HX. destruct p as [[]| | |B m k].
  - destruct i as [h0|]; [destruct ta; discriminate|]. destruct ta as [a|n k|x k|x n k|x k|n k|n a k]; [discriminate| | | | | |].
    + destruct (take_all (kids n) R) as [R'|] eqn:Et; [|discriminate]. destruct (fresh (Cell 1 0 (Some n)) h) as [[x h']|e| |] eqn:Ef; try discriminate. injection HX as <- <-.
      eapply th_new; [exact (take_all_ok _ _ Et)|exact Ef].
    + destruct (cell_at h x) as [c|] eqn:Ec; [|discriminate]. injection HX as <- <-. apply th_read. exact Ec.
    + destruct (take_all (kids n) R) as [R'|] eqn:Et; [|discriminate]. destruct (cell_at h x) as [[s wk [[a b|a b|o]|]]|] eqn:Ec; try discriminate. injection HX as <- <-.
      eapply th_write; [exact (take_all_ok _ _ Et)|exact Ec].
    + destruct (take_one x R) as [R'|] eqn:Et; [|discriminate]. destruct (drop_of h x) as [p|] eqn:Ed; [|discriminate]. injection HX as <- <-.
      destruct (drop_of_ok _ _ Ed) as (fuel & depth & -> & HA). eapply th_begin; [exact (take_one_ok _ _ Et)|exact HA].
    + injection HX as <- <-. apply th_find.
    + destruct (take_all (kids n ++ a_refs a) R) as [R'|] eqn:Et; [|discriminate]. injection HX as <- <-. eapply th_call. rewrite app_assoc. exact (take_all_ok _ _ Et).
  - discriminate.
  - discriminate.
  - destruct (m h) as [[b h']|e| |] eqn:Em; try discriminate. injection HX as <- <-. eapply th_dropping. exact Em.
Qed.

(** What the program does next: threads that cannot go on are left alone. *)
Inductive move :=
| MThread (i : nat)
| MAnswer (i : nat) (answer : datum1 -> T + datum1 -> option datum1 + E)
| MStart (f : nat) (st : pstate S unit)
| MFinish (i : nat)
| MClone (x : nat)
| MDrop (x : nat)
| MRun (i : nat)
| MWeak (x : nat).
Fixpoint at_nth {A} (i : nat) (l : list A) : option (list A * A * list A) :=
  match l, i with
  | [], _ => None
  | x :: l, 0 => Some ([], x, l)
  | x :: l, Datatypes.S i => match at_nth i l with Some (a, y, b) => Some (x :: a, y, b) | None => None end
  end.
Lemma at_nth_ok A i : forall (l : list A) a x b, at_nth i l = Some (a, x, b) -> l = a ++ x :: b.
Proof.
  induction i as [|i IH]; intros [|y l] a x b H; try discriminate; cbn in H; [injection H as <- <- <-; reflexivity|].
  destruct (at_nth i l) as [[[a' x'] b']|] eqn:E1; [|discriminate]. injection H as <- <- <-. cbn. f_equal. apply IH, E1.
Qed.
Definition exec (c : config) (m : move) : config :=
  let '(Config w ts) := c in
  match m with
  | MThread i =>
      match at_nth i ts with
      | Some (a, t, b) => match th_exec w t with Some (w', t') => Config w' (a ++ t' :: b) | None => c end
      | None => c
      end
  | MAnswer i answer =>
      match at_nth i ts, w with
      | Some (a, Thread f st es R (Done tt) (Some h0) (CallComb n x k), b), World h K W ps mk =>
          let r := answer n x in
          match take_all (r_refs r) K with
          | Some K' => Config (World h K' W ps mk) (a ++ Thread f st (es ++ [Event h0 n x h r]) (r_refs r ++ R) (Done tt) None (k r) :: b)
          | None => c
          end
      | _, _ => c
      end
  | MStart f st => Config w (ts ++ [Thread f st [] [] (Done tt) None (ap_iter_next umax cc so co f st)])
  | MFinish i =>
      match at_nth i ts, w with
      | Some (a, Thread f st es R (Done tt) None (Ended r), b), World h K W ps mk => Config (World h (K ++ R) W ps mk) (a ++ b)
      | _, _ => c
      end
  | MClone x =>
      let '(World h K W ps mk) := w in
      match take_one x K, cell_at h x with
      | Some _, Some (Cell s wk v) => Config (World (set_cell h x (Cell (Datatypes.S s) wk v)) (x :: K) W ps mk) ts
      | _, _ => c
      end
  | MDrop x =>
      let '(World h K W ps mk) := w in
      match take_one x K, drop_of h x with
      | Some K', Some p => Config (World h K' W (p :: ps) mk) ts
      | _, _ => c
      end
  | MRun i =>
      let '(World h K W ps mk) := w in
      match at_nth i ps with
      | Some (a, Atomic m k, b) => match m h with Ok (v, h') => Config (World h' K W (a ++ k v :: b) mk) ts | _ => c end
      | _ => c
      end
  | MWeak x =>
      let '(World h K W ps mk) := w in
      match take_one x W, dec_weak x h with
      | Some W', Ok (tt, h') => Config (World h' K W' ps mk) ts
      | _, _ => c
      end
  end.
Lemma exec_ok c m : c_steps c (exec c m).
Proof.
  assert (One : forall c c', c_step c c' -> c_steps c c') by (intros c1 c2 H1; eapply c_more; [apply c_none|exact H1]).
  destruct c as [w ts], m as [i|i ans|f st|i|x|x|i|x]; cbn [exec].
  - destruct (at_nth i ts) as [[[a t] b]|] eqn:En; [|constructor]. destruct (th_exec w t) as [[w' t']|] eqn:Ex; [|constructor]. apply One. rewrite (at_nth_ok _ _ En). apply c_thread, th_exec_ok, Ex.
  - destruct (at_nth i ts) as [[[a t] b]|] eqn:En; [|constructor]. destruct t as [f st es R p ii ta], w as [h K W ps mk].
    destruct p as [[]| | |]; try constructor. destruct ii as [h0|]; [|constructor]. destruct ta as [| | | | | |n y k]; try constructor.
    cbv zeta. destruct (take_all (r_refs (ans n y)) K) as [K'|] eqn:Et; [|constructor]. apply One. rewrite (at_nth_ok _ _ En). apply c_thread.
    apply th_return. exact (take_all_ok _ _ Et).
  - apply One. apply c_start.
  - destruct (at_nth i ts) as [[[a t] b]|] eqn:En; [|constructor]. destruct t as [f st es R p ii ta], w as [h K W ps mk].
    destruct p as [[]| | |]; try constructor. destruct ii as [h0|]; [constructor|]. destruct ta; try constructor. apply One. rewrite (at_nth_ok _ _ En). apply c_finish.
  - destruct w as [h K W ps mk]. destruct (take_one x K) as [K'|] eqn:Et; [|constructor]. destruct (cell_at h x) as [[s wk v]|] eqn:Ec; [|constructor].
    apply One, c_others. right. apply step_clone; [|exact Ec]. apply reach_root. eapply Permutation_in; [symmetry; exact (take_one_ok _ _ Et)|left; reflexivity].
  - destruct w as [h K W ps mk]. destruct (take_one x K) as [K'|] eqn:Et; [|constructor]. destruct (drop_of h x) as [p|] eqn:Ed; [|constructor].
    destruct (drop_of_ok _ _ Ed) as (fuel & depth & -> & HA). apply One, c_others. right. eapply step_begin; [exact (take_one_ok _ _ Et)|exact HA].
  - destruct w as [h K W ps mk]. destruct (at_nth i ps) as [[[a p] b]|] eqn:En; [|constructor]. destruct p as [| | |B m k]; try constructor.
    destruct (m h) as [[v h']|e| |] eqn:Em; try constructor. apply One, c_others. left. rewrite (at_nth_ok _ _ En). apply step_drop. exact Em.
  - destruct w as [h K W ps mk]. destruct (take_one x W) as [W'|] eqn:Et; [|constructor]. destruct (dec_weak x h) as [[[] h']|e| |] eqn:Em; try constructor.
    apply One, c_others. right. eapply step_weak_drop; [exact (take_one_ok _ _ Et)|exact Em].
Qed.
Lemma execs_ok ms : forall c, c_steps c (fold_left exec ms c).
Proof. induction ms as [|m ms IH]; intros c; [constructor|]. cbn [fold_left]. eapply steps_trans; [apply exec_ok|apply IH]. Qed.
End Exec.

Local Notation text := im_text.
Local Notation cmem := (rc_mem text Empty_set).
Local Notation titer := (TextIter.titer (TT:=text) (C:=posstr) (CS:=posstr_iter) (Pos:=strpos)).
Local Notation tconfig := (config titer text Empty_set strpos Empty_set).
(** [keep] is bound to an applicative. *)
Definition keep_find (h : cmem) (n : rc_datum text Empty_set) : option arc_kind :=
  match n with NLeaf (Some (LText t)) => if RcParser.keep_text t then Some KApplicative else None | _ => None end.
Definition keep_kind (d : datum text Empty_set) : option arc_kind :=
  match d with DText t => if RcParser.keep_text t then Some KApplicative else None | _ => None end.
Lemma keep_found : forall h n d, is_tree h n d -> keep_find h n = keep_kind d.
Proof. intros h n d H. destruct H; reflexivity. Qed.
Lemma arc_streams A : plain_concat (text_concat_ops (im_ops (W:=unit))) (text_concat_ops (im_ops (W:=A))) /\ plain_stream (im_stream (W:=unit)) (im_stream (W:=A)).
Proof. destruct (RcParser.C60_streams unit A) as (H1 & H2 & _). split; assumption. Qed.
Definition start_world : world (leaf_value text Empty_set) := World RcParser.others [2; 0] [0] [] [].
Lemma start_orderly : orderly start_world.
Proof.
  split.
  - intros p [].
  - exact RcParser.others_consistent.
  - intros x. destruct x as [|[|[|x]]]; cbn.
    + split; [reflexivity|discriminate].
    + intros [E|[]]. discriminate.
    + split; [reflexivity|discriminate].
    + unfold cell_at. cbn. destruct x; cbn; intros [E|[]]; discriminate.
  - apply perm_nil.
Qed.
Local Notation texec := (exec (CE:=Empty_set) usize_max default_classifier im_stream (text_concat_ops im_ops) keep_find).
Definition arc_start (l : literal) : pstate titer unit := PState (RcParser.rc_strm l) 0%N tt.
Arguments arc_start _%lit.
Fixpoint rounds {A} (n : nat) (l : list A) : list A := match n with 0 => [] | S n => l ++ rounds n l end.
Definition keep_answer (n : rc_datum text Empty_set) (a : text + rc_datum text Empty_set) : option (rc_datum text Empty_set) + error strpos (option Empty_set) :=
  match a with inr d => inl (Some d) | inl _ => inl None end.
(** Two threads parse, one of them a source with an error in it, and a third drops the datum 2. *)
Definition program : list (move (S:=titer) (T:=text) (ET:=Empty_set) (Pos:=strpos) (CE:=Empty_set)) :=
  [MStart 100 (arc_start "{a {keep {b c}} {d e}}f"); MStart 100 (arc_start "{x {y z} {w"); MDrop 2] ++
  rounds 9 [MThread 0; MThread 1; MRun 0].
Definition thread_show (t : thread titer text Empty_set strpos Empty_set) :=
  (match th_task t with
   | Ended (Ok (Some (inl n)), _) => Some (inl (RcParser.node_show n))
   | Ended (Ok (Some (inr e)), _) => Some (inr e)
   | _ => None
   end,
   match th_task t with Ended _ => 0 | MakeRef _ _ => 1 | ReadCell _ _ => 2 | WriteAt _ _ _ => 3 | DropRef _ _ => 4 | FindComb _ _ => 5 | CallComb _ _ _ => 6 end,
   match th_in t with Some _ => true | None => false end,
   match th_drop t with Done _ => true | _ => false end,
   th_refs t, length (th_calls t)).
Definition config_show (c : tconfig) :=
  (map thread_show (threads c), RcParser.mem_show (mem (others c)), strongs (others c),
   map (fun p : prog _ unit => match p with Done _ => true | _ => false end) (running (others c))).
Local Notation ran ms := (fold_left texec ms (Config start_world [])).
(** While the combiner runs; and after that another reference to what it was given has been kept. *)
Definition later_on := program ++ rounds 40 [MThread 0; MThread 1; MRun 0] ++ [MClone 13; MAnswer 0 keep_answer].
Definition to_end := later_on ++ rounds 100 [MThread 0; MThread 1].
Example C63_case_middle : config_show (ran (program ++ rounds 9 [MThread 0; MThread 1; MRun 0])) =
  ([(None, 6, true, true, [], 0); (None, 4, false, true, [14; 12], 0)],
   [Some (1, 1, Some (NLeaf None)); None; None; None; Some (1, 0, Some (NLeaf (Some (lit "z"))));
    Some (1, 0, Some (NLeaf (Some (lit "c")))); Some (1, 0, Some (NLeaf None)); Some (1, 0, Some (NLeaf None));
    Some (1, 0, Some (NLeaf (Some (lit "y")))); Some (1, 0, Some (NLeaf (Some (lit "b"))));
    Some (1, 0, Some (NList 4 6)); Some (1, 0, Some (NList 5 7)); Some (1, 0, Some (NComb 8 10)); Some (1, 0, Some (NComb 9 11));
    Some (1, 0, Some (NList 16 17)); Some (1, 0, Some (NLeaf None)); Some (1, 0, Some (NLeaf (Some (lit " "))));
    Some (1, 0, Some (NLeaf None))], [0; 13; 15], [true]).
Proof. vm_compute. reflexivity. Qed.
Example C63_case_end : config_show (ran to_end) =
  ([(Some (inl (NComb 31 32)), 0, false, true, [32; 31], 1); (Some (inr MissingEndChar), 0, false, true, [], 0)],
   [Some (1, 1, Some (NLeaf None)); None; None; None; None; Some (1, 0, Some (NLeaf (Some (lit "c")))); None;
    Some (1, 0, Some (NLeaf None)); None; Some (1, 0, Some (NLeaf (Some (lit "b")))); None;
    Some (1, 0, Some (NList 5 7)); None; Some (2, 0, Some (NComb 9 11)); None; Some (1, 0, Some (NLeaf None)); None; None; None; None; None;
    Some (1, 0, Some (NList 13 15)); Some (1, 0, Some (NList 23 24));
    Some (1, 0, Some (NLeaf (Some (lit " ")))); Some (1, 0, Some (NList 29 30));
    Some (1, 0, Some (NLeaf (Some (lit "e")))); Some (1, 0, Some (NLeaf None)); Some (1, 0, Some (NLeaf (Some (lit "d"))));
    Some (1, 0, Some (NList 25 26)); Some (1, 0, Some (NComb 27 28)); Some (1, 0, Some (NLeaf None));
    Some (1, 0, Some (NLeaf (Some (lit "a")))); Some (1, 0, Some (NList 21 22))], [0; 13], [true]).
Proof. vm_compute. reflexivity. Qed.

(** The theorems for these. *)
Lemma ran_steps ms : c_steps (CE:=Empty_set) usize_max default_classifier im_stream (text_concat_ops im_ops) keep_find (Config start_world []) (ran ms).
Proof. apply execs_ok. Qed.
Lemma two_threads (c : tconfig) a b m k r : config_show c = ([a; b], m, k, r) -> exists t u, threads c = [t; u] /\ thread_show t = a /\ thread_show u = b.
Proof.
  unfold config_show. intros H. injection H as H _ _ _. destruct (threads c) as [|t [|u [|v l]]]; try discriminate. injection H as H1 H2. exists t, u. auto.
Qed.
Example C63_case_safe : exists t u, threads (ran (program ++ rounds 9 [MThread 0; MThread 1; MRun 0])) = [t; u] /\
  (exists h, th_in t = Some h) /\ th_refs u = [14; 12] /\
  exists w' u', th_step keep_find (others (ran (program ++ rounds 9 [MThread 0; MThread 1; MRun 0]))) u w' u'.
Proof.
  destruct (arc_streams (oracle text Empty_set strpos Empty_set)) as (HC & HS).
  pose proof C63_case_middle as E. pose proof (ran_steps (program ++ rounds 9 [MThread 0; MThread 1; MRun 0])) as HT. revert E HT.
  generalize (ran (program ++ rounds 9 [MThread 0; MThread 1; MRun 0])). intros c E HT.
  destruct (two_threads E) as (t & u & E1 & E2 & E3). exists t, u. split; [exact E1|]. unfold thread_show in E2, E3.
  split; [|split].
  - injection E2 as _ _ E2 _ _ _. destruct (th_in t) as [h0|]; [exists h0; reflexivity|discriminate].
  - injection E3 as _ _ _ _ E3 _. exact E3.
  - destruct (C63_safe HS HC keep_kind keep_found u start_orderly HT) as [(_ & _ & r & E4)|HP]; [rewrite E1; right; left; reflexivity| |exact HP].
    injection E3 as _ E3 _ _ _ _. rewrite E4 in E3. discriminate.
Qed.
Example C63_case_result : exists t u calls d (st1 : pstate titer unit), threads (ran to_end) = [t; u] /\ length calls = 1 /\ Forall2 event_is (th_calls t) calls /\
  unw_iter_next usize_max default_classifier im_stream (text_concat_ops im_ops) rc_alloc (told keep_kind) (th_fuel t)
    (PState (ps_strm (th_from t)) (ps_depth (th_from t)) (map snd calls, [])) = (Ok (Some (inl d)), PState (ps_strm st1) (ps_depth st1) ([], map fst calls)) /\
  exists n, is_tree (mem (others (ran to_end))) n d /\ Permutation [32; 31] (kids n).
Proof.
  destruct (arc_streams (oracle text Empty_set strpos Empty_set)) as (HC & HS).
  pose proof C63_case_end as E. pose proof (ran_steps to_end) as HT. revert E HT. generalize (ran to_end). intros c E HT.
  destruct (two_threads E) as (t & u & E1 & E2 & _). unfold thread_show in E2. injection E2 as E2 _ E3 _ E4 E5.
  destruct (th_task t) as [[[[[n|e]|]|e| |] st1]| | | | | |] eqn:E6; try discriminate. assert (E7 : th_in t = None) by (destruct (th_in t); [discriminate|reflexivity]).
  assert (HI : In t (threads c)) by (rewrite E1; left; reflexivity).
  destruct (C63_result HS HC keep_kind keep_found t start_orderly HT HI E7 E6) as (cs & r2 & F & R & H).
  destruct r2 as [[[d|e]|]|e| |]; try contradiction; destruct H as [H1 H2]; try contradiction.
  exists t, u, cs, d, st1. split; [exact E1|]. split; [|split; [exact F|split; [exact R|]]].
  - rewrite <- E5. clear - F. induction F; cbn; congruence.
  - exists n. split; [exact H1|]. rewrite <- E4. cbn in H2. rewrite app_nil_r in H2. exact H2.
Qed.
(** The second change of a list that is being made. *)
Example C63_case_write : exists w t u x n k, ran (later_on ++ rounds 18 [MThread 0]) = Config w [t; u] /\ th_task t = WriteAt x n k /\
  cell_at (mem w) x = Some (Cell 1 0 (Some (NLeaf None))) /\ ~ In x (th_refs t) /\ exclusive (mem w) (th_refs t) x /\
  ~ reach (mem w) (strongs w ++ th_refs u) x /\ strongs w = [0; 13].
Proof.
  destruct (arc_streams (oracle text Empty_set strpos Empty_set)) as (HC & HS).
  assert (E : (map thread_show (threads (ran (later_on ++ rounds 18 [MThread 0]))), strongs (others (ran (later_on ++ rounds 18 [MThread 0]))),
    map (fun t => match th_task t with WriteAt x _ _ => existsb (Nat.eqb x) (th_refs t) | _ => true end) (threads (ran (later_on ++ rounds 18 [MThread 0])))) =
    ([(None, 3, false, true, [30; 29; 22; 21], 1); (Some (inr MissingEndChar), 0, false, false, [], 0)], [0; 13], [false; true])) by (vm_compute; reflexivity).
  pose proof (ran_steps (later_on ++ rounds 18 [MThread 0])) as HT. revert E HT. generalize (ran (later_on ++ rounds 18 [MThread 0])). intros [w ts] E HT.
  cbn [threads others] in E. injection E as E0 E1 E2. destruct ts as [|t [|u [|v l]]]; try discriminate. cbn [map] in E0, E2. apply (f_equal (hd (None, 0, false, false, [], 0))) in E0. cbn [hd] in E0. rename E0 into E3. unfold thread_show in E3.
  injection E3 as _ E4 E5 _ _ _. injection E2 as E2 _. destruct (th_task t) as [| | |x n k| | |] eqn:E6; try discriminate.
  assert (E7 : th_in t = None) by (destruct (th_in t); [discriminate|reflexivity]).
  destruct (C63_write HS HC keep_kind keep_found [] [u] t start_orderly HT E6 E7) as (H1 & H2 & H3).
  exists w, t, u, x, n, k. split; [reflexivity|]. split; [exact E6|]. split; [exact H1|]. split; [|split; [exact H2|split; [|exact E1]]].
  - intros HI. assert (existsb (Nat.eqb x) (th_refs t) = true) by (apply existsb_exists; exists x; split; [exact HI|apply Nat.eqb_refl]). congruence.
  - cbn in H3. rewrite app_nil_r in H3. exact H3.
Qed.
(** After all has been dropped. *)
Definition all_gone := to_end ++ [MFinish 1; MFinish 0; MDrop 0; MDrop 13; MDrop 31; MWeak 0; MDrop 32] ++ rounds 200 [MRun 0; MRun 1; MRun 2; MRun 3].
Example C63_case_freed : (forall x, cell_at (mem (others (ran all_gone))) x = None) /\ made (others (ran all_gone)) <> [] /\
  Permutation (dropped (mem (others (ran all_gone)))) (made (others (ran all_gone))).
Proof.
  destruct (arc_streams (oracle text Empty_set strpos Empty_set)) as (HC & HS).
  assert (E : (map thread_show (threads (ran all_gone)), strongs (others (ran all_gone)), weaks (others (ran all_gone)),
    forallb (fun p : prog _ unit => match p with Done _ => true | _ => false end) (running (others (ran all_gone))), length (made (others (ran all_gone)))) =
    ([], [], [], true, 9)) by (vm_compute; reflexivity).
  pose proof (ran_steps all_gone) as HT. revert E HT. generalize (ran all_gone). intros [w ts] E HT.
  cbn [threads others] in *. injection E as E0 E1 E2 E3 E4. destruct ts as [|t ts]; [|discriminate].
  destruct (C63_freed HS HC keep_kind keep_found start_orderly HT) as [H1 H2]; cbn [everything others threads flat_map map strongs weaks running]; try rewrite !app_nil_r; auto.
  - rewrite forallb_forall in E3. intros p Hp. specialize (E3 p Hp). destruct p as [[]| | |]; try discriminate. reflexivity.
  - split; [exact H1|]. split; [|exact H2]. intros EM. cbn [others] in *. rewrite EM in E4. discriminate.
Qed.

(** For the strings of the ready-made parsers. *)
From Verif.Spec Require Import ChunkContract.
From Verif.Proofs Require Import StrFacts ChunkFacts TextFacts Instances.
Theorem C63_enough_str {ET CE} cc find kind input s : (forall h n d, is_tree h n d -> find h n = kind d) ->
  titer_new posstr_ops (im_ops (W:=unit)) (tx_from (im_ops (W:=unit)) (posstr_from input)) = Ok s -> (N.of_nat (length input) <= usize_max)%N ->
  forall w0 c (t : thread titer text ET strpos CE) r1 st1, orderly w0 ->
  c_steps usize_max cc im_stream (text_concat_ops im_ops) find (Config w0 []) c -> In t (threads c) ->
  th_in t = None -> th_task t = Ended (r1, st1) -> th_from t = PState s 0%N tt -> 3 * length input + 3 <= th_fuel t ->
  exists o1, r1 = Ok o1.
Proof.
  intros HF Es Hu w0 c t r1 st1 HO HT HI EI EE Ef Hl. destruct (arc_streams (oracle text ET strpos CE)) as (HC & HS).
  pose proof (tvec_contract (posstr_contract input) False (fun w : oracle text ET strpos CE => w)) as XC.
  destruct (titer_new_rep (posstr_contract input) (xc_from XC _ _ (posstr_from_rep input))) as (s' & Es' & Hs).
  assert (EQ : s' = s) by (assert (E1 : Ok (E:=Empty_set) s' = Ok s) by (etransitivity; [symmetry; exact Es'|exact Es]); congruence). subst s'.
  assert (El : length (str_items input [] input) = length input) by (unfold str_items; rewrite indexed_length; reflexivity).
  eapply (C63_enough HS HC kind HF (titer_contract (posstr_contract input) XC) (xc_concat XC) (@rc_alloc_contract _ _ _) t (str_items input [] input) HO HT HI EI EE);
    rewrite ?Ef; cbn [ps_depth ps_strm]; [reflexivity|exact Hs|rewrite El; exact Hu|rewrite El; exact Hl].
Qed.
Print Assumptions C63_enough_str.
Example C63_case_enough : exists t u o1 st1, threads (ran to_end) = [t; u] /\ th_task t = Ended (Ok (Some (inl o1)), st1) /\
  th_from t = arc_start "{a {keep {b c}} {d e}}f" /\ 3 * length (lit "{a {keep {b c}} {d e}}f") + 3 <= th_fuel t.
Proof.
  pose proof C63_case_end as E.
  assert (E1 : map th_from (threads (ran to_end)) = [arc_start "{a {keep {b c}} {d e}}f"; arc_start "{x {y z} {w"]) by (vm_compute; reflexivity).
  assert (E2 : map th_fuel (threads (ran to_end)) = [100; 100]) by (vm_compute; reflexivity).
  revert E E1 E2. generalize (ran to_end). intros c E E1 E2. destruct (two_threads E) as (t & u & E3 & E4 & _). unfold thread_show in E4. injection E4 as E4 _ _ _ _ _.
  rewrite E3 in E1, E2. injection E1 as E1 _. injection E2 as E2 _.
  destruct (th_task t) as [[[[[n|e]|]|e| |] st1]| | | | | |] eqn:E6; try discriminate.
  exists t, u, n, st1. split; [exact E3|]. split; [exact E6|]. split; [exact E1|]. rewrite E2. vm_compute. repeat constructor.
Qed.
