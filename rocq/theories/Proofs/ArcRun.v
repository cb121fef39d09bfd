(** Programs where threads parse while others use the memory: what holds all the time. *)
From Coq Require Import List Arith NArith Bool Lia Permutation.
From Verif.Model Require Import Prelude Parser Unwind Iter Alloc Drop DropRc DropArc RcParser ArcParser.
From Verif.Spec Require Import Drops Threads RcParser ArcParser.
From Verif.Proofs Require Import HeapFacts HeapLink ThreadFacts ThreadRuns ThreadPool ArcTask ArcSim.
Import ListNotations.
Set Implicit Arguments.

Section Run.
Context {S T ET Pos CE : Type}.
Local Notation CO := (option CE).
Local Notation X := (leaf_value T ET).
Local Notation heap1 := (rc_mem T ET).
Local Notation datum1 := (rc_datum T ET).
Local Notation E := (error Pos CO).
Local Notation event := (event T ET Pos CE).
Local Notation W2 := (oracle T ET Pos CE).
Local Notation Cell := (@Cell X).
Local Notation thread := (thread S T ET Pos CE).
Local Notation config := (config S T ET Pos CE).
Local Notation world := (world X).
Context (umax : N) (cc : classifier) (so1 : stream_ops S unit T Pos) (so2 : stream_ops S W2 T Pos) (co1 : concat_ops unit T) (co2 : concat_ops W2 T).
Context (HS : plain_stream so1 so2) (HC : plain_concat co1 co2).
Context (find : heap1 -> datum1 -> option arc_kind) (kind : datum T ET -> option arc_kind).
Context (HF : forall h n d, is_tree h n d -> find h n = kind d).
Implicit Types (h : heap1) (R L K : list nat) (es : list event) (t : thread) (w : world).
Local Notation ok := (ok find).
Local Notation th_step := (th_step (S:=S) (Pos:=Pos) (CE:=CE) find).
Local Notation c_step := (c_step (CE:=CE) umax cc so1 co1 find).
Local Notation c_steps := (c_steps (CE:=CE) umax cc so1 co1 find).

(** What a thread returns. *)
Definition ret_is f (st : pstate S unit) (rr : res Empty_set (option (datum1 + E)) * pstate S unit) es R h : Prop :=
  exists calls r2, Forall2 event_is es calls /\
  unw_iter_next umax cc so2 co2 rc_alloc (told kind) f (PState (ps_strm st) (ps_depth st) (map snd calls, [])) =
    (r2, PState (ps_strm (snd rr)) (ps_depth (snd rr)) ([], map fst calls)) /\
  match fst rr, r2 with
  | Ok o1, Ok o2 => is_result h o1 o2 /\ Permutation R (flat_map kids (datum_of o1))
  | Panic, Panic => R = []
  | OutOfFuel, OutOfFuel => True
  | _, _ => False
  end.
Lemma iter_ok f st h : ok (ap_iter_next umax cc so1 co1 f st) (ret_is f st) [] [] h.
Proof.
  destruct st as [s d []]. destruct (parsers_run umax cc HS HC find kind HF f) as (Hn & _ & _). specialize (Hn Base [] s d [] h [] (Permutation_refl _)).
  unfold ap_iter_next. eapply ok_bind; [|exact Hn]. intros [r1 [s' d' []]] es R h1 HQ h2 L G C. destruct (HQ h2 L G C) as (_ & ev & cs & r2 & -> & Fc & Rn & Hr).
  cbn [app fst snd ps_strm ps_depth] in Fc, Rn, Hr |- *. specialize (Rn [] []). rewrite app_nil_r in Rn. cbn [app] in Rn.
  exists cs. unfold unw_iter_next. cbn [ps_strm ps_depth]. rewrite Rn.
  destruct r1 as [o1|e1| |], r2 as [o2|e2| |]; try contradiction; try rewrite app_nil_r in Hr.
  - destruct Hr as [Hr PR]. destruct o1 as [n1|], o2 as [d2|]; try contradiction.
    + exists (Ok (Some (inl d2))). split; [exact Fc|]. split; [reflexivity|]. split; [exact Hr|]. cbn. rewrite app_nil_r. exact PR.
    + exists (Ok None). split; [exact Fc|]. split; [reflexivity|]. split; [exact I|exact PR].
  - destruct Hr as [<- PR]. exists (Ok (Some (inr e1))). split; [exact Fc|]. split; [reflexivity|]. split; [reflexivity|exact PR].
  - exists Panic. split; [exact Fc|]. split; [reflexivity|]. cbn. apply Permutation_nil. symmetry. exact Hr.
  - exists OutOfFuel. split; [exact Fc|]. split; [reflexivity|exact I].
Qed.

Definition thread_ok h t : Prop :=
  match th_in t with
  | None => exists R, Permutation (th_refs t) R /\ ok (th_task t) (ret_is (th_fuel t) (th_from t)) (th_calls t) R h
  | Some h0 => exists n a k R, th_task t = CallComb n a k /\ th_drop t = Done tt /\ Permutation (th_refs t) R /\ guar R h0 h /\
      forall r h2 L2, guar R h0 h2 -> consistent h2 ((r_refs r ++ R) ++ L2) ->
        ok (k r) (ret_is (th_fuel t) (th_from t)) (th_calls t ++ [Event h0 n a h2 r]) (r_refs r ++ R) h2
  end.
Lemma thread_rely h h' t : guar (th_refs t) h h' -> thread_ok h t -> thread_ok h' t.
Proof.
  intros G. unfold thread_ok. destruct (th_in t) as [h0|].
  - intros (n & a & k & R & E1 & E2 & PR & G0 & H). exists n, a, k, R. repeat (split; [assumption|]). split; [|exact H]. eapply guar_trans; [exact G0|]. eapply guar_perm; eassumption.
  - intros (R & PR & H). exists R. split; [exact PR|]. eapply ok_rely; [|exact H]. eapply guar_perm; eassumption.
Qed.

Lemma perm_start K R P R0 R1 : Permutation R R0 -> Permutation (K ++ R ++ P) (R1 ++ K ++ P) -> Permutation (K ++ R0 ++ P) (R1 ++ K ++ P).
Proof. intros PR H. rewrite <- H. apply Permutation_app_head, Permutation_app_tail. symmetry. exact PR. Qed.

(** A step of a thread. *)
Lemma th_step_ok w t w' t' P qs : pool (mem w) (strongs w ++ th_refs t ++ P) (weaks w) (running w ++ th_drop t :: qs) (made w) -> thread_ok (mem w) t ->
  th_step w t w' t' ->
  pool (mem w') (strongs w' ++ th_refs t' ++ P) (weaks w') (running w' ++ th_drop t' :: qs) (made w') /\ thread_ok (mem w') t' /\ guar (strongs w ++ P) (mem w) (mem w').
Proof.
  intros HP HT HQ.
  assert (Front : forall (h : heap1) K R W ps p mk, pool h (K ++ R ++ P) W (ps ++ p :: qs) mk <-> pool h (R ++ K ++ P) W (p :: ps ++ qs) mk).
  { intros h K R W ps p mk. split; apply pool_perm; try apply Permutation_app_swap_app; [|]; [symmetry|]; apply Permutation_middle. }
  destruct HQ; cbn [mem strongs weaks running made th_refs th_drop th_in th_task th_calls th_fuel th_from] in *; unfold thread_ok in *; cbn [th_refs th_drop th_in th_task th_calls th_fuel th_from] in *.
  - (* dropping *)
    apply Front in HP. destruct (pool_step HP H) as [HP' G]. split; [apply Front; exact HP'|]. split.
    + destruct i as [h0|].
      * destruct HT as (n & a & k0 & R0 & E1 & E2 & _). discriminate.
      * destruct HT as (R0 & PR & HO). exists R0. split; [exact PR|]. eapply ok_rely; [|exact HO]. eapply guar_incl; [|exact G]. intros x Hx. apply in_or_app. left. eapply Permutation_in; [symmetry; exact PR|exact Hx].
    + eapply guar_incl; [|exact G]. apply incl_appr, incl_refl.
  - (* new *)
    cbv [fresh] in H0. injection H0 as <- <-. destruct HT as (R0 & PR & HO). apply Front in HP. destruct (pool_consistent HP) as (L & C).
    assert (HP1 : pool h (kids n ++ R' ++ K ++ P) W (Done tt :: ps ++ qs) mk).
    { eapply pool_perm; [|reflexivity|exact HP]. rewrite H, <- app_assoc. reflexivity. }
    destruct (HO h ((K ++ P) ++ L) (guar_refl _ _)) as (R1 & PR1 & HO1).
    { eapply consistent_perm; [|exact C]. rewrite <- PR, !app_assoc. reflexivity. }
    split; [|split].
    + apply Front. cbn [app]. apply pool_new. exact HP1.
    + eexists. split; [|exact HO1]. apply perm_skip. apply Permutation_app_inv_l with (l := kids n). rewrite <- PR1, <- PR. symmetry. exact H.
    + eapply grow_guar; [exact C|]. apply incl_appl, incl_appr, incl_refl.
  - (* read *)
    destruct HT as (R0 & PR & HO). pose proof HP as HP0. apply Front in HP0. destruct (pool_consistent HP0) as (L & C).
    destruct (HO h ((K ++ P) ++ L) (guar_refl _ _)) as (c0 & Ec & HO1).
    { eapply consistent_perm; [|exact C]. rewrite <- PR, !app_assoc. reflexivity. }
    rewrite H in Ec. injection Ec as <-. split; [exact HP|]. split; [eauto|apply guar_refl].
  - (* write *)
    destruct HT as (R0 & PR & HO). apply Front in HP. destruct (pool_consistent HP) as (L & C).
    assert (HP1 : pool h (kids n ++ R' ++ K ++ P) W (Done tt :: ps ++ qs) mk).
    { eapply pool_perm; [|reflexivity|exact HP]. rewrite H, <- app_assoc. reflexivity. }
    destruct (HO h ((K ++ P) ++ L) (guar_refl _ _)) as (R1 & PR1 & HX & Ex & HO1).
    { eapply consistent_perm; [|exact C]. rewrite <- PR, !app_assoc. reflexivity. }
    rewrite H0 in Ex. injection Ex as -> -> ->. rewrite app_nil_r.
    assert (PR' : Permutation R' R1) by (apply Permutation_app_inv_l with (l := kids n); rewrite <- PR1, <- PR; symmetry; exact H).
    assert (HX' : exclusive h R' x) by (eapply exclusive_incl; [|exact HX]; intros y Hy; eapply Permutation_in; [symmetry; exact PR'|exact Hy]).
    split; [|split].
    + apply Front. replace (Heap (cells (set_cell h x (Cell 1 0 (Some n)))) (dropped h)) with (Heap (cells (set_cell h x (Cell 1 0 (Some n)))) (dropped h ++ payload (X:=X) (NLeaf (DR:=nat) None))) by (cbn [payload]; rewrite app_nil_r; reflexivity).
      apply pool_link; [exact HP1| |exact H0]. eapply exclusive_incl; [|exact HX']. apply incl_appl, incl_refl.
    + exists R1. split; [exact PR'|exact HO1].
    + eapply same_cells_guar with (h1 := upd h x (Some (Cell 1 0 (Some n)))); [reflexivity|].
      assert (NR : ~ reach h (K ++ P) x).
      { apply exclusive_apart with (K := R' ++ kids n ++ L); [|eapply exclusive_incl; [|exact HX']; apply incl_appl, incl_refl].
        eapply consistent_perm; [|exact C]. rewrite H, <- (app_assoc (kids n ++ R')). etransitivity; [apply Permutation_app_swap_app|].
        apply Permutation_app_head. rewrite <- app_assoc. apply Permutation_app_swap_app. }
      eapply upd_guar; eauto.
  - (* begin *)
    destruct HT as (R0 & PR & HO). apply Front in HP. destruct (pool_consistent HP) as (L & C).
    destruct (HO h ((K ++ P) ++ L) (guar_refl _ _)) as (R1 & PR1 & HO1).
    { eapply consistent_perm; [|exact C]. rewrite <- PR, !app_assoc. reflexivity. }
    split; [|split; [|apply guar_refl]].
    + apply Front. apply pool_begin; [|exact H0]. apply pool_undone. eapply pool_perm; [|reflexivity|exact HP]. rewrite H. reflexivity.
    + exists R1. split; [|exact HO1]. apply Permutation_cons_inv with (a := x). rewrite <- PR1, <- PR. symmetry. exact H.
  - (* find *)
    destruct HT as (R0 & PR & HO). pose proof HP as HP0. apply Front in HP0. destruct (pool_consistent HP0) as (L & C).
    destruct (HO h ((K ++ P) ++ L) (guar_refl _ _)) as (_ & HO1).
    { eapply consistent_perm; [|exact C]. rewrite <- PR, !app_assoc. reflexivity. }
    split; [exact HP|]. split; [eauto|apply guar_refl].
  - (* call *)
    destruct HT as (R0 & PR & HO). apply Front in HP. destruct (pool_consistent HP) as (L & C).
    destruct (HO h ((K ++ P) ++ L) (guar_refl _ _)) as (R1 & PR1 & HO1).
    { eapply consistent_perm; [|exact C]. rewrite <- PR, !app_assoc. reflexivity. }
    split; [|split; [|apply guar_refl]].
    + apply Front. eapply pool_perm; [|reflexivity|exact HP]. rewrite H, (app_assoc (kids n)), <- app_assoc. etransitivity; [apply Permutation_app_swap_app|].
      apply Permutation_app_head. rewrite <- (app_assoc K). apply Permutation_app_swap_app.
    + exists n, a, k, R1. split; [reflexivity|]. split; [reflexivity|]. split; [|split; [apply guar_refl|exact HO1]].
      apply Permutation_app_inv_l with (l := kids n ++ a_refs a). rewrite <- !app_assoc, <- PR1, <- PR. symmetry. exact H.
  - (* return *)
    destruct HT as (n0 & a0 & k0 & R0 & E1 & E2 & PR & G0 & HO). injection E1 as <- <- <-.
    assert (HP1 : pool h (K' ++ (r_refs r ++ R) ++ P) W (ps ++ Done tt :: qs) mk).
    { eapply pool_perm; [|reflexivity|exact HP]. rewrite H, <- !app_assoc. apply Permutation_app_swap_app. }
    split; [exact HP1|]. split; [|apply guar_refl].
    exists (r_refs r ++ R0). split; [apply Permutation_app_head; exact PR|]. apply Front in HP1. destruct (pool_consistent HP1) as (L & C).
    apply HO with (L2 := (K' ++ P) ++ L); [exact G0|]. eapply consistent_perm; [|exact C]. rewrite <- PR, !app_assoc. reflexivity.
Qed.

(** All of the program. *)
Definition all_ok (c : config) : Prop :=
  (let w := everything c in pool (mem w) (strongs w) (weaks w) (running w) (made w)) /\ Forall (thread_ok (mem (others c))) (threads c).
Lemma thread_rest w ts us t : all_ok (Config w (ts ++ t :: us)) <->
  pool (mem w) (strongs w ++ th_refs t ++ flat_map th_refs (ts ++ us)) (weaks w) (running w ++ th_drop t :: map th_drop (ts ++ us)) (made w) /\
  thread_ok (mem w) t /\ Forall (thread_ok (mem w)) (ts ++ us).
Proof.
  unfold all_ok, everything. cbn [others threads mem strongs weaks running made].
  assert (P1 : Permutation (flat_map th_refs (ts ++ t :: us)) (th_refs t ++ flat_map th_refs (ts ++ us))).
  { rewrite !flat_map_app. cbn [flat_map]. apply Permutation_app_swap_app. }
  assert (P2 : Permutation (map th_drop (ts ++ t :: us)) (th_drop t :: map th_drop (ts ++ us))).
  { rewrite !map_app. cbn [map]. symmetry. apply Permutation_middle. }
  rewrite !Forall_app, Forall_cons_iff. split.
  - intros (HP & H1 & H2 & H3). split; [|auto]. eapply pool_perm; [apply Permutation_app_head; exact P1|apply Permutation_app_head; exact P2|exact HP].
  - intros (HP & H1 & H2 & H3). split; [|auto]. eapply pool_perm; [apply Permutation_app_head; symmetry; exact P1|apply Permutation_app_head; symmetry; exact P2|exact HP].
Qed.
Lemma rely_all h h' ts : guar (flat_map th_refs ts) h h' -> Forall (thread_ok h) ts -> Forall (thread_ok h') ts.
Proof.
  intros G. rewrite !Forall_forall. intros H t Ht. eapply thread_rely; [|apply H, Ht]. eapply guar_incl; [|exact G]. intros x Hx. apply in_flat_map. eauto.
Qed.
Lemma step_ok c c' : all_ok c -> c_step c c' -> all_ok c'.
Proof.
  intros HA HT. destruct HT as [w w' ts HT|w w' t t' ts us HT|w ts f st|h K W ps mk ts us f st es R r].
  - destruct HA as [HP HF0]. cbn [everything others threads mem strongs weaks running made] in *. destruct (others_step _ _ HP HT) as [HP' G].
    split; [exact HP'|]. eapply rely_all; eassumption.
  - apply thread_rest in HA. destruct HA as (HP & HT0 & HF0). destruct (th_step_ok _ _ HP HT0 HT) as (HP' & HT' & G). apply thread_rest. split; [exact HP'|]. split; [exact HT'|].
    eapply rely_all; [|exact HF0]. eapply guar_incl; [|exact G]. apply incl_appr, incl_refl.
  - apply thread_rest. destruct HA as [HP HF0]. cbn [everything others threads mem strongs weaks running made th_refs th_drop app] in *. rewrite app_nil_r. split; [|split].
    + eapply pool_perm; [reflexivity| |apply pool_done; exact HP]. apply Permutation_middle.
    + unfold thread_ok. cbn [th_in th_refs th_task th_fuel th_from th_calls]. exists []. split; [reflexivity|apply iter_ok].
    + exact HF0.
  - apply thread_rest in HA. cbn [everything others threads mem strongs weaks running made th_refs th_drop app] in *. destruct HA as (HP & HT0 & HF0). split; [|exact HF0].
    cbn [everything others threads mem strongs weaks running made]. apply pool_undone. eapply pool_perm; [| |exact HP]; [rewrite app_assoc; reflexivity|symmetry; apply Permutation_middle].
Qed.
Lemma steps_ok c c' : c_steps c c' -> all_ok c -> all_ok c'.
Proof. intros H HA. induction H as [c|c c1 c2 H IH HT]; [exact HA|]. eapply step_ok; [exact (IH HA)|exact HT]. Qed.
Lemma begin_ok w : orderly w -> all_ok (Config w []).
Proof.
  intros HO. split; [|constructor]. cbn [everything others threads flat_map map mem strongs weaks running made]. rewrite !app_nil_r. destruct (good_orderly HO) as (gs & HG). exists gs. destruct w. exact HG.
Qed.
End Run.
