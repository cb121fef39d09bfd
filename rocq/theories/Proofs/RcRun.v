(** Calls of [next] over counted memory, and the streams and texts that do not use the
    allocator. *)
From Coq Require Import List Arith NArith Bool Lia Permutation.
From Verif.Model Require Import Prelude Parser Iter Utf8 Chunk TextIter PosStr PosStrish TextVec CharIter StrishIter
  Alloc TextMethods Premade Drop DropRc RcProgram RcParser.
From Verif.Spec Require Import Drops RcParser History.
From Verif.Proofs Require Import HeapFacts DropRcFacts RcProgramFacts HeapLink RcHeap RcSim.
Import ListNotations.
Set Implicit Arguments.

Section Run.
Context {S W1 W2 T ET Pos CE : Type} (U : Prop).
Local Notation X := (leaf_value T ET).
Local Notation mem := (rc_mem T ET).
Local Notation datum1 := (rc_datum T ET).
Local Notation A1 := (mem * W1)%type.
Context (umax : N) (cc : classifier) (so1 : stream_ops S A1 T Pos) (so2 : stream_ops S W2 T Pos) (co1 : concat_ops A1 T) (co2 : concat_ops W2 T).
Context (HS : plain_stream so1 so2) (HC : plain_concat co1 co2).
Context (held : W1 -> list nat) (rw : mem -> W1 -> W2 -> Prop) (HW : world_local held rw).
Context (bnd1 : mem -> datum1 -> option (rc_combiner A1 T ET Pos CE)) (bnd2 : bindings W2 T ET Pos CE).
Context (HB : rc_bindings_same U held rw bnd1 bnd2).
Context (arc : bool) (dfuel ddepth : mem -> nat).
Context (HF : forall h, bc h * bc h + bc h < dfuel h).
Implicit Types (h : mem) (K R : list nat).
Local Notation deep := (deep U ddepth).
Local Notation next1 := (rp_iter_next umax cc so1 co1 bnd1 arc dfuel ddepth).
Local Notation next2 := (iter_next umax cc so2 co2 rc_alloc bnd2).
Local Notation called1 := (rc_called umax cc so1 co1 bnd1 arc dfuel ddepth).
Local Notation called2 := (called umax cc so2 co2 rc_alloc bnd2).

Lemma next_moves fuel K s d h w1 w2 : rw h w1 w2 -> consistent h (held w1 ++ K) -> deep h (held w1) ->
  match next1 fuel (PState s d (h, w1)), next2 fuel (PState s d w2) with
  | (Ok r1, PState s1 d1 (h', w1')), (Ok r2, PState s2 d2 w2') =>
      s1 = s2 /\ d1 = d2 /\ rw h' w1' w2' /\ is_result h' r1 r2 /\
      moves U K (held w1) (flat_map kids (datum_of r1) ++ held w1') h h'
  | (Panic, _), (Panic, _) | (OutOfFuel, _), (OutOfFuel, _) => True
  | _, _ => False
  end.
Proof.
  intros Hw C D. destruct (parsers_out umax cc HS HC HW HB arc dfuel ddepth HF fuel) as (H & _ & _). specialize (H Base K s d h w1 w2 Hw C D).
  unfold rp_iter_next, iter_next, do_next. destruct H as [o1 o2 s1 d1 h1 w11 w21 Hw1 Hr M1|e s1 d1 h1 w11 w21 Hw1 M1| |]; auto.
  - destruct o1 as [n|], o2 as [t|]; try contradiction; cbn; rewrite ?app_nil_r; auto.
  - cbn. auto.
Qed.

Lemma is_result_frame h h' (r1 : option (datum1 + error Pos CE)) r2 : is_result h r1 r2 -> frame (flat_map kids (datum_of r1)) h h' -> is_result h' r1 r2.
Proof.
  destruct r1 as [[n|e]|], r2 as [[t|e']|]; cbn; auto. rewrite app_nil_r. intros H F. eapply is_tree_frame; [exact H|exact F].
Qed.

(** One call, and then more. *)
Lemma more_moves K R0 R1 R2 L h h1 h2 : moves U K R0 (L ++ R1) h h1 -> moves U (L ++ K) R1 R2 h1 h2 -> moves U K R0 (L ++ R2) h h2.
Proof.
  intros M1 M2. eapply moves_trans; [exact M1|]. apply moves_keep; [|exact M2].
  pose proof (mv_consistent M1) as G. rewrite <- app_assoc in G. exact G.
Qed.

Lemma called_moves st1 rs1 st1' : called1 st1 rs1 st1' ->
  forall K s d h w1 w2, st1 = PState s d (h, w1) -> rw h w1 w2 -> consistent h (held w1 ++ K) -> deep h (held w1) ->
  exists rs2 s' d' h' w1' w2', called2 (PState s d w2) rs2 (PState s' d' w2') /\ st1' = PState s' d' (h', w1') /\
    rw h' w1' w2' /\ Forall2 (is_result h') rs1 rs2 /\ moves U K (held w1) (owned rs1 ++ held w1') h h'.
Proof.
  intros H. induction H as [st|st fuel r st1 rs st2 E H IH]; intros K s d h w1 w2 -> Hw C D.
  - exists [], s, d, h, w1, w2. split; [constructor|]. split; [reflexivity|]. split; [exact Hw|]. split; [constructor|]. apply moves_refl. exact C.
  - pose proof (@next_moves fuel K s d h w1 w2 Hw C D) as G. rewrite E in G. destruct st1 as [s1 d1 [h1 w11]].
    destruct (next2 fuel (PState s d w2)) as [v2 [s2 d2 w21]] eqn:E2. destruct v2 as [r2|e| |]; try contradiction.
    destruct G as (-> & -> & Hw1 & Hr & M1). set (L := flat_map kids (datum_of r)) in *.
    pose proof (deep_moves M1 D) as D1.
    destruct (IH (L ++ K) s2 d2 h1 w11 w21 eq_refl Hw1) as (rs2 & s' & d' & h' & w1' & w2' & Hc & -> & Hw' & Hf & M2).
    + eapply consistent_perm; [|exact (mv_consistent M1)]. rewrite !app_assoc. apply Permutation_app_tail, Permutation_app_comm.
    + eapply deep_incl; [|exact D1]. apply incl_appr, incl_refl.
    + exists (r2 :: rs2), s', d', h', w1', w2'. split; [econstructor; eassumption|]. split; [reflexivity|]. split; [exact Hw'|]. split.
      * constructor; [|exact Hf]. eapply is_result_frame; [exact Hr|]. eapply frame_incl; [|exact (mv_others M2)]. apply incl_appl, incl_refl.
      * unfold owned. cbn [flat_map]. rewrite flat_map_app. fold L. fold (owned rs). rewrite <- app_assoc. eapply more_moves; eassumption.
Qed.

Lemma called_moves_rev st2 rs2 st2' : called2 st2 rs2 st2' ->
  forall K s d h w1 w2, st2 = PState s d w2 -> rw h w1 w2 -> consistent h (held w1 ++ K) -> deep h (held w1) ->
  exists rs1 st1', called1 (PState s d (h, w1)) rs1 st1'.
Proof.
  intros H. induction H as [st|st fuel r st1 rs st2 E H IH]; intros K s d h w1 w2 -> Hw C D.
  - exists [], (PState s d (h, w1)). constructor.
  - pose proof (@next_moves fuel K s d h w1 w2 Hw C D) as G. rewrite E in G. 
    destruct (next1 fuel (PState s d (h, w1))) as [v1 [s1 d1 [h1 w11]]] eqn:E1. destruct st1 as [s2 d2 w21].
    destruct v1 as [r1|e| |]; try contradiction. destruct G as (-> & -> & Hw1 & Hr & M1). pose proof (deep_moves M1 D) as D1.
    destruct (IH (flat_map kids (datum_of r1) ++ K) s2 d2 h1 w11 w21 eq_refl Hw1) as (rs1 & st1' & Hc).
    + eapply consistent_perm; [|exact (mv_consistent M1)]. rewrite !app_assoc. apply Permutation_app_tail, Permutation_app_comm.
    + eapply deep_incl; [|exact D1]. apply incl_appr, incl_refl.
    + exists (r1 :: rs1), st1'. econstructor; eassumption.
Qed.
End Run.

(** Dropping the results. *)
Section Drops.
Context {T ET : Type} (arc : bool) (fuel depth : nat).
Implicit Types (h : rc_mem T ET) (K R : list nat).

Lemma bc_after_drop h n R K : consistent h (kids n ++ R ++ K) -> deep_enough depth h (kids n ++ R) -> bc h * bc h + bc h < fuel ->
  ends (drop_datum arc fuel depth n) h (fun _ h' => moves True K (kids n ++ R) R h h' /\ bc h' <= bc h).
Proof.
  assert (Two : forall a b, consistent h (a :: b :: R ++ K) -> deep_enough depth h (a :: b :: R) -> bc h * bc h + bc h < fuel ->
    ends (d_bind (rc_drop arc fuel depth a) (fun _ => rc_drop arc fuel depth b)) h (fun _ h' => moves True K (a :: b :: R) R h h' /\ bc h' <= bc h)).
  { intros a b C D L. eapply ends_bind.
    - eapply ends_rc_drop with (U := True) (R := b :: R) (K := K); eassumption.
    - intros [] h1 [M1 L1]. eapply ends_mono.
      + eapply ends_rc_drop with (U := True) (R := R) (K := K); [exact (mv_consistent M1)| |nia].
        destruct D as [D|[D Un]]; [left; lia|right; split; [exact D|]]. apply (mv_unshared M1); auto.
      + intros [] h2 [M2 L2]. split; [eapply moves_trans; eassumption|lia]. }
  destruct n as [a b|a b|v]; intros C D L.
  - apply Two; assumption.
  - apply Two; assumption.
  - destruct v as [v|]; cbn [drop_datum].
    + do 2 eexists. split; [reflexivity|]. split; [apply moves_drop_value; exact C|reflexivity].
    + apply ends_ret. split; [apply moves_refl; exact C|reflexivity].
Qed.

Lemma drop_datums_moves ns : forall h R K, consistent h (flat_map kids ns ++ R ++ K) -> deep_enough depth h (flat_map kids ns ++ R) ->
  bc h * bc h + bc h < fuel ->
  ends (drop_datums arc fuel depth ns) h (fun _ h' => moves True K (flat_map kids ns ++ R) R h h').
Proof.
  induction ns as [|n ns IH]; intros h R K C D L; cbn [drop_datums flat_map].
  - apply ends_ret. apply moves_refl. exact C.
  - cbn [flat_map] in C, D. rewrite <- app_assoc in C, D |- *. eapply ends_bind.
    + eapply bc_after_drop with (R := flat_map kids ns ++ R) (K := K); [|exact D|exact L]. rewrite <- app_assoc. exact C.
    + intros [] h1 [M1 L1]. eapply ends_mono; [apply IH with (R := R) (K := K)|].
      * pose proof (mv_consistent M1) as G. rewrite <- app_assoc in G. exact G.
      * destruct D as [D|[D Un]]; [left; lia|right; split; [exact D|]]. apply (mv_unshared M1); auto.
      * nia.
      * intros [] h2 M2. eapply moves_trans; eassumption.
Qed.

(** Owning nothing at the start. *)
Lemma reach_nil h y : ~ reach h [] y.
Proof. intros H. induction H; auto. Qed.
Lemma moves_all K R h h' : consistent h K -> moves True K [] R h h' ->
  (forall y, reach h' R y -> cell_at h y = None /\ exists n, cell_at h' y = Some (Cell 1 0 (Some n))) /\
  (forall y, ~ reach h' R y -> cell_at h' y = cell_at h y).
Proof.
  intros C M. split.
  - intros y Hy. split.
    + destruct (cell_at h y) as [c|] eqn:E; [|reflexivity]. destruct (mv_apart M E (@reach_nil h y)) as [_ G]. contradiction.
    + apply (mv_unshared M I); [|exact Hy]. intros z Hz. destruct (reach_nil Hz).
  - intros y Hy. destruct (cell_at h y) as [c|] eqn:E; [apply (mv_apart M E (@reach_nil h y))|].
    destruct (cell_at h' y) as [c|] eqn:E'; [|reflexivity]. exfalso.
    assert (node_at h y = None) as En by (unfold node_at; rewrite E; reflexivity).
    destruct c as [s w [n|]].
    + assert (node_at h' y = Some n) as En' by (unfold node_at; rewrite E'; reflexivity).
      pose proof (@all_reachable _ h' _ y n (mv_consistent M) En') as G. apply reach_app in G as [G|G]; [auto|].
      apply (@frame_reach' _ K h h' y (mv_others M)) in G. apply (mv_others M) in G. congruence.
    + destruct (cons_count (mv_consistent M) y E') as [_ G]. cbn in G. assert (s = 0) as -> by (apply G; reflexivity).
      destruct (mv_weak M I y E') as [Z|(c0 & E0 & _)]; [|congruence]. cbn in Z. subst w. apply (mv_freed M) in E'. congruence.
Qed.
End Drops.

(** Streams over texts that do not use the allocator. *)
Section Instances.
Context {TT C CS Pos A B : Type} (k : chunk_ops C CS Pos) (x1 : text_ops TT C A) (x2 : text_ops TT C B).
Definition plain_text : Prop := tx_from x1 = tx_from x2 /\ tx_empty x1 = tx_empty x2 /\
  forall t1 t2 a b, exists r, tx_concat x1 t1 t2 a = (r, a) /\ tx_concat x2 t1 t2 b = (r, b).
Context (HP : plain_text).

Lemma plain_text_concat : plain_concat (text_concat_ops x1) (text_concat_ops x2).
Proof. destruct HP as (_ & He & Hc). split; [exact He|exact Hc]. Qed.
Lemma plain_accum acc cs a b : exists r cs', accum_chunk k x1 acc cs a = (r, (cs', a)) /\ accum_chunk k x2 acc cs b = (r, (cs', b)).
Proof.
  destruct HP as (Hf & He & Hc). unfold accum_chunk. destruct (cs_accum_done k cs) as [[c|[]| |] cs']; eauto.
  rewrite Hf, He. destruct (Hc (match acc with Some t => t | None => tx_empty x2 end) (tx_from x2 c) a b) as (r & -> & ->). eauto.
Qed.
Lemma plain_titer : plain_stream (titer_stream k x1) (titer_stream k x2).
Proof.
  split; [reflexivity|reflexivity| |].
  - intros s a b. cbn. unfold titer_next_accum. destruct (ti_cur s) as [cs|]; [|eauto].
    generalize (ti_accum s). revert cs. induction (ti_next s) as [| |c rest IH]; intros cs acc; cbn [titer_next_accum_loop].
    all: destruct (cs_next_accum k cs) as [[[it|]|[]| |] cs']; eauto.
    all: destruct (plain_accum acc cs' a b) as (r & cs'' & -> & ->); destruct r as [t|e| |]; eauto.
  - intros s a b. cbn. unfold titer_accum_done. destruct (ti_cur s) as [cs|].
    + destruct (plain_accum (ti_accum s) cs a b) as (r & cs' & -> & ->). eauto.
    + destruct HP as (_ & -> & _). eauto.
Qed.
End Instances.

Lemma plain_tvec C CS Pos (k : chunk_ops C CS Pos) A B : plain_text (tvec_ops (A := A) k) (tvec_ops (A := B) k).
Proof. split; [reflexivity|]. split; [reflexivity|]. intros t1 t2 a b. eexists. split; reflexivity. Qed.
Lemma plain_strishiter TT A B (x1 : text_ops TT posstrish A) (x2 : text_ops TT posstrish B) : plain_text x1 x2 ->
  plain_stream (strishiter_stream x1) (strishiter_stream x2).
Proof.
  intros HP. split; [reflexivity|reflexivity| |].
  - intros s a b. change (exists r s', strishiter_next_accum x1 s a = (r, (s', a)) /\ strishiter_next_accum x2 s b = (r, (s', b))).
    unfold strishiter_next_accum. generalize (strishiter_fuel s). intros f. revert s.
    induction f as [|f IH]; intros s; cbn [strishiter_next_accum_loop]; [eauto|]. destruct (si_cur s) as [cs|]; [|eauto].
    destruct (posstrish_next_accum cs) as [[[it|]|[]| |] cs']; eauto.
    destruct (plain_accum posstrish_ops HP (si_accum s) cs' a b) as (r & cs'' & -> & ->). destruct r as [t|e| |]; eauto.
    destruct (next_posstrish cs'' (si_char s) (si_iter s) (si_peeked s)) as [[[cur it'] peeked]| | |]; eauto.
  - intros s a b. cbn. unfold strishiter_accum_done. destruct (si_cur s) as [cs|].
    + destruct (plain_accum posstrish_ops HP (si_accum s) cs a b) as (r & cs' & -> & ->). eauto.
    + destruct HP as (_ & -> & _). eauto.
Qed.
Lemma plain_chariter TT A B (x1 : text_ops TT posstrish A) (x2 : text_ops TT posstrish B) : plain_text x1 x2 ->
  plain_stream (chariter_stream x1) (chariter_stream x2).
Proof.
  intros (Hf & _ & _). split; [reflexivity|reflexivity| |].
  - intros s a b. cbn. unfold chariter_next_accum. destruct (pk_next (ch_iter s)) as [[it|] p]; eauto.
  - intros s a b. cbn. unfold chariter_accum_done. rewrite Hf. eauto.
Qed.
