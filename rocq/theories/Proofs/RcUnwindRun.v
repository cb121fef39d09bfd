(** Calls of [next] over counted memory, some of which panic. *)
From Coq Require Import List Arith NArith Bool Lia Permutation.
From Verif.Model Require Import Prelude Parser Unwind Iter Utf8 Chunk TextIter PosStr PosStrish TextVec PanicIter
  Alloc TextMethods Premade Drop DropRc RcProgram RcParser RcUnwind.
From Verif.Spec Require Import Drops RcParser RcUnwind.
From Verif.Proofs Require Import HeapFacts DropRcFacts RcProgramFacts HeapLink RcHeap RcSim RcRun RcUnwindSim.
Import ListNotations.
Set Implicit Arguments.

Section Run.
Context {S W1 W2 T ET Pos CE : Type} (U : Prop).
Local Notation CO := (option CE).
Local Notation X := (leaf_value T ET).
Local Notation mem := (rc_mem T ET).
Local Notation datum1 := (rc_datum T ET).
Local Notation A1 := (mem * W1)%type.
Context (umax : N) (cc : classifier) (so1 : stream_ops S A1 T Pos) (so2 : stream_ops S W2 T Pos) (co1 : concat_ops A1 T) (co2 : concat_ops W2 T).
Context (HS : plain_stream so1 so2) (HC : plain_concat co1 co2).
Context (held : W1 -> list nat) (rw : mem -> W1 -> W2 -> Prop) (HW : world_local held rw).
Context (bnd1 : mem -> datum1 -> option (rc_combiner A1 T ET Pos CO)) (bnd2 : bindings W2 T ET Pos CO).
Context (HB : rc_bindings_same U held rw bnd1 bnd2).
Context (arc : bool) (dfuel ddepth : mem -> nat).
Context (HF : forall h, bc h * bc h + bc h < dfuel h).
Implicit Types (h : mem) (K R : list nat).
Local Notation deep := (deep U ddepth).
Local Notation next1 := (ru_iter_next umax cc so1 co1 bnd1 arc dfuel ddepth).
Local Notation next2 := (unw_iter_next umax cc so2 co2 rc_alloc bnd2).
Local Notation called1 := (ru_called umax cc so1 co1 bnd1 arc dfuel ddepth).
Local Notation called2 := (unw_called umax cc so2 co2 rc_alloc bnd2).

Lemma ru_next_moves fuel K s d h w1 w2 : rw h w1 w2 -> consistent h (held w1 ++ K) -> deep h (held w1) ->
  match next1 fuel (PState s d (h, w1)), next2 fuel (PState s d w2) with
  | (Ok r1, PState s1 d1 (h', w1')), (Ok r2, PState s2 d2 w2') =>
      s1 = s2 /\ d1 = d2 /\ rw h' w1' w2' /\ is_result h' r1 r2 /\
      moves U K (held w1) (flat_map kids (datum_of r1) ++ held w1') h h'
  | (Panic, PState s1 d1 (h', w1')), (Panic, PState s2 d2 w2') =>
      s1 = s2 /\ d1 = d2 /\ rw h' w1' w2' /\ moves U K (held w1) (held w1') h h'
  | (OutOfFuel, _), (OutOfFuel, _) => True
  | _, _ => False
  end.
Proof.
  intros Hw C D. destruct (parsers_out umax cc HS HC HW HB arc dfuel ddepth HF fuel) as (H & _ & _). specialize (H Base K s d h w1 w2 Hw C D).
  unfold ru_iter_next, unw_iter_next. destruct H as [o1 o2 s1 d1 h1 w11 w21 Hw1 Hr M1|e s1 d1 h1 w11 w21 Hw1 M1|s1 d1 h1 w11 w21 Hw1 M1|]; auto.
  - destruct o1 as [n|], o2 as [t|]; try contradiction; cbn; rewrite ?app_nil_r; auto.
  - cbn. auto.
Qed.

Lemma caught_frame h h' (r1 : option (datum1 + error Pos CO)) r2 : is_result h r1 r2 -> frame (flat_map kids (datum_of r1)) h h' -> is_result h' r1 r2.
Proof.
  destruct r1 as [[n|e]|], r2 as [[t|e']|]; cbn; auto. rewrite app_nil_r. intros H F. eapply is_tree_frame; [exact H|exact F].
Qed.

Lemma ru_called_moves st1 rs1 st1' : called1 st1 rs1 st1' ->
  forall K s d h w1 w2, st1 = PState s d (h, w1) -> rw h w1 w2 -> consistent h (held w1 ++ K) -> deep h (held w1) ->
  exists rs2 s' d' h' w1' w2', called2 (PState s d w2) rs2 (PState s' d' w2') /\ st1' = PState s' d' (h', w1') /\
    rw h' w1' w2' /\ Forall2 (is_caught h') rs1 rs2 /\ moves U K (held w1) (flat_map kids (caught_datums rs1) ++ held w1') h h'.
Proof.
  intros H. induction H as [st|st fuel r st1 rs st2 E H IH|st fuel st1 rs st2 E H IH]; intros K s d h w1 w2 -> Hw C D.
  - exists [], s, d, h, w1, w2. split; [constructor|]. split; [reflexivity|]. split; [exact Hw|]. split; [constructor|]. apply moves_refl. exact C.
  - pose proof (@ru_next_moves fuel K s d h w1 w2 Hw C D) as G. rewrite E in G. destruct st1 as [s1 d1 [h1 w11]].
    destruct (next2 fuel (PState s d w2)) as [v2 [s2 d2 w21]] eqn:E2. destruct v2 as [r2|e| |]; try contradiction.
    destruct G as (-> & -> & Hw1 & Hr & M1). set (L := flat_map kids (datum_of r)) in *.
    pose proof (deep_moves M1 D) as D1.
    destruct (IH (L ++ K) s2 d2 h1 w11 w21 eq_refl Hw1) as (rs2 & s' & d' & h' & w1' & w2' & Hc & -> & Hw' & Hf & M2).
    + eapply consistent_perm; [|exact (mv_consistent M1)]. rewrite !app_assoc. apply Permutation_app_tail, Permutation_app_comm.
    + eapply deep_incl; [|exact D1]. apply incl_appr, incl_refl.
    + exists (Some r2 :: rs2), s', d', h', w1', w2'. split; [econstructor; eassumption|]. split; [reflexivity|]. split; [exact Hw'|]. split.
      * constructor; [|exact Hf]. eapply caught_frame; [exact Hr|]. eapply frame_incl; [|exact (mv_others M2)]. apply incl_appl, incl_refl.
      * unfold caught_datums. cbn [flat_map]. rewrite flat_map_app. fold L. fold (caught_datums rs). rewrite <- app_assoc. eapply more_moves; eassumption.
  - pose proof (@ru_next_moves fuel K s d h w1 w2 Hw C D) as G. rewrite E in G. destruct st1 as [s1 d1 [h1 w11]].
    destruct (next2 fuel (PState s d w2)) as [v2 [s2 d2 w21]] eqn:E2. destruct v2 as [r2|e| |]; try contradiction.
    destruct G as (-> & -> & Hw1 & M1).
    destruct (IH K s2 d2 h1 w11 w21 eq_refl Hw1 (mv_consistent M1) (deep_moves M1 D)) as (rs2 & s' & d' & h' & w1' & w2' & Hc & -> & Hw' & Hf & M2).
    exists (None :: rs2), s', d', h', w1', w2'. split; [eapply unw_called_panic; eassumption|]. split; [reflexivity|]. split; [exact Hw'|]. split.
    + constructor; [exact I|exact Hf].
    + eapply moves_trans; eassumption.
Qed.

Lemma ru_called_moves_rev st2 rs2 st2' : called2 st2 rs2 st2' ->
  forall K s d h w1 w2, st2 = PState s d w2 -> rw h w1 w2 -> consistent h (held w1 ++ K) -> deep h (held w1) ->
  exists rs1 st1', called1 (PState s d (h, w1)) rs1 st1'.
Proof.
  intros H. induction H as [st|st fuel r st1 rs st2 E H IH|st fuel st1 rs st2 E H IH]; intros K s d h w1 w2 -> Hw C D.
  - exists [], (PState s d (h, w1)). constructor.
  - pose proof (@ru_next_moves fuel K s d h w1 w2 Hw C D) as G. rewrite E in G.
    destruct (next1 fuel (PState s d (h, w1))) as [v1 [s1 d1 [h1 w11]]] eqn:E1. destruct st1 as [s2 d2 w21].
    destruct v1 as [r1|e| |]; try contradiction. destruct G as (-> & -> & Hw1 & Hr & M1). pose proof (deep_moves M1 D) as D1.
    destruct (IH (flat_map kids (datum_of r1) ++ K) s2 d2 h1 w11 w21 eq_refl Hw1) as (rs1 & st1' & Hc).
    + eapply consistent_perm; [|exact (mv_consistent M1)]. rewrite !app_assoc. apply Permutation_app_tail, Permutation_app_comm.
    + eapply deep_incl; [|exact D1]. apply incl_appr, incl_refl.
    + exists (Some r1 :: rs1), st1'. econstructor; eassumption.
  - pose proof (@ru_next_moves fuel K s d h w1 w2 Hw C D) as G. rewrite E in G.
    destruct (next1 fuel (PState s d (h, w1))) as [v1 [s1 d1 [h1 w11]]] eqn:E1. destruct st1 as [s2 d2 w21].
    destruct v1 as [r1|e| |]; try contradiction. destruct G as (-> & -> & Hw1 & M1).
    destruct (IH K s2 d2 h1 w11 w21 eq_refl Hw1 (mv_consistent M1) (deep_moves M1 D)) as (rs1 & st1' & Hc).
    exists (None :: rs1), st1'. eapply ru_called_panic; eassumption.
Qed.
End Run.

Lemma plain_pstrs TT A B (x1 : text_ops TT posstrish A) (x2 : text_ops TT posstrish B) : plain_text x1 x2 ->
  plain_stream (pstrs_stream x1) (pstrs_stream x2).
Proof.
  intros HP. split; [reflexivity|reflexivity| |].
  - intros s a b. change (exists r s', pstrs_next_accum x1 s a = (r, (s', a)) /\ pstrs_next_accum x2 s b = (r, (s', b))).
    unfold pstrs_next_accum. generalize (pstrs_fuel s). intros f. revert s.
    induction f as [|f IH]; intros s; cbn [pstrs_next_accum_loop]; [eauto|]. destruct (pt_cur s) as [cs|]; [|eauto].
    destruct (posstrish_next_accum cs) as [[[it|]|[]| |] cs']; eauto.
    destruct (plain_accum posstrish_ops HP (pt_accum s) cs' a b) as (r & cs'' & -> & ->). destruct r as [t|e| |]; eauto.
    destruct (pnext_posstrish cs'' (pt_char s) (pt_iter s) (pt_peeked s) (Some t)) as [[u|[]| |] s']; eauto.
  - intros s a b. cbn. unfold pstrs_accum_done. destruct (pt_cur s) as [cs|].
    + destruct (plain_accum posstrish_ops HP (pt_accum s) cs a b) as (r & cs' & -> & ->). eauto.
    + destruct HP as (_ & -> & _). eauto.
Qed.
Lemma plain_pchars TT A B (x1 : text_ops TT posstrish A) (x2 : text_ops TT posstrish B) : plain_text x1 x2 ->
  plain_stream (pchars_stream x1) (pchars_stream x2).
Proof.
  intros (Hf & _ & _). split; [reflexivity|reflexivity| |].
  - intros s a b. cbn. unfold pchars_next_accum. destruct (pchars_pull s (pc_accum s)) as [[[it|]|[]| |] p]; cbn; eauto.
  - intros s a b. cbn. unfold pchars_accum_done. rewrite Hf. eauto.
Qed.
