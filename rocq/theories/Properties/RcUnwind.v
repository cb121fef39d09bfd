(** C62: counted memory when combiners or the source panic and the caller catches it.

    C59 and C61 say what later calls return; here, that nothing leaks (Model/RcUnwind.v). *)
From Coq Require Import List Arith NArith Bool Lia Permutation.
From Verif.Model Require Import Prelude Parser Unwind Iter Utf8 Chunk TextIter PosStr PosStrish TextVec PanicIter
  Alloc DefaultClassifier TextMethods DatumMethods Bindings Premade Drop DropRc RcProgram RcParser RcUnwind.
From Verif.Spec Require Import Drops RcParser RcUnwind.
From Verif.Proofs Require Import HeapFacts DropRcFacts RcProgramFacts HeapLink RcHeap RcSim RcRun RcUnwindSim RcUnwindRun.
From Verif.Properties Require Import RcParser Interrupt.
From Verif.Tests Require Import Str Cases AbsCases.
Import ListNotations.

Section Any.
Context {S W1 W2 T ET Pos CE : Type} (U : Prop).
Local Notation mem := (rc_mem T ET).
Local Notation A := (mem * W1)%type.
Context (umax : N) (cc : classifier) (so1 : stream_ops S A T Pos) (so2 : stream_ops S W2 T Pos)
        (co1 : concat_ops A T) (co2 : concat_ops W2 T)
        (held : W1 -> list nat) (rw : mem -> W1 -> W2 -> Prop)
        (bnd1 : mem -> rc_datum T ET -> option (rc_combiner A T ET Pos (option CE))) (bnd2 : bindings W2 T ET Pos (option CE))
        (arc : bool) (dfuel ddepth : mem -> nat).
Local Notation next1 := (ru_iter_next umax cc so1 co1 bnd1 arc dfuel ddepth).
Local Notation next2 := (unw_iter_next umax cc so2 co2 rc_alloc bnd2).
Local Notation called1 := (ru_called umax cc so1 co1 bnd1 arc dfuel ddepth).
Local Notation called2 := (unw_called umax cc so2 co2 rc_alloc bnd2).

(** A call of [next] returns or panics as it does when references are trees; also when it
    panics, the counts are exact, all that is allocated is what the combiners' state and the other owners
    reach, and what could not be reached is unchanged. *)
Theorem C62_next fuel K s d h w1 w2 :
  plain_stream so1 so2 -> plain_concat co1 co2 -> world_local held rw -> rc_bindings_same U held rw bnd1 bnd2 -> fuelled dfuel ->
  rw h w1 w2 -> consistent h (held w1 ++ K) -> deep U ddepth h (held w1) ->
  match next1 fuel (PState s d (h, w1)), next2 fuel (PState s d w2) with
  | (Ok r1, PState s1 d1 (h', w1')), (Ok r2, PState s2 d2 w2') =>
      s1 = s2 /\ d1 = d2 /\ rw h' w1' w2' /\ is_result h' r1 r2 /\
      moves U K (held w1) (flat_map kids (datum_of r1) ++ held w1') h h'
  | (Panic, PState s1 d1 (h', w1')), (Panic, PState s2 d2 w2') =>
      s1 = s2 /\ d1 = d2 /\ rw h' w1' w2' /\ moves U K (held w1) (held w1') h h'
  | (OutOfFuel, _), (OutOfFuel, _) => True
  | _, _ => False
  end.
Proof. intros HS HC HW HB HF Hw C D. apply ru_next_moves; assumption. Qed.

(** The same for any calls of [next], with all results kept. *)
Theorem C62_calls K s d h w1 w2 rs1 st1 :
  plain_stream so1 so2 -> plain_concat co1 co2 -> world_local held rw -> rc_bindings_same U held rw bnd1 bnd2 -> fuelled dfuel ->
  rw h w1 w2 -> consistent h (held w1 ++ K) -> deep U ddepth h (held w1) ->
  called1 (PState s d (h, w1)) rs1 st1 ->
  exists rs2 s' d' h' w1' w2', called2 (PState s d w2) rs2 (PState s' d' w2') /\ st1 = PState s' d' (h', w1') /\
    rw h' w1' w2' /\ Forall2 (is_caught h') rs1 rs2 /\
    moves U K (held w1) (flat_map kids (caught_datums rs1) ++ held w1') h h'.
Proof. intros HS HC HW HB HF Hw C D H. eapply ru_called_moves; eauto. Qed.
Theorem C62_calls_total K s d h w1 w2 rs2 st2 :
  plain_stream so1 so2 -> plain_concat co1 co2 -> world_local held rw -> rc_bindings_same U held rw bnd1 bnd2 -> fuelled dfuel ->
  rw h w1 w2 -> consistent h (held w1 ++ K) -> deep U ddepth h (held w1) ->
  called2 (PState s d w2) rs2 st2 -> exists rs1 st1, called1 (PState s d (h, w1)) rs1 st1.
Proof. intros HS HC HW HB HF Hw C D H. eapply ru_called_moves_rev; eauto. Qed.

(** When all the results are dropped, all that is left is what the combiners' state and
    the others reach, whatever has panicked. *)
Theorem C62_dropped K s d h w1 w2 rs1 st1 fuel depth :
  plain_stream so1 so2 -> plain_concat co1 co2 -> world_local held rw -> rc_bindings_same U held rw bnd1 bnd2 -> fuelled dfuel ->
  rw h w1 w2 -> consistent h (held w1 ++ K) -> deep U ddepth h (held w1) ->
  called1 (PState s d (h, w1)) rs1 st1 ->
  let (h1, w1') := ps_alloc st1 in
  branch_cells h1 < depth -> branch_cells h1 * branch_cells h1 + branch_cells h1 < fuel ->
  exists h', drop_datums arc fuel depth (caught_datums rs1) h1 = Ok (tt, h') /\ moves U K (held w1) (held w1') h h'.
Proof.
  intros HS HC HW HB HF Hw C D H.
  destruct (C62_calls K s d h w1 w2 rs1 st1 HS HC HW HB HF Hw C D H) as (rs2 & s' & d' & h1 & w1' & w2' & _ & -> & _ & _ & M1).
  cbn [ps_alloc]. intros HD HFu. pose proof (mv_consistent M1) as C1. rewrite <- app_assoc in C1.
  destruct (@drop_datums_moves T ET arc fuel depth (caught_datums rs1) h1 (held w1') K C1 (or_introl HD) HFu) as ([] & h' & E & M2).
  exists h'. split; [exact E|]. eapply moves_trans; [exact M1|]. apply moves_weaken. exact M2.
Qed.
End Any.
Print Assumptions C62_next.
Print Assumptions C62_calls.
Print Assumptions C62_calls_total.
Print Assumptions C62_dropped.

(** Without combiners: calls that panic or fail leave the memory as it was, and dropping the results of the
    others restores it; recursion two deep is enough for the drops, also for those in unwinding. *)
Section Unbound.
Context {S W T ET Pos CE : Type}.
Local Notation mem := (rc_mem T ET).
Local Notation A := (mem * W)%type.
Context (umax : N) (cc : classifier) (so1 : stream_ops S A T Pos) (so2 : stream_ops S W T Pos)
        (co1 : concat_ops A T) (co2 : concat_ops W T) (arc : bool) (dfuel : mem -> nat).
Local Notation called1 := (ru_called (CE:=CE) umax cc so1 co1 (fun _ _ => None) arc dfuel (fun _ => 2)).

Theorem C62_failed K s d h w rs1 st1 : plain_stream so1 so2 -> plain_concat co1 co2 -> fuelled dfuel -> consistent h K ->
  called1 (PState s d (h, w)) rs1 st1 -> caught_datums rs1 = [] ->
  forall y, cell_at (fst (ps_alloc st1)) y = cell_at h y.
Proof.
  intros HS HC HF C H N.
  destruct (C62_calls True umax cc so1 so2 co1 co2 (fun _ => []) (fun _ w1 w2 => w1 = w2) _ _ arc dfuel (fun _ => 2) K s d h w w rs1 st1
    HS HC unbound_local unbound_same HF eq_refl C (unbound_deep h) H) as (rs2 & s' & d' & h' & w1' & w2' & _ & -> & _ & _ & M).
  rewrite N in M. cbn [ps_alloc fst]. intros y. apply (moves_all C M). apply reach_nil.
Qed.
Theorem C62_restored K s d h w rs1 st1 fuel : plain_stream so1 so2 -> plain_concat co1 co2 -> fuelled dfuel -> consistent h K ->
  called1 (PState s d (h, w)) rs1 st1 ->
  let h1 := fst (ps_alloc st1) in
  branch_cells h1 * branch_cells h1 + branch_cells h1 < fuel ->
  exists h', drop_datums arc fuel 2 (caught_datums rs1) h1 = Ok (tt, h') /\ forall y, cell_at h' y = cell_at h y.
Proof.
  intros HS HC HF C H. cbv zeta.
  destruct (C62_calls True umax cc so1 so2 co1 co2 (fun _ => []) (fun _ w1 w2 => w1 = w2) _ _ arc dfuel (fun _ => 2) K s d h w w rs1 st1
    HS HC unbound_local unbound_same HF eq_refl C (unbound_deep h) H) as (rs2 & s' & d' & h1 & w1' & w2' & _ & -> & _ & _ & M).
  cbn [ps_alloc fst]. intros HFu. pose proof (mv_consistent M) as C1. rewrite <- app_assoc in C1.
  assert (Un : unshared h1 (flat_map kids (caught_datums rs1) ++ [])) by (apply (mv_unshared M I); intros y Hy; destruct (reach_nil Hy)).
  destruct (@drop_datums_moves T ET arc fuel 2 (caught_datums rs1) h1 [] K C1 (or_intror (conj (le_n 2) Un)) HFu) as ([] & h' & E & M2).
  exists h'. split; [exact E|]. assert (moves True K [] [] h h') as M3 by (eapply moves_trans; eassumption).
  intros y. apply (moves_all C M3). apply reach_nil.
Qed.
End Unbound.
Print Assumptions C62_failed.
Print Assumptions C62_restored.

(** The streams whose iterators panic do not use the allocator either. *)
Theorem C62_streams A B : plain_stream (pchars_stream (st_ops (W:=A))) (pchars_stream (st_ops (W:=B))) /\
  plain_stream (pstrs_stream (st_ops (W:=A))) (pstrs_stream (st_ops (W:=B))).
Proof. split; [apply plain_pchars, plain_tvec|apply plain_pstrs, plain_tvec]. Qed.
Print Assumptions C62_streams.

(** ** Cases *)
Section Pan.
Context {T ET Pos CE : Type}.
Local Notation mem := (rc_mem T ET).
Context (arc : bool) (is_pan : T -> bool).

(** A combiner that panics; its arguments are dropped. *)
Definition rc_pan (n n' : rc_datum T ET) (a : mem * list nat) : (option (rc_datum T ET) + error Pos (option CE)) * (mem * list nat) :=
  let (h, w) := a in
  match drop_datums arc (S (branch_cells h * branch_cells h + branch_cells h)) (S (branch_cells h)) [n; n'] h with
  | Ok (tt, h') => (inr (FailedCombiner None), (h', w))
  | _ => (inr FailedDerefTryMut, a)
  end.
Definition rc_pans : mem -> rc_datum T ET -> option (rc_combiner (mem * list nat) T ET Pos (option CE)) := fun _ n =>
  match n with NLeaf (Some (LText t)) => if is_pan t then Some (RApplicative rc_pan) else None | _ => None end.
Definition tree_pans : bindings (list (datum T ET)) T ET Pos (option CE) := fun d =>
  match d with DText t => if is_pan t then Some (Applicative (fun _ _ w => (inr (FailedCombiner None), w))) else None | _ => None end.
Lemma pan_same : rc_bindings_same False (fun w => w) kept rc_pans tree_pans.
Proof.
  intros h0 n d H. destruct H; try exact I. cbn. destruct (is_pan t); [|exact I].
  intros h w1 w2 n' d' _ Hd Hw K C. unfold rc_pan.
  destruct (@drop_datums_moves T ET arc (S (branch_cells h * branch_cells h + branch_cells h)) (S (branch_cells h))
    [NLeaf (Some (LText t)); n'] h w1 K) as ([] & h1 & E1 & M1); [|left; apply le_n|apply le_n|].
  { cbn [flat_map kids branches app] in *. rewrite app_nil_r. exact C. }
  match goal with |- context [match ?x with Ok _ => _ | _ => _ end] => replace x with (Ok (E := Empty_set) (tt, h1)) by (symmetry; exact E1) end.
  cbn [flat_map kids branches app] in M1. rewrite app_nil_r in M1. split; [|split; [reflexivity|apply moves_weaken; exact M1]].
  eapply kept_local; [exact Hw|]. intros y Hy.
  (* the state's references are kept: as owned by others *)
  destruct (@drop_datums_moves T ET arc (S (branch_cells h * branch_cells h + branch_cells h)) (S (branch_cells h))
    [NLeaf (Some (LText t)); n'] h [] (w1 ++ K)) as ([] & h2 & E2 & M2); [|left; apply le_n|apply le_n|].
  { cbn [flat_map kids branches app] in *. rewrite app_nil_r. exact C. }
  rewrite E1 in E2. injection E2 as <-. apply (mv_others M2). apply reach_app. auto.
Qed.
End Pan.
Section Both.
Context {W1 W2 T ET Pos CE : Type} (U : Prop).
Definition rc_both (b c : rc_mem T ET -> rc_datum T ET -> option (rc_combiner (rc_mem T ET * W1) T ET Pos CE)) h n :=
  match b h n with Some f => Some f | None => c h n end.
Definition tree_both (b c : bindings W2 T ET Pos CE) d := match b d with Some f => Some f | None => c d end.
Lemma both_same held rw b1 c1 b2 c2 : rc_bindings_same U held rw b1 b2 -> rc_bindings_same U held rw c1 c2 ->
  rc_bindings_same U held rw (rc_both b1 c1) (tree_both b2 c2).
Proof.
  intros Hb Hc h n d H. specialize (Hb h n d H). specialize (Hc h n d H). unfold rc_both, tree_both.
  destruct (b1 h n) as [[]|], (b2 d) as [[]|]; try contradiction; assumption.
Qed.
End Both.

Local Notation text := (tvec posstr).
Local Notation cmem := (rc_mem text Empty_set).
Definition pan_text (t : text) : bool :=
  text_eqb posstr_ops (im_ops (W:=unit)) posstr_size t (tx_from (im_ops (W:=unit)) (posstr_from (lit "pan"))).
Local Notation pk_next := (ru_iter_next (ET:=Empty_set) (CE:=Empty_set) usize_max default_classifier (im_stream (W:=cmem * list nat)) (text_concat_ops im_ops)
  (rc_both (rc_keeps false keep_text) (rc_pans false pan_text)) false rc_fuel (fun h => S (branch_cells h)) 100).
Definition caught_show {S} (r : res Empty_set (option (rc_datum text Empty_set + error strpos (option Empty_set))) * pstate S (cmem * list nat)) :=
  (match fst r with Ok (Some (inl n)) => Some (inl (node_show n)) | Ok (Some (inr e)) => Some (inr e) | _ => None end,
   mem_show (fst (ps_alloc (snd r))), snd (ps_alloc (snd r)), ps_depth (snd r)).
(** A panic inside of forms, after a combiner that has kept a reference: that, and what the others have, is all that
    is left. *)
Example C62_case_combiner : caught_show (pk_next (rc_start "{a {keep {b c}} {d {pan e} f}}g" others [])) =
  (Some (inr (FailedCombiner None)),
   [Some (3, 1, Some (NLeaf None)); None; Some (1, 0, Some (NComb 0 0));
    Some (1, 0, Some (NLeaf (Some (lit "c")))); Some (1, 0, Some (NLeaf None)); Some (1, 0, Some (NLeaf (Some (lit "b"))));
    Some (1, 0, Some (NList 3 4)); Some (1, 0, Some (NComb 5 6)); Some (1, 0, Some (NLeaf None));
    Some (1, 0, Some (NList 7 8)); None; None; None; None; None; None; None], [9], 3%N).
Proof. vm_compute. reflexivity. Qed.

Local Notation ptext := (tvec posstrish).
Local Notation pmem := (rc_mem ptext Empty_set).
Definition pmem_show (h : pmem) : list (option (nat * nat)) := map (option_map (fun c : cell _ => (strong c, weak c))) (cells h).
Definition pothers : pmem := Heap [Some (Cell 3 1 (Some (NLeaf None))); None; Some (Cell 1 0 (Some (NComb 0 0)))] [].
Local Notation pch_next := (ru_iter_next (ET:=Empty_set) (CE:=Empty_set) usize_max default_classifier (pchars_stream (st_ops (W:=pmem * unit))) (text_concat_ops st_ops)
  (fun _ _ => None) false (fun h => Datatypes.S (branch_cells h * branch_cells h + branch_cells h)) (fun _ => 2) 100).
Definition pch_start (l : literal) : pstate pchars (pmem * unit) := PState (pchars_new (evs_of l)) 0%N (pothers, tt).
Arguments pch_start _%lit.
Definition pch_show (r : res Empty_set (option (rc_datum ptext Empty_set + error charpos (option Empty_set))) * pstate pchars (pmem * unit)) :=
  (match fst r with Ok _ => false | _ => true end, pmem_show (fst (ps_alloc (snd r))), ps_depth (snd r)).
(** A panic of the source's iterator inside of forms: all is given back. The next call makes a new datum. *)
Example C62_case_stream : pch_show (pch_next (pch_start "{a {b c} {d {e f}g!{h i}} j}k")) =
  (true, [Some (3, 1); None; Some (1, 0); None; None; None; None; None; None; None; None; None; None; None; None; None; None], 2%N).
Proof. vm_compute. reflexivity. Qed.
Example C62_case_after : pch_show (pch_next (snd (pch_next (pch_start "{a {b c} {d {e f}g!{h i}} j}k")))) =
  (false, [Some (3, 1); None; Some (1, 0); None; None; None; None; None; None; None; None; None; None; None; None; None; None;
    Some (1, 0); Some (1, 0); Some (1, 0); Some (1, 0)], 2%N).
Proof. vm_compute. reflexivity. Qed.

(** The theorems for these: with the memory of the others. *)
Lemma caught_error {S} r e0 m w d : caught_show (S:=S) r = (Some (inr e0), m, w, d) ->
  exists s h, r = (Ok (Some (inr e0)), PState s d (h, w)).
Proof.
  destruct r as [[[[n|e]|]|e| |] [s d' [h w']]]; try discriminate. unfold caught_show. cbn [fst snd ps_alloc ps_depth]. intros H.
  injection H as H1 _ H2 H3. subst. exists s, h. reflexivity.
Qed.
Lemma pk_called st r st1 : pk_next st = (Ok r, st1) ->
  ru_called (CE:=Empty_set) usize_max default_classifier im_stream (text_concat_ops im_ops)
    (rc_both (rc_keeps false keep_text) (rc_pans false pan_text)) false rc_fuel (fun h => S (branch_cells h)) st [Some r] st1.
Proof. intros E. eapply ru_called_next; [exact E|constructor]. Qed.
Example C62_case_theorem_combiner : exists s h w,
  pk_next (rc_start "{a {keep {b c}} {d {pan e} f}}g" others []) = (Ok (Some (inr (FailedCombiner None))), PState s 3%N (h, w)) /\ w <> [] /\
  moves False [2; 0] [] w others h.
Proof.
  destruct (C60_streams (cmem * list nat) (list (datum text Empty_set))) as (HC & HS & _).
  pose proof (caught_error _ _ _ _ _ C62_case_combiner) as En.
  destruct En as (s1 & h1 & En). exists s1, h1, [9]. split; [exact En|]. split; [intros Hx; discriminate Hx|].
  pose proof (pk_called _ _ _ En) as H.
  clear En. unfold rc_start in H. revert H. generalize (rc_strm "{a {keep {b c}} {d {pan e} f}}g"). intros s0 H.
  assert (Hd : deep False (fun h : cmem => S (branch_cells h)) others []) by (left; intros; apply le_n).
  assert (Hk : kept others [] []) by constructor.
  destruct (C62_calls False _ _ _ _ _ _ (fun w => w) kept _ _ _ _ _ [2; 0] _ _ _ _ _ _ _ HS HC kept_local
    (both_same False _ _ _ _ _ _ (keep_same false keep_text) (pan_same false pan_text)) rc_fuelled
    Hk others_consistent Hd H) as (rs2 & s' & d' & h' & w1' & w2' & _ & Es & _ & _ & M).
  injection Es as <- <- <- <-. exact M.
Qed.

Lemma pothers_consistent : consistent pothers [2; 0].
Proof.
  split.
  - intros x c E. destruct x as [|[|[|x]]]; [injection E as <-|discriminate|injection E as <-|].
    1, 2: vm_compute; split; [reflexivity|split; discriminate].
    unfold cell_at in E. cbn in E. destruct x; discriminate.
  - intros x HI. vm_compute in HI. repeat (destruct HI as [<-|HI]; [discriminate|]). contradiction.
  - exists (fun x => x). intros x n y E HI. destruct x as [|[|[|x]]]; [injection E as <-|discriminate|injection E as <-|].
    1, 2: cbn in HI; repeat (destruct HI as [<-|HI]; [lia|]); contradiction.
    unfold node_at, cell_at in E. cbn in E. destruct x; discriminate.
Qed.
Definition panicking_src : literal := "{a {b c} {d {e f}g!{h i}} j}k"%lit.
Example C62_case_theorem_stream : exists n st1 st2,
  pch_next (pch_start panicking_src) = (Panic, st1) /\ (forall y, cell_at (fst (ps_alloc st1)) y = cell_at pothers y) /\
  pch_next st1 = (Ok (Some (inl n)), st2) /\ kids n <> [] /\
  exists h', drop_datums false 1000 2 [n] (fst (ps_alloc st2)) = Ok (tt, h') /\ forall y, cell_at h' y = cell_at pothers y.
Proof.
  destruct (C60_streams (pmem * unit) unit) as (_ & _ & HC & _). destruct (C62_streams (pmem * unit) unit) as (HS & _).
  assert (HF : fuelled (fun h : pmem => S (branch_cells h * branch_cells h + branch_cells h))) by (intros h; apply le_n).
  assert (E : exists n st1 st2, pch_next (pch_start panicking_src) = (Panic, st1) /\ pch_next st1 = (Ok (Some (inl n)), st2) /\ kids n <> [] /\
    branch_cells (fst (ps_alloc st2)) <= 30).
  { assert (X : match pch_next (pch_start panicking_src) with
      | (Panic, st1) => match pch_next st1 with
        | (Ok (Some (inl n)), st2) => negb (match kids n with [] => true | _ => false end) && (branch_cells (fst (ps_alloc st2)) <=? 30)
        | _ => false end
      | _ => false end = true) by (vm_compute; reflexivity).
    revert X. destruct (pch_next (pch_start panicking_src)) as [[| | |] st1]; try discriminate.
    destruct (pch_next st1) as [[[[n|]|]| | |] st2] eqn:E2; try discriminate. intros X. apply andb_prop in X as (X1 & X2).
    exists n, st1, st2. split; [reflexivity|]. split; [exact E2|]. split; [intros Hx; rewrite Hx in X1; discriminate X1|apply Nat.leb_le; exact X2]. }
  destruct E as (n & st1 & st2 & E1 & E2 & Hk & HB). exists n, st1, st2. split; [exact E1|]. split; [|split; [exact E2|split; [exact Hk|]]].
  - unfold pch_start in E1. revert E1. generalize (pchars_new (evs_of panicking_src)). intros s0 E1.
    eapply C62_failed; [exact HS|exact HC|exact HF|exact pothers_consistent|eapply ru_called_panic; [exact E1|constructor]|reflexivity].
  - unfold pch_start in E1. revert E1. generalize (pchars_new (evs_of panicking_src)). intros s0 E1.
    pose proof (C62_restored (CE:=Empty_set) usize_max default_classifier _ _ _ _ false _ [2; 0] s0 0%N pothers tt [None; Some (Some (inl n))] st2 1000
      HS HC HF pothers_consistent) as G. cbv zeta in G. apply G; [|nia].
    eapply ru_called_panic; [exact E1|]. eapply ru_called_next; [exact E2|constructor].
Qed.
