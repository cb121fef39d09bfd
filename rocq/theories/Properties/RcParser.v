(** C60: parsing with counted references.

    The other files take a reference for the datum it refers to.  Here [Rc] or [Arc]
    references are addresses of counted memory, which the parser allocates from, writes to
    and, when it fails, gives back (Model/RcParser.v). *)
From Coq Require Import List Arith NArith Bool Lia Permutation.
From Verif.Model Require Import Prelude Parser Iter Utf8 Chunk TextIter PosStr PosStrish TextVec CharIter StrishIter
  Alloc DefaultClassifier TextMethods DatumMethods Bindings Premade Drop DropRc RcProgram RcParser.
From Verif.Spec Require Import Drops History RcParser.
From Verif.Proofs Require Import HeapFacts DropRcFacts RcProgramFacts HeapLink RcHeap RcSim RcRun.
From Verif.Tests Require Import Str Cases AbsCases.
Import ListNotations.

Section Any.
Context {S W1 W2 T ET Pos CE : Type} (U : Prop).
Local Notation mem := (rc_mem T ET).
Local Notation A := (mem * W1)%type.
Context (umax : N) (cc : classifier) (so1 : stream_ops S A T Pos) (so2 : stream_ops S W2 T Pos)
        (co1 : concat_ops A T) (co2 : concat_ops W2 T)
        (held : W1 -> list nat) (rw : mem -> W1 -> W2 -> Prop)
        (bnd1 : mem -> rc_datum T ET -> option (rc_combiner A T ET Pos CE)) (bnd2 : bindings W2 T ET Pos CE)
        (arc : bool) (dfuel ddepth : mem -> nat).
Local Notation next1 := (rp_iter_next umax cc so1 co1 bnd1 arc dfuel ddepth).
Local Notation next2 := (iter_next umax cc so2 co2 rc_alloc bnd2).
Local Notation called1 := (rc_called umax cc so1 co1 bnd1 arc dfuel ddepth).
Local Notation called2 := (called umax cc so2 co2 rc_alloc bnd2).

(** A call of [next] returns what it returns when references are trees, and does to the
    memory what its owner may do: the counts are exact and without cycles; all that is
    allocated is what the result, the combiners' state and the other owners reach; what the
    others own, and all that could not be reached, is unchanged. *)
Theorem C60_next fuel K s d h w1 w2 :
  plain_stream so1 so2 -> plain_concat co1 co2 -> world_local held rw -> rc_bindings_same U held rw bnd1 bnd2 -> fuelled dfuel ->
  rw h w1 w2 -> consistent h (held w1 ++ K) -> deep U ddepth h (held w1) ->
  match next1 fuel (PState s d (h, w1)), next2 fuel (PState s d w2) with
  | (Ok r1, PState s1 d1 (h', w1')), (Ok r2, PState s2 d2 w2') =>
      s1 = s2 /\ d1 = d2 /\ rw h' w1' w2' /\ is_result h' r1 r2 /\
      moves U K (held w1) (owned [r1] ++ held w1') h h'
  | (Panic, _), (Panic, _) | (OutOfFuel, _), (OutOfFuel, _) => True
  | _, _ => False
  end.
Proof.
  intros HS HC HW HB HF Hw C D. pose proof (@next_moves _ _ _ _ _ _ _ U umax cc _ _ _ _ HS HC _ _ HW _ _ HB arc dfuel ddepth HF fuel K s d h w1 w2 Hw C D) as G.
  unfold owned. cbn [flat_map]. destruct (next1 fuel (PState s d (h, w1))) as [[r1|e| |] [s1 d1 [h' w1']]]; [|destruct e| |]; destruct (next2 fuel (PState s d w2)) as [[r2|e2| |] [s2 d2 w2']]; auto.
  rewrite app_nil_r. exact G.
Qed.

(** All that is allocated is reached by somebody. *)
Theorem C60_no_leak K R R' (h h' : mem) y n : moves U K R R' h h' -> node_at h' y = Some n -> reach h' (R' ++ K) y.
Proof.
  intros M E. exact (@all_reachable _ h' _ y n (mv_consistent M) E).
Qed.

(** The same for any calls of [next], with all results kept. *)
Theorem C60_calls K s d h w1 w2 rs1 st1 :
  plain_stream so1 so2 -> plain_concat co1 co2 -> world_local held rw -> rc_bindings_same U held rw bnd1 bnd2 -> fuelled dfuel ->
  rw h w1 w2 -> consistent h (held w1 ++ K) -> deep U ddepth h (held w1) ->
  called1 (PState s d (h, w1)) rs1 st1 ->
  exists rs2 s' d' h' w1' w2', called2 (PState s d w2) rs2 (PState s' d' w2') /\ st1 = PState s' d' (h', w1') /\
    rw h' w1' w2' /\ Forall2 (is_result h') rs1 rs2 /\ moves U K (held w1) (owned rs1 ++ held w1') h h'.
Proof.
  intros HS HC HW HB HF Hw C D H. eapply called_moves; eauto.
Qed.
Theorem C60_calls_total K s d h w1 w2 rs2 st2 :
  plain_stream so1 so2 -> plain_concat co1 co2 -> world_local held rw -> rc_bindings_same U held rw bnd1 bnd2 -> fuelled dfuel ->
  rw h w1 w2 -> consistent h (held w1 ++ K) -> deep U ddepth h (held w1) ->
  called2 (PState s d w2) rs2 st2 -> exists rs1 st1, called1 (PState s d (h, w1)) rs1 st1.
Proof.
  intros HS HC HW HB HF Hw C D H. eapply called_moves_rev; eauto.
Qed.

(** When all the results are dropped, all that is left is what the combiners' state and
    the others reach. *)
Theorem C60_dropped K s d h w1 w2 rs1 st1 fuel depth :
  plain_stream so1 so2 -> plain_concat co1 co2 -> world_local held rw -> rc_bindings_same U held rw bnd1 bnd2 -> fuelled dfuel ->
  rw h w1 w2 -> consistent h (held w1 ++ K) -> deep U ddepth h (held w1) ->
  called1 (PState s d (h, w1)) rs1 st1 ->
  let (h1, w1') := ps_alloc st1 in
  branch_cells h1 < depth -> branch_cells h1 * branch_cells h1 + branch_cells h1 < fuel ->
  exists h', drop_datums arc fuel depth (flat_map datum_of rs1) h1 = Ok (tt, h') /\ moves U K (held w1) (held w1') h h'.
Proof.
  intros HS HC HW HB HF Hw C D H.
  destruct (C60_calls K s d h w1 w2 rs1 st1 HS HC HW HB HF Hw C D H) as (rs2 & s' & d' & h1 & w1' & w2' & _ & -> & _ & _ & M1).
  cbn [ps_alloc]. intros HD HFu. pose proof (mv_consistent M1) as C1. rewrite <- app_assoc in C1.
  destruct (@drop_datums_moves T ET arc fuel depth (flat_map datum_of rs1) h1 (held w1') K C1 (or_introl HD) HFu) as ([] & h' & E & M2).
  exists h'. split; [exact E|]. eapply moves_trans; [exact M1|]. apply moves_weaken. exact M2.
Qed.
End Any.
Print Assumptions C60_next.
Print Assumptions C60_no_leak.
Print Assumptions C60_calls.
Print Assumptions C60_calls_total.
Print Assumptions C60_dropped.

(** Without combiners: the memory of the results is new, with one reference each to all of
    it; all else is as before; in particular, a call that fails leaves the memory as it was.
    Recursion two deep is enough for the drops in the parser, and for dropping the results, which restores the
    memory. *)
Section Unbound.
Context {S W T ET Pos CE : Type}.
Local Notation mem := (rc_mem T ET).
Local Notation A := (mem * W)%type.
Context (umax : N) (cc : classifier) (so1 : stream_ops S A T Pos) (so2 : stream_ops S W T Pos)
        (co1 : concat_ops A T) (co2 : concat_ops W T) (arc : bool) (dfuel : mem -> nat).
Local Notation called1 := (rc_called (CE:=CE) umax cc so1 co1 (fun _ _ => None) arc dfuel (fun _ => 2)).
Local Notation called2 := (called (CE:=CE) umax cc so2 co2 rc_alloc (fun _ => None)).

Lemma unbound_same : rc_bindings_same True (fun _ : W => []) (fun (_ : mem) w1 w2 => w1 = w2)
  (fun _ _ => None) (fun _ : datum T ET => @None (combiner W T ET Pos CE)).
Proof. intros h n d H. exact I. Qed.
Lemma unbound_local : world_local (T:=T) (ET:=ET) (fun _ : W => []) (fun _ w1 w2 => w1 = w2).
Proof. intros h h' w1 w2 H _. exact H. Qed.
Lemma unbound_deep (h : mem) : deep True (fun _ => 2) h [].
Proof. right. split; [exact I|]. split; [intros; lia|]. intros y H. destruct (reach_nil H). Qed.

Theorem C60_unbound K s d h w rs1 st1 : plain_stream so1 so2 -> plain_concat co1 co2 -> fuelled dfuel -> consistent h K ->
  called1 (PState s d (h, w)) rs1 st1 ->
  exists rs2 s' d' h' w', called2 (PState s d w) rs2 (PState s' d' w') /\ st1 = PState s' d' (h', w') /\
    Forall2 (is_result h') rs1 rs2 /\ consistent h' (owned rs1 ++ K) /\
    (forall y, reach h' (owned rs1) y -> cell_at h y = None /\ exists n, cell_at h' y = Some (Cell 1 0 (Some n))) /\
    (forall y, ~ reach h' (owned rs1) y -> cell_at h' y = cell_at h y).
Proof.
  intros HS HC HF C H.
  destruct (C60_calls True umax cc so1 so2 co1 co2 (fun _ => []) (fun _ w1 w2 => w1 = w2) _ _ arc dfuel (fun _ => 2) K s d h w w rs1 st1
    HS HC unbound_local unbound_same HF eq_refl C (unbound_deep h) H) as (rs2 & s' & d' & h' & w1' & w2' & H2 & -> & <- & Hf & M).
  rewrite app_nil_r in M. destruct (moves_all C M) as [G1 G2].
  exists rs2, s', d', h', w1'. split; [exact H2|]. split; [reflexivity|]. split; [exact Hf|]. split; [exact (mv_consistent M)|]. split; assumption.
Qed.

Theorem C60_failed K s d h w rs1 st1 : plain_stream so1 so2 -> plain_concat co1 co2 -> fuelled dfuel -> consistent h K ->
  called1 (PState s d (h, w)) rs1 st1 -> (forall n, ~ In (Some (inl n)) rs1) ->
  forall y, cell_at (fst (ps_alloc st1)) y = cell_at h y.
Proof.
  intros HS HC HF C H N. destruct (C60_unbound K s d h w rs1 st1 HS HC HF C H) as (rs2 & s' & d' & h' & w' & _ & -> & _ & _ & _ & G).
  intros y. apply G. assert (owned rs1 = []) as ->; [|apply reach_nil].
  clear - N. induction rs1 as [|r rs IH]; [reflexivity|]. unfold owned in *. cbn [flat_map]. rewrite flat_map_app. apply (f_equal2 (@app nat) (y1 := []) (y2 := [])).
  - destruct r as [[n|e]|]; [destruct (N n); cbn; auto|reflexivity|reflexivity].
  - apply IH. intros n Hn. apply (N n). cbn. auto.
Qed.

Theorem C60_restored K s d h w rs1 st1 fuel : plain_stream so1 so2 -> plain_concat co1 co2 -> fuelled dfuel -> consistent h K ->
  called1 (PState s d (h, w)) rs1 st1 ->
  let h1 := fst (ps_alloc st1) in
  branch_cells h1 * branch_cells h1 + branch_cells h1 < fuel ->
  exists h', drop_datums arc fuel 2 (flat_map datum_of rs1) h1 = Ok (tt, h') /\ forall y, cell_at h' y = cell_at h y.
Proof.
  intros HS HC HF C H. cbv zeta.
  destruct (C60_calls True umax cc so1 so2 co1 co2 (fun _ => []) (fun _ w1 w2 => w1 = w2) _ _ arc dfuel (fun _ => 2) K s d h w w rs1 st1
    HS HC unbound_local unbound_same HF eq_refl C (unbound_deep h) H) as (rs2 & s' & d' & h1 & w1' & w2' & H2 & -> & <- & Hf & M).
  cbn [ps_alloc fst]. intros HFu. pose proof (mv_consistent M) as C1. rewrite <- app_assoc in C1.
  assert (Un : unshared h1 (owned rs1 ++ [])) by (apply (mv_unshared M I); intros y Hy; destruct (reach_nil Hy)).
  destruct (@drop_datums_moves T ET arc fuel 2 (flat_map datum_of rs1) h1 [] K C1 (or_intror (conj (le_n 2) Un)) HFu) as ([] & h' & E & M2).
  exists h'. split; [exact E|]. assert (moves True K [] [] h h') as M3 by (eapply moves_trans; eassumption).
  intros y. apply (moves_all C M3). apply reach_nil.
Qed.
End Unbound.
Print Assumptions C60_unbound.
Print Assumptions C60_failed.
Print Assumptions C60_restored.

(** The streams and texts of src/common and src/source_stream do not use the allocator. *)
Theorem C60_streams A B : plain_concat (text_concat_ops (im_ops (W:=A))) (text_concat_ops (im_ops (W:=B))) /\
  plain_stream (im_stream (W:=A)) (im_stream (W:=B)) /\
  plain_concat (text_concat_ops (st_ops (W:=A))) (text_concat_ops (st_ops (W:=B))) /\
  plain_stream (st_stream (W:=A)) (st_stream (W:=B)) /\ plain_stream (cs_stream (W:=A)) (cs_stream (W:=B)).
Proof.
  split; [apply plain_text_concat, plain_tvec|]. split; [apply plain_titer, plain_tvec|].
  split; [apply plain_text_concat, plain_tvec|]. split; [apply plain_strishiter, plain_tvec|apply plain_chariter, plain_tvec].
Qed.
Print Assumptions C60_streams.

(** ** A combiner that shares *)
Section Keep.
Context {T ET Pos CE : Type}.
Local Notation mem := (rc_mem T ET).
Context (arc : bool) (is_keep : T -> bool).

(** [{keep x ...}] is [(x ...)] as a list of one element, and a reference to that element
    is kept in the state of the combiners. *)
Definition rc_keep (n n' : rc_datum T ET) (a : mem * list nat) : (option (rc_datum T ET) + error Pos CE) * (mem * list nat) :=
  let (h, w) := a in
  match (d_bind (drop_datum arc (S (branch_cells h * branch_cells h + branch_cells h)) (S (branch_cells h)) n)
          (fun _ => d_bind (fresh (Cell 1 0 (Some n')))
          (fun x => d_bind (clone x)
          (fun _ => d_bind (fresh (Cell 1 0 (Some (NLeaf None))))
          (fun e => d_ret (x, e)))))) h with
  | Ok ((x, e), h') => (inl (Some (NList x e)), (h', x :: w))
  | _ => (inr FailedDerefTryMut, a)
  end.
Definition rc_keeps : mem -> rc_datum T ET -> option (rc_combiner (mem * list nat) T ET Pos CE) := fun _ n =>
  match n with NLeaf (Some (LText t)) => if is_keep t then Some (RApplicative rc_keep) else None | _ => None end.
Definition tree_keeps : bindings (list (datum T ET)) T ET Pos CE := fun d =>
  match d with DText t => if is_keep t then Some (Applicative (fun _ d' w => (inl (Some (DList d' DEmptyList)), d' :: w))) else None | _ => None end.
Definition kept (h : mem) (w1 : list nat) (w2 : list (datum T ET)) : Prop :=
  Forall2 (fun x d => exists n, node_at h x = Some n /\ is_tree h n d) w1 w2.

Lemma kept_frame (h h' : mem) x d n : node_at h x = Some n -> is_tree h n d ->
  (forall y, reach h [x] y -> node_at h' y = node_at h y) -> node_at h' x = Some n /\ is_tree h' n d.
Proof.
  intros E Ht F. split; [rewrite F; [exact E|apply reach_root; left; reflexivity]|]. eapply is_tree_frame; [exact Ht|]. intros y Hy. apply F.
  induction Hy as [z Hz|z m z' _ IH Ez Hz]; [|eapply reach_kid; eassumption]. eapply reach_kid; [|exact E|exact Hz]. apply reach_root. left. reflexivity.
Qed.
Lemma kept_local : world_local (fun w : list nat => w) kept.
Proof.
  intros h h' w1 w2 H F. unfold kept in *. induction H as [|x d w1 w2 (n & E & Ht) H IH]; constructor.
  - exists n. eapply kept_frame; [exact E|exact Ht|]. intros y Hy. apply F. apply reach_cons. auto.
  - apply IH. intros y Hy. apply F. apply reach_cons. auto.
Qed.
Lemma moves_clone (h : mem) x R K : consistent h (x :: R ++ K) ->
  exists h', clone x h = Ok (tt, h') /\ moves False K (x :: R) (x :: x :: R) h h' /\ (forall y, node_at h' y = node_at h y).
Proof.
  intros C. destruct (@clone_sound _ h (x :: R ++ K) x C (or_introl eq_refl)) as ([] & h' & E & s & w & n & Ex & -> & C').
  assert (N : forall y, node_at (upd h x (Some (Cell (S (S s)) w (Some n)))) y = node_at h y) by (intros; eapply upd_node; exact Ex).
  exists (upd h x (Some (Cell (S (S s)) w (Some n)))). split; [exact E|]. split; [|exact N]. constructor; try (intros []; fail).
  - exact C'.
  - intros y _. apply N.
  - intros y c Ey Nr. assert (y <> x) by (intros ->; apply Nr, reach_root; left; reflexivity). split; [rewrite (cell_at_upd _ _ _ _ Ex), (proj2 (Nat.eqb_neq _ _) H); exact Ey|].
    intros Hr. apply Nr. refine (frame_reach' (fun z _ => N z) _).
    apply reach_cons in Hr as [Hr|Hr]; [|exact Hr]. apply reach_cons. auto.
  - intros y. rewrite (cell_at_upd _ _ _ _ Ex). destruct (Nat.eqb_spec y x); [discriminate|auto].
Qed.

Lemma keep_same : rc_bindings_same False (fun w => w) kept rc_keeps tree_keeps.
Proof.
  intros h0 n d H. destruct H; try exact I. cbn. destruct (is_keep t); [|exact I].
  intros h w1 w2 n' d' _ Hd Hw K C. cbn [kids branches app] in C.
  unfold rc_keep.
  destruct (@ends_drop_moves _ _ False arc (S (branch_cells h * branch_cells h + branch_cells h)) (S (branch_cells h)) h
    (NLeaf (Some (LText t))) [] (kids n' ++ w1 ++ K)) as ([] & h1 & E1 & M1); [exact C|left; apply le_n|apply le_n|].
  cbn [kids branches app] in M1.
  unfold d_bind at 1. rewrite E1. 
  assert (C1 := mv_consistent M1). cbn [app] in C1.
  set (x := length (cells h1)).
  unfold d_bind at 1. change (fresh (Cell 1 0 (Some n')) h1) with (Ok (E := Empty_set) (x, grow h1 (Cell 1 0 (Some n')))). cbv beta iota.
  assert (M2 := @moves_new _ _ False h1 n' K w1 C1). fold x in M2. set (h2 := grow h1 _) in *.
  destruct (moves_clone h2 x w1 K (mv_consistent M2)) as (h3 & E3 & M3 & N3).
  unfold d_bind at 1. rewrite E3.
  set (e := length (cells h3)).
  unfold d_bind at 1. change (fresh (Cell 1 0 (Some (NLeaf None))) h3) with (Ok (E := Empty_set) (e, grow h3 (Cell 1 0 (Some (NLeaf None))))). cbv beta iota.
  assert (M4 := @moves_new _ _ False h3 (NLeaf None) K (x :: x :: w1) (mv_consistent M3)). fold e in M4. cbn [kids branches app] in M4. set (h4 := grow h3 _) in *.
  cbv beta iota delta [d_ret].
  assert (F1 : frame (kids n' ++ w1) h h1).
  { intros y Hy. apply (mv_others M1). apply reach_app. apply reach_app in Hy as [Hy|Hy]; [auto|]. right. apply reach_app. auto. }
  assert (F2 : frame (kids n' ++ w1) h1 h2).
  { eapply grow_frame; [exact C1|]. intros y Hy. rewrite app_assoc. apply in_or_app. auto. }
  assert (X2 : node_at h2 x = Some n') by (unfold node_at, h2, x; rewrite cell_at_grow, Nat.eqb_refl; reflexivity).
  assert (F4 : frame (x :: w1) h3 h4).
  { eapply grow_frame; [exact (mv_consistent M3)|]. intros y [->|Hy]; [left; reflexivity|]. right. right. apply in_or_app. auto. }
  assert (G : forall R y, incl R (kids n' ++ w1) -> reach h R y -> node_at h4 y = node_at h y).
  { intros R y HR Hy. assert (H1 : reach h (kids n' ++ w1) y) by (eapply reach_incl; eassumption).
    assert (H2 : reach h1 (kids n' ++ w1) y) by (eapply frame_reach; eassumption).
    assert (H3 : reach h2 (kids n' ++ w1) y) by (eapply frame_reach; eassumption).
    rewrite F4, N3, F2, F1; auto. refine (frame_reach (fun z _ => N3 z) _). apply reach_cons.
    apply reach_app in H3 as [H3|H3]; [left|auto].
    clear - X2 H3. induction H3 as [z Hz|z m z' _ IH Ez Hz]; [|eapply reach_kid; eassumption].
    eapply reach_kid; [|exact X2|exact Hz]. apply reach_root. left. reflexivity. }
  assert (T4 : is_tree h4 n' d').
  { eapply is_tree_frame; [exact Hd|]. intros y. apply G. apply incl_appl, incl_refl. }
  assert (X4 : node_at h4 x = Some n').
  { rewrite F4, N3; [exact X2|]. apply reach_root. left. reflexivity. }
  split; [|split].
  - constructor; [exists n'; auto|]. eapply kept_local; [exact Hw|]. intros y. apply G. apply incl_appr, incl_refl.
  - cbn. econstructor; [exact X4|exact T4| |constructor]. unfold node_at. unfold h4. rewrite cell_at_grow. unfold e. rewrite Nat.eqb_refl. reflexivity.
  - cbn [owns kids branches app]. apply (@moves_perm _ _ False K (kids n' ++ w1) (e :: x :: x :: w1)); [reflexivity|apply perm_swap|].
    eapply moves_trans; [|exact M4]. eapply moves_trans; [|exact M3]. eapply moves_trans; [|exact M2].
    rewrite <- (app_nil_r (kids n' ++ w1)). apply moves_keep; [rewrite <- app_assoc; exact C|]. rewrite <- app_assoc. exact M1.
Qed.
End Keep.

(** *** Concrete runs *)
Local Notation text := (tvec posstr).
Local Notation cmem := (rc_mem text Empty_set).
Definition rc_fuel (h : cmem) : nat := S (branch_cells h * branch_cells h + branch_cells h).
Lemma rc_fuelled : fuelled rc_fuel.
Proof. intros h. apply le_n. Qed.
Definition keep_text (t : text) : bool :=
  text_eqb posstr_ops (im_ops (W:=unit)) posstr_size t (tx_from (im_ops (W:=unit)) (posstr_from (lit "keep"))).
Definition rc_strm (l : literal) : titer := ps_strm (im_start l 0%N).
Arguments rc_strm _%lit.
Definition rc_start (l : literal) (h : cmem) (w : list nat) : pstate titer (cmem * list nat) := PState (rc_strm l) 0%N (h, w).
Arguments rc_start _%lit _ _.
(** No combiners, and drops that recurse two deep; or [keep]. *)
Definition plain_next := rp_iter_next (ET:=Empty_set) (CE:=Empty_set) usize_max default_classifier (im_stream (W:=cmem * list nat)) (text_concat_ops im_ops)
  (fun _ _ => None) false rc_fuel (fun _ => 2) 100.
Definition keep_next := rp_iter_next (ET:=Empty_set) (CE:=Empty_set) usize_max default_classifier (im_stream (W:=cmem * list nat)) (text_concat_ops im_ops)
  (rc_keeps false keep_text) false rc_fuel (fun h => S (branch_cells h)) 100.
Definition node_show (n : rc_datum text Empty_set) : node nat str :=
  match n with
  | NComb x y => NComb x y
  | NList x y => NList x y
  | NLeaf (Some (LText t)) => NLeaf (Some (im_chars t))
  | NLeaf _ => NLeaf None
  end.
Definition mem_show (h : cmem) : list (option (nat * nat * option (node nat str))) :=
  map (option_map (fun c : cell _ => (strong c, weak c, option_map node_show (value c)))) (cells h).
Definition result_show {S} (r : res Empty_set (option (rc_datum text Empty_set + error strpos Empty_set)) * pstate S (cmem * list nat)) :=
  (match fst r with Ok (Some (inl n)) => Some (inl (node_show n)) | Ok (Some (inr e)) => Some (inr e) | _ => None end, mem_show (fst (ps_alloc (snd r))), snd (ps_alloc (snd r))).
(** Memory of others: a datum with two references to it, and one more to the first. *)
Definition others : cmem := Heap [Some (Cell 3 1 (Some (NLeaf None))); None; Some (Cell 1 0 (Some (NComb 0 0)))] [].
Lemma others_consistent : consistent others [2; 0].
Proof.
  split.
  - intros x c E. destruct x as [|[|[|x]]]; [injection E as <-|discriminate|injection E as <-|].
    1, 2: vm_compute; split; [reflexivity|split; discriminate].
    unfold cell_at in E. cbn in E. destruct x; discriminate.
  - intros x HI. vm_compute in HI. repeat (destruct HI as [<-|HI]; [discriminate|]). contradiction.
  - exists (fun x => x). intros x n y E HI. destruct x as [|[|[|x]]]; [injection E as <-|discriminate|injection E as <-|].
    1, 2: cbn in HI; repeat (destruct HI as [<-|HI]; [lia|]); contradiction.
    unfold node_at, cell_at in E. cbn in E. destruct x; discriminate.
Qed.

(** A datum whose memory is new. *)
Example C60_case_new : result_show (plain_next (rc_start "{a {b c}}d" others [])) =
  (Some (inl (NComb 9 10)),
   [Some (3, 1, Some (NLeaf None)); None; Some (1, 0, Some (NComb 0 0));
    Some (1, 0, Some (NLeaf (Some (lit "c")))); Some (1, 0, Some (NLeaf None)); Some (1, 0, Some (NLeaf (Some (lit "b"))));
    Some (1, 0, Some (NList 3 4)); Some (1, 0, Some (NComb 5 6)); Some (1, 0, Some (NLeaf None));
    Some (1, 0, Some (NLeaf (Some (lit "a")))); Some (1, 0, Some (NList 7 8))], []).
Proof. vm_compute. reflexivity. Qed.
(** An error while there are lists: all is given back. *)
Example C60_case_error : result_show (plain_next (rc_start "{a {b c} {d" others [])) =
  (Some (inr MissingEndChar),
   [Some (3, 1, Some (NLeaf None)); None; Some (1, 0, Some (NComb 0 0)); None; None; None; None; None; None; None; None], []).
Proof. vm_compute. reflexivity. Qed.
(** A combiner that keeps a reference to what it returns. *)
Example C60_case_keep : result_show (keep_next (rc_start "{keep {b c}}d" others [])) =
  (Some (inl (NList 9 10)),
   [Some (3, 1, Some (NLeaf None)); None; Some (1, 0, Some (NComb 0 0));
    Some (1, 0, Some (NLeaf (Some (lit "c")))); Some (1, 0, Some (NLeaf None)); Some (1, 0, Some (NLeaf (Some (lit "b"))));
    Some (1, 0, Some (NList 3 4)); Some (1, 0, Some (NComb 5 6)); Some (1, 0, Some (NLeaf None));
    Some (2, 0, Some (NList 7 8)); Some (1, 0, Some (NLeaf None))], [9]).
Proof. vm_compute. reflexivity. Qed.

(** The theorems for these: with the memory of the others. *)
Lemma result_datum {S} r n0 m w : result_show (S:=S) r = (Some (inl n0), m, w) ->
  exists n s d h, r = (Ok (Some (inl n)), PState s d (h, w)) /\ mem_show h = m.
Proof.
  destruct r as [[[[n|e]|]|e| |] [s d [h w']]]; try discriminate. cbn. intros H. injection H as _ H2 H3. subst. exists n, s, d, h. auto.
Qed.
Lemma result_error {S} r e0 m w : result_show (S:=S) r = (Some (inr e0), m, w) ->
  exists s d h, r = (Ok (Some (inr e0)), PState s d (h, w)) /\ mem_show h = m.
Proof.
  destruct r as [[[[n|e]|]|e| |] [s d [h w']]]; try discriminate. cbn. intros H. injection H as H1 H2 H3. subst. exists s, d, h. auto.
Qed.
Lemma branches_shown h1 : branch_cells h1 =
  length (flat_map (fun o => match o with Some (_, _, Some n) => match branches n with Some _ => [tt] | None => [] end | _ => [] end) (mem_show h1)).
Proof.
  unfold branch_cells, of_all, mem_show. induction (cells h1) as [|[[s w [n|]]|] l IH]; [reflexivity| | |];
    cbn [flat_map map option_map strong weak value]; rewrite ?app_length, IH; try reflexivity.
  destruct n as [| |[[]|]]; reflexivity.
Qed.
Example C60_case_theorem_keep : exists n s d h w,
  keep_next (rc_start "{keep {b c}}d" others []) = (Ok (Some (inl n)), PState s d (h, w)) /\ w <> [] /\
  moves False [2; 0] [] (kids n ++ w) others h /\
  exists h', drop_datums false 100 100 [n] h = Ok (tt, h') /\ moves False [2; 0] [] w others h'.
Proof.
  destruct (C60_streams (cmem * list nat) (list (datum text Empty_set))) as (HC & HS & _).
  destruct (result_datum _ _ _ _ C60_case_keep) as (n & s1 & d1 & h1 & En & Em). exists n, s1, d1, h1, [9].
  split; [exact En|]. split; [intros Hx; discriminate Hx|].
  assert (H : rc_called (CE:=Empty_set) usize_max default_classifier im_stream (text_concat_ops im_ops) (rc_keeps false keep_text) false rc_fuel
      (fun h => S (branch_cells h)) (rc_start "{keep {b c}}d" others []) [Some (inl n)] (PState s1 d1 (h1, [9]))).
  { eapply rc_called_next; [exact En|constructor]. }
  clear En. unfold rc_start in H. revert H. generalize (rc_strm "{keep {b c}}d"). intros s0 H.
  assert (Hd : deep False (fun h : cmem => S (branch_cells h)) others []) by (left; intros; apply le_n).
  assert (Hk : kept others [] []) by constructor.
  pose proof (C60_dropped False _ _ _ _ _ _ (fun w => w) kept _ _ _ _ _ [2; 0] _ _ _ _ _ _ _ 100 100 HS HC kept_local (keep_same false keep_text) rc_fuelled
    Hk others_consistent Hd H) as G. cbn [ps_alloc] in G.
  destruct (C60_calls False _ _ _ _ _ _ (fun w => w) kept _ _ _ _ _ [2; 0] _ _ _ _ _ _ _ HS HC kept_local (keep_same false keep_text) rc_fuelled
    Hk others_consistent Hd H) as (rs2 & s' & d' & h' & w1' & w2' & _ & Es & _ & _ & M).
  injection Es as <- <- <- <-. unfold owned in M. cbn [flat_map datum_of app] in M. rewrite app_nil_r in M. split; [exact M|].
  rewrite (branches_shown h1), Em in G. apply G; apply Nat.ltb_lt; vm_compute; reflexivity.
Qed.
Example C60_case_theorem_error : exists e s d h w, plain_next (rc_start "{a {b c} {d" others []) = (Ok (Some (inr e)), PState s d (h, w)) /\
  forall y, cell_at h y = cell_at others y.
Proof.
  destruct (C60_streams (cmem * list nat) (list nat)) as (HC & HS & _).
  destruct (result_error _ _ _ _ C60_case_error) as (s1 & d1 & h1 & En & _). exists MissingEndChar, s1, d1, h1, [].
  split; [exact En|].
  refine (C60_failed (CE:=Empty_set) usize_max default_classifier _ _ _ _ false rc_fuel [2; 0] (rc_strm "{a {b c} {d") 0%N others [] [Some (inr MissingEndChar)] (PState s1 d1 (h1, [])) HS HC rc_fuelled others_consistent _ _).
  - eapply rc_called_next; [exact En|constructor].
  - intros n [H|[]]. discriminate H.
Qed.
