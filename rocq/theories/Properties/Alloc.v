(** C27 to C30: allocating. *)
From Coq Require Import List NArith Arith Bool Lia.
From Verif.Model Require Import Prelude Parser Iter Utf8 Chunk TextIter PosStr PosStrish
  TextVec TextDatumList CharIter StrishIter Alloc DefaultClassifier TextMethods DatumMethods Bindings Premade.
From Verif.Spec Require Import Contract Grammar ChunkContract Lawful Run History Outcome Memory AbsStream.
From Verif.Proofs Require Import Sim Refine AbsIter TextFacts AllocFacts Transfer Instances PremadeFacts Concrete RunFacts Inv
  ClassifierFacts Diag Memory Count MemoryFacts TwoRuns Compose EqualFacts.
From Verif.Tests Require Import Str Cases AbsCases.
Import ListNotations.
Local Notation N_len r := (N.of_nat (length r)).

(** ** C27: the slice allocator *)

(** The first [length slots] requests get one slot each, in order, and later
    ones fail; the slots got hold the values given and the others what they held;
    [unused] are the slots not handed out ([None] once a request has failed, or
    if there were none). *)
Theorem C27_requests {X} (slots xs : list X) :
  let (answers, s) := requests xs (slice_new slots) in
  answers = map Ok (seq 0 (min (length xs) (length slots))) ++ repeat (Err AllocExhausted) (length xs - length slots) /\
  sl_mem s = firstn (length slots) xs ++ skipn (length xs) slots /\
  slice_unused s = (if (length xs <=? length slots) && negb (length slots =? 0) then Some (skipn (length xs) slots) else None).
Proof.
  rewrite requests_new. cbn. split; [reflexivity|]. split; [reflexivity|]. unfold slice_unused. cbn [sl_free sl_mem].
  destruct (length xs <=? length slots) eqn:E; cbn; [|reflexivity]. destruct (length slots =? 0); cbn; [reflexivity|].
  apply Nat.leb_le in E. f_equal. rewrite skipn_app, firstn_all2 by exact E. rewrite skipn_all, Nat.sub_diag. reflexivity.
Qed.

(** Request number [i] is answered with slot [i], if there is one, and the slot
    keeps the value whatever is requested later. *)
Theorem C27_slot {X} (slots xs : list X) i x : nth_error xs i = Some x ->
  let (answers, s) := requests xs (slice_new slots) in
  (i < length slots -> nth_error answers i = Some (Ok i) /\ nth_error (sl_mem s) i = Some x) /\
  (length slots <= i -> nth_error answers i = Some (Err AllocExhausted)).
Proof.
  intros Hx. pose proof (C27_requests slots xs) as H. destruct (requests xs (slice_new slots)) as [answers s].
  destruct H as (-> & -> & _). assert (L : i < length xs) by (apply nth_error_Some; congruence). split.
  - intros Hi. split.
    + rewrite nth_error_app1 by (rewrite map_length, seq_length; lia).
      rewrite nth_error_map, (nth_error_nth' _ 0) by (rewrite seq_length; lia). rewrite seq_nth by lia. reflexivity.
    + rewrite nth_error_app1 by (rewrite firstn_length; lia). rewrite <- Hx.
      rewrite <- (firstn_skipn (length slots) xs) at 2. rewrite nth_error_app1; [reflexivity|rewrite firstn_length; lia].
  - intros Hi. rewrite nth_error_app2 by (rewrite map_length, seq_length; lia). rewrite map_length, seq_length.
    apply nth_error_repeat. lia.
Qed.

(** ** C28: limited memory *)
Section CutOff.
Context {S1 A1 T1 E1 Pos C1 S2 A2 T2 E2 C2 W AE AC : Type}.
Local Notation text := (list (item Pos)).
Context (umax : N) (cc : classifier).
Context (so1 : stream_ops S1 A1 T1 Pos) (co1 : concat_ops A1 T1) (ao1 : alloc_ops A1 T1 E1) (bnd1 : bindings A1 T1 E1 Pos C1).
Context (so2 : stream_ops S2 A2 T2 Pos) (co2 : concat_ops A2 T2) (ao2 : alloc_ops A2 T2 E2) (bnd2 : bindings A2 T2 E2 Pos C2).
Context (view1 : A1 -> W) (view2 : A2 -> W) (abnd : bindings W text AE Pos AC).
Context (Rs1 : S1 -> text -> text -> Prop) (Rt1 : T1 -> text -> Prop) (Rx1 : E1 -> AE -> Prop) (Rc1 : C1 -> AC -> Prop).
Context (Rs2 : S2 -> text -> text -> Prop) (Rt2 : T2 -> text -> Prop) (Rx2 : E2 -> AE -> Prop) (Rc2 : C2 -> AC -> Prop).

(** Items that stand for the same abstract item. *)
Definition alike (i1 : datum T1 E1 + error Pos C1) (i2 : datum T2 E2 + error Pos C2) : Prop :=
  exists ai : datum text AE + error Pos AC, pitem_rel Rt1 Rx1 eq Rc1 i1 ai /\ pitem_rel Rt2 Rx2 eq Rc2 i2 ai.

(** A parser whose allocator may fail ([F]) and one whose allocator does not,
    over the same characters and with the same combiners: the same items, or
    the same ones up to the first allocation error of the first. *)
Theorem C28_cut_off F st1 st2 s w items1 st1' items2 st2' :
  lawful F view1 so1 co1 ao1 bnd1 abnd Rs1 Rt1 Rx1 Rc1 ->
  lawful False view2 so2 co2 ao2 bnd2 abnd Rs2 Rt2 Rx2 Rc2 ->
  starts_on Rs1 view1 st1 s w -> starts_on Rs2 view2 st2 s w ->
  iterates umax cc so1 co1 ao1 bnd1 st1 items1 st1' -> iterates umax cc so2 co2 ao2 bnd2 st2 items2 st2' ->
  Forall2 alike items1 items2 \/
  (F /\ exists p1 e q1 p2 q2, items1 = p1 ++ inr (FailedAlloc e) :: q1 /\ items2 = p2 ++ q2 /\ Forall2 alike p1 p2).
Proof.
  intros L1 L2 H1 H2 (n1 & f1 & I1) I2.
  destruct (iterates_abstract L2 H2 I2) as (ai & ast' & (n2 & f2 & Ia) & G2 & _).
  assert (AL : forall l1 l2 l, Forall2 (pitem_rel Rt1 Rx1 eq Rc1) l1 l -> Forall2 (pitem_rel Rt2 Rx2 eq Rc2) l2 l -> Forall2 alike l1 l2).
  { clear. intros l1 l2 l G1. revert l2. induction G1 as [|i1 a l1 l G1 _ IH]; intros l2 G2; inversion G2; subst; constructor; eauto.
    exists a. auto. }
  assert (P : prefix_rel F Rt1 Rx1 eq Rc1 items1 ai).
  { eapply (lw_prefix umax cc L1 (max n1 n2) (max f1 f2) H1);
      (eapply collect_mono; [| |eassumption]; lia). }
  destruct P as [P|(HF & p1 & e & q1 & p2 & q2 & -> & He & -> & P)]; [left; eauto|].
  right. split; [exact HF|]. apply Forall2_app_inv_r in G2. destruct G2 as (b1 & b2 & G2 & _ & ->).
  destruct e as [p| |e| |c]; try contradiction. exists p1, e, q1, b1, b2. eauto.
Qed.
End CutOff.

(** In memory without a heap against in memory with one: over the same
    characters, and with combiners that are the same except that they may fail
    to allocate, [parse_text_with] with any slots returns what [parse_str_with] returns, or stops
    with an allocation error after some of its datums. *)
Theorem C28_text {W ET CE} (ET_eq : ET -> ET -> bool) ET_hash hasher
    (m1 : nh_bindings (W:=W) (ET:=ET) (CE:=CE)) m2 am t input slots w :
  (forall a b, ET_eq a b = true -> ET_hash a = ET_hash b) ->
  nh_related eq eq posstr_any m1 am -> str_bindings m2 am ->
  text_items (nh_ops (W:=W) (ET:=ET)) posstr_any t (str_source input) -> (N_len input <= usize_max)%N ->
  exists items1 st1 items2 st2,
    parse_text_with ET_eq t m1 (nh_parser slots w) = (Ok items1, Some st1) /\
    parse_str_with ET_eq ET_hash hasher input m2 w = (Ok items2, Some st2) /\
    (Forall2 (alike (AE:=ET) (AC:=CE) (reads posstr_ops (nh_ops (W:=W) (ET:=ET))) eq eq (reads posstr_ops (im_ops (W:=W))) eq eq) items1 items2 \/
     exists ds1 e ds2 more, items1 = map inl ds1 ++ [inr (FailedAlloc e)] /\ items2 = map inl ds2 ++ more /\
       Forall2 (alike (AE:=ET) (AC:=CE) (reads posstr_ops (nh_ops (W:=W) (ET:=ET))) eq eq (reads posstr_ops (im_ops (W:=W))) eq eq)
         (map inl ds1) (map inl ds2)).
Proof.
  intros XH H1 H2 Ht Hu.
  assert (XC : text_contract True snd (nh_ops (W:=W) (ET:=ET)) posstr_any)
    by exact (tdl_contract posstr_any_contract (@slice_alloc_contract W (nh_text (ET:=ET)) ET)).
  assert (D1 : forall (d : datum _ ET) (ad : datum _ ET), datum_rel (text_items (nh_ops (W:=W) (ET:=ET)) posstr_any) eq d ad -> datum_rel (reads posstr_ops (nh_ops (W:=W) (ET:=ET))) eq d ad).
  { apply datum_rel_mono; auto. intros u l. apply (text_reads posstr_any_contract XC). }
  assert (D2 : forall (d : datum _ ET) (ad : datum _ ET), datum_rel (text_items (im_ops (W:=W)) posstr_any) eq d ad -> datum_rel (reads posstr_ops (im_ops (W:=W))) eq d ad).
  { apply (im_datum_reads posstr_any_contract). }
  assert (AL : forall l1 l2, Forall2 (slots_alike (W:=W)) l1 l2 ->
    Forall2 (alike (AE:=ET) (AC:=CE) (reads posstr_ops (nh_ops (W:=W) (ET:=ET))) eq eq (reads posstr_ops (im_ops (W:=W))) eq eq) l1 l2).
  { intros l1 l2. apply Forall2_mono. intros x1 x2 (a & K1 & K2). exists a. destruct x1, x2, a; cbn in *; try contradiction; auto. }
  destruct (slots_agree ET_eq ET_hash hasher XH _ slots w H1 H2 Ht Hu) as (i1 & s1 & i2 & s2 & E1 & E2 & G).
  exists i1, s1, i2, s2. split; [exact E1|]. split; [exact E2|].
  destruct G as [G|(ds1 & e & ds2 & more & -> & -> & G)]; [left; auto|]. right. exists ds1, e, ds2, more. auto.
Qed.

(** Failing allocations are reported. *)
Section Reported.
Context {A C CS Pos ET CE : Type} (umax : N) (cc : classifier) (k : chunk_ops C CS Pos).

(** Texts as lists of datums, and any allocator: if an allocation made for the
    text or for a datum fails during [next] then it returns an allocation error;
    for combiners that return theirs. *)
Theorem C28_reported (ao : alloc_ops A (tdl C ET) ET) (bnd : bindings (A * bool) (tdl C ET) ET Pos CE) fuel st o st' :
  let x := tdl_ops k (watch_alloc ao) in
  honest_bindings snd bnd -> snd (ps_alloc st) = false ->
  iter_next umax cc (titer_stream k x) (text_concat_ops x) (watch_alloc ao) bnd fuel st = (Ok o, st') ->
  snd (ps_alloc st') = true -> exists e, o = Some (inr (FailedAlloc e)).
Proof.
  intros x HB H0 E H1. pose proof (tdl_honest k (watch_honest ao)) as HX.
  destruct (honest_next (failed:=snd) _ _ _ _ (titer_honest k HX) HX (watch_honest ao) HB E H0) as [G|G]; [congruence|exact G].
Qed.

(** Texts as vectors. *)
Theorem C28_reported_vec (ao : alloc_ops A (tvec C) ET) (bnd : bindings (A * bool) (tvec C) ET Pos CE) fuel st o st' :
  let x := tvec_ops k in
  honest_bindings snd bnd -> snd (ps_alloc st) = false ->
  iter_next umax cc (titer_stream k x) (text_concat_ops x) (watch_alloc ao) bnd fuel st = (Ok o, st') ->
  snd (ps_alloc st') = true -> exists e, o = Some (inr (FailedAlloc e)).
Proof.
  intros x HB H0 E H1. assert (HX : honest_concat snd (text_concat_ops (tvec_ops (A:=A * bool) k))) by (red; apply tvec_honest).
  destruct (honest_next (failed:=snd) _ _ _ _ (titer_honest k HX) HX (watch_honest ao) HB E H0) as [G|G]; [congruence|exact G].
Qed.

(** The slice allocator: as long as [next] returns no allocation error,
    [unused] tells the slots left. *)
Theorem C28_reported_slice {W} (bnd : bindings (slice_state (datum (tdl C ET) ET) * W) (tdl C ET) ET Pos CE) fuel st o st' :
  let x := tdl_ops k slice_alloc in
  honest_bindings slice_failed bnd -> slice_unused (fst (ps_alloc st)) <> None ->
  iter_next umax cc (titer_stream k x) (text_concat_ops x) slice_alloc bnd fuel st = (Ok o, st') ->
  slice_unused (fst (ps_alloc st')) <> None \/ exists e, o = Some (inr (FailedAlloc e)).
Proof.
  intros x HB H0 E. pose proof (tdl_honest k (@slice_honest W (tdl C ET) ET)) as HX.
  assert (H1 : slice_failed (ps_alloc st) = false).
  { unfold slice_failed, slice_unused in *. destruct (sl_free (fst (ps_alloc st))); [reflexivity|contradiction H0; reflexivity]. }
  destruct (honest_next _ _ _ _ (titer_honest k HX) HX (@slice_honest W (tdl C ET) ET) HB E H1) as [G|G]; [left|right; exact G].
  unfold slice_failed, slice_unused in *. destruct (sl_free (fst (ps_alloc st'))); [discriminate|discriminate G].
Qed.
End Reported.

(** More memory. *)
Section More.
Context {A1 A2 C CS Pos ET CE : Type} (umax : N) (cc : classifier) (k : chunk_ops C CS Pos) (R : A1 -> A2 -> Prop).
(** Parsing without allocation errors gives the same items with any allocator that is no worse. *)
Theorem C28_more (ao1 : alloc_ops A1 (tdl C ET) ET) (ao2 : alloc_ops A2 (tdl C ET) ET)
    (b1 : bindings A1 (tdl C ET) ET Pos CE) (b2 : bindings A2 (tdl C ET) ET Pos CE) s d a1 a2 items st1 :
  alloc_no_worse R ao1 ao2 -> bindings_no_worse R b1 b2 -> R a1 a2 ->
  iterates umax cc (titer_stream k (tdl_ops k ao1)) (text_concat_ops (tdl_ops k ao1)) ao1 b1 (PState s d a1) items st1 ->
  (forall e, ~ In (inr (FailedAlloc e)) items) ->
  exists st2, iterates umax cc (titer_stream k (tdl_ops k ao2)) (text_concat_ops (tdl_ops k ao2)) ao2 b2 (PState s d a2) items st2 /\
    R (ps_alloc st1) (ps_alloc st2).
Proof.
  intros HA HB Ha (n & f & E) He. pose proof (alloc_no_worse_two HA) as HA2. pose proof (tdl_two k HA2) as HX.
  destruct (two_collect_ok umax cc (titer_two k HX) (proj2 HX) HA2 (bindings_no_worse_two HB) f n
    (st1:=PState s d a1) (st2:=PState s d a2) ltac:(split; [reflexivity|]; split; [reflexivity|exact Ha]) E He) as (st2 & E2 & H2).
  exists st2. split; [eexists _, _; exact E2|]. apply H2.
Qed.

Theorem C28_more_vec (ao1 : alloc_ops A1 (tvec C) ET) (ao2 : alloc_ops A2 (tvec C) ET)
    (b1 : bindings A1 (tvec C) ET Pos CE) (b2 : bindings A2 (tvec C) ET Pos CE) s d a1 a2 items st1 :
  alloc_no_worse R ao1 ao2 -> bindings_no_worse R b1 b2 -> R a1 a2 ->
  iterates umax cc (titer_stream k (tvec_ops k)) (text_concat_ops (tvec_ops k)) ao1 b1 (PState s d a1) items st1 ->
  (forall e, ~ In (inr (FailedAlloc e)) items) ->
  exists st2, iterates umax cc (titer_stream k (tvec_ops k)) (text_concat_ops (tvec_ops k)) ao2 b2 (PState s d a2) items st2 /\
    R (ps_alloc st1) (ps_alloc st2).
Proof.
  intros HA HB Ha (n & f & E) He. pose proof (alloc_no_worse_two HA) as HA2.
  pose proof (tvec_two R (fun _ => True) k) as HX.
  destruct (two_collect_ok umax cc (titer_two k HX) (proj2 HX) HA2 (bindings_no_worse_two HB) f n
    (st1:=PState s d a1) (st2:=PState s d a2) ltac:(split; [reflexivity|]; split; [reflexivity|exact Ha]) E He) as (st2 & E2 & H2).
  exists st2. split; [eexists _, _; exact E2|]. apply H2.
Qed.
End More.

(** [parse_text_with]: with more slots, the same result, if there was no allocation error. *)
Theorem C28_more_slots {W ET CE} (ET_eq : ET -> ET -> bool) (m : nh_bindings (W:=W) (ET:=ET) (CE:=CE)) t l slots1 slots2 w items st1 :
  text_items (nh_ops (W:=W) (ET:=ET)) posstr_any t l -> (N_len l <= usize_max)%N ->
  bindings_no_worse more_room (nh_lookup ET_eq m) (nh_lookup ET_eq m) -> length slots1 <= length slots2 ->
  parse_text_with ET_eq t m (nh_parser slots1 w) = (Ok items, st1) -> (forall e, ~ In (inr (FailedAlloc e)) items) ->
  exists st2, parse_text_with ET_eq t m (nh_parser slots2 w) = (Ok items, st2).
Proof.
  intros Ht Hu HB Hs E He. pose proof (alloc_no_worse_two (@slice_no_worse W (nh_text (ET:=ET)) ET)) as HA.
  pose proof (tdl_two posstr_ops HA) as HX.
  destruct (parse_text_with_safe ET_eq m (nh_parser slots1 w) Ht Hu) as (s & all1 & u1 & v1 & Es & C1 & E1 & _).
  destruct (parse_text_with_safe ET_eq m (nh_parser slots2 w) Ht Hu) as (s' & all2 & u2 & v2 & Es' & C2 & E2 & _).
  rewrite Es in Es'. injection Es' as <-. rewrite E in E1. injection E1 as -> _. exists (Some u2). rewrite E2. f_equal. f_equal.
  destruct (two_collect usize_max default_classifier (titer_two posstr_ops HX) (proj2 HX) HA (bindings_no_worse_two HB) _ _
    (st1:=parse_iter_new s (nh_parser slots1 w)) (st2:=parse_iter_new s (nh_parser slots2 w))
    ltac:(split; [reflexivity|]; split; [reflexivity|]; split; [reflexivity|]; cbn; rewrite !room_new; exact Hs) C1 C2)
    as [[-> _]|(_ & p & e & q1 & q2 & -> & ->)]; [reflexivity|].
  destruct (upto_err_cases p) as [(ds & ->)|(ds & e' & rest & ->)].
  - exfalso. apply (He e). rewrite upto_err_err. apply in_or_app. right. left. reflexivity.
  - rewrite <- !app_assoc. cbn [app]. rewrite !upto_err_err. reflexivity.
Qed.

(** ** C29: how much is needed *)
Lemma titer_new_accum {TT C CS A Pos} {k : chunk_ops C CS Pos} {x : text_ops TT C A} {t s} :
  titer_new k x t = Ok s -> ti_accum s = None.
Proof.
  unfold titer_new. intros H.
  destruct (next_chunk k (tx_chunks x t)) as [[? ?]|[]| |]; cbn in H; try discriminate; injection H as <-; reflexivity.
Qed.

Section Needed.
Context {ET CE W C CS Pos : Type} (umax : N) (cc : classifier) (k : chunk_ops C CS Pos).
Local Notation x := (tdl_ops k (@slice_alloc W (tdl C ET) ET)).
Local Notation none := (fun _ => @None (combiner (slice_state (datum (tdl C ET) ET) * W) (tdl C ET) ET Pos CE)).

(** Without bindings, parsing takes as many slots as the datums need: two for
    each combination and for each list cell, and one for each chunk of a text beyond the first. *)
Theorem C29_used t s a ds st' : titer_new k x t = Ok s ->
  iterates umax cc (titer_stream k x) (text_concat_ops x) slice_alloc none (parse_iter_new s a) (map inl ds) st' ->
  room (fst a) = room (fst (ps_alloc st')) + total_needed ds.
Proof.
  intros Hs H. apply (slice_iterates_used (umax:=umax) (cc:=cc) (k:=k) (CE:=CE) (st:=parse_iter_new s a)) in H; [exact H|].
  apply (titer_new_accum Hs).
Qed.
End Needed.

(** An input in the language takes exactly that many slots, whatever the
    number of slots given: that many suffice, and with fewer there is an allocation error after
    some of the same datums. *)
Theorem C29_exact {W ET CE} (ET_eq : ET -> ET -> bool) t l ads (w w' : W) :
  text_items (nh_ops (W:=W) (ET:=ET)) posstr_any t l -> (N_len l <= usize_max)%N ->
  input (CE:=CE) default_classifier (fun _ => None) w l ads w' ->
  exists ds, Forall2 (datum_rel (reads posstr_ops (nh_ops (W:=W) (ET:=ET))) eq) ds ads /\
  forall slots, exists items st,
    parse_text_with (CE:=CE) ET_eq t [] (nh_parser slots w) = (Ok items, Some st) /\
    (total_needed ds <= length slots -> items = map inl ds /\ length slots = room (fst (ps_alloc st)) + total_needed ds) /\
    (length slots < total_needed ds -> exists ds1 ds2 e, items = map inl ds1 ++ [inr (FailedAlloc e)] /\ ds = ds1 ++ ds2).
Proof.
  intros Ht Hu Hin. pose proof (tdl_contract posstr_any_contract (@count_contract W (nh_text (ET:=ET)) ET)) as XC.
  assert (LW : lawful False snd (titer_stream posstr_ops (tdl_ops posstr_ops (@count_alloc W (nh_text (ET:=ET)) ET)))
     (text_concat_ops (tdl_ops posstr_ops (@count_alloc W (nh_text (ET:=ET)) ET))) count_alloc (fun _ => @None (combiner _ _ _ _ CE))
     (fun _ => @None (combiner W (list (item strpos)) ET strpos CE))
     (titer_rep posstr_any posstr_any_state (tdl_ops posstr_ops (@count_alloc W (nh_text (ET:=ET)) ET)))
     (text_items (tdl_ops posstr_ops (@count_alloc W (nh_text (ET:=ET)) ET)) posstr_any) eq eq).
  { split; [exact (titer_contract posstr_any_contract XC)|exact (xc_concat XC)|apply count_contract|reflexivity|].
    intros d1 d2 _. exact I. }
  destruct (titer_new_rep (A:=nat * W) posstr_any_contract (x:=tdl_ops posstr_ops (@count_alloc W (nh_text (ET:=ET)) ET)) Ht) as (s & Es & Hs).
  destruct (lawful_complete LW (umax:=usize_max) (n:=parse_calls (length l)) (fuel:=parse_fuel (length l))
     (st:=parse_iter_new s (0, w)) (s:=l) (w:=w) (ads:=ads) (w':=w') default_disjoint) as (ds & st2 & E2 & Hd & _); auto.
  { split; [reflexivity|]. split; [exact Hs|reflexivity]. }
  exists ds. split.
  { eapply Forall2_mono; [|exact Hd]. apply datum_rel_mono; auto. intros u v. exact (text_reads posstr_any_contract XC (t:=u) (l:=v)). }
  intros slots.
  destruct (parse_text_with_safe ET_eq ([] : nh_bindings (CE:=CE)) (nh_parser slots w) Ht Hu) as (s' & all & st & st' & Es' & C1 & E1 & _).
  assert (s' = s) as -> by (pose proof (eq_trans (eq_sym Es) Es') as Q; injection Q as Q; congruence).
  exists (upto_err all), st. split; [exact E1|].
  destruct (slice_count_runs usize_max default_classifier posstr_ops _ _ (parse_iter_new s (nh_parser slots w)) _ (titer_new_accum Es') C1 E2) as [G1 G2].
  cbn in G1, G2. rewrite room_new in G1, G2. split.
  - intros Hl. destruct (G1 Hl) as [-> Hr]. rewrite upto_err_ok in *. split; [reflexivity|].
    assert (st = st') as ->; [|exact Hr].
    unfold parse_text_with in E1. rewrite Es', (text_size posstr_size_eq Ht) in E1.
    apply (take_while_ok usize_max default_classifier) in C1.
    match type of E1 with (let (r, st) := ?e in _) = _ => change e with e in C1; rewrite C1 in E1 end. congruence.
  - intros Hl. destruct (G2 Hl) as (ds1 & ds2 & e & q & -> & ->). rewrite upto_err_err. eauto 6.
Qed.

(** ** C30: mutable access *)
Section Mutable.
Context {S A TT ET Pos CE : Type} (umax : N) (cc : classifier).
Context (so : stream_ops S A TT Pos) (co : concat_ops A TT) (ao : alloc_ops A TT ET) (bnd : bindings A TT ET Pos CE).
Local Notation collect := (iter_collect umax cc so co ao bnd).

(** If references just allocated can always be mutated, no [next] returns
    [FailedDerefTryMut] (unless a combiner does): any stream, any text type, any bindings. *)
Theorem C30_mutable st rs st' : (forall d a, a_get_mut ao d a = true) -> no_combiner_returns bnd FailedDerefTryMut ->
  called umax cc so co ao bnd st rs st' -> ~ In (Some (inr FailedDerefTryMut)) rs.
Proof.
  intros HM HB HC Hin.
  assert (IV : invariant cc so co ao bnd (fun _ _ => True) (fun _ => True) (fun e => e <> FailedDerefTryMut) False).
  { split; try (intros; unfold keeps; match goal with |- context [fst ?e] => destruct (fst e) end; cbn; auto;
      split; auto; try left; discriminate); try discriminate; auto.
    - intros d f E t s a _ _. split; auto. intros e He ->. apply (HB d _ E d t a (snd (f d t a))). rewrite <- He. destruct (f d t a); reflexivity.
    - intros d f E t s a _. split; auto. intros e He ->. apply (HB d _ E d t a (snd (f d t a))). rewrite <- He. destruct (f d t a); reflexivity. }
  destruct (called_inv IV (fun x => x) HC I) as [_ H]. exact (H _ Hin eq_refl).
Qed.

Lemma collect_called n f : forall st l st', collect n f st = (Ok l, st') -> called umax cc so co ao bnd st (map Some l ++ [None]) st'.
Proof.
  induction n as [|n IH]; cbn [iter_collect]; intros st l st' E; [discriminate|].
  destruct (iter_next umax cc so co ao bnd f st) as [[[i|]|[]| |] st1] eqn:N; try discriminate.
  - destruct (collect n f st1) as [[l'|[]| |] st2] eqn:C; try discriminate. injection E as <- <-.
    eapply called_next; [exact N|]. exact (IH _ _ _ C).
  - injection E as <- <-. eapply called_next; [exact N|constructor].
Qed.

Lemma collect_mutable n f st l st' : (forall d a, a_get_mut ao d a = true) -> no_combiner_returns bnd FailedDerefTryMut ->
  collect n f st = (Ok l, st') -> ~ In (inr FailedDerefTryMut) (upto_err l).
Proof.
  intros HM HB E Hin. apply (C30_mutable _ _ _ HM HB (collect_called _ _ _ _ _ E)). apply in_or_app. left. apply in_map.
  destruct (upto_err_cases l) as [(ds & ->)|(ds & e & rest & ->)].
  - rewrite upto_err_ok in Hin. exact Hin.
  - rewrite upto_err_err in Hin. apply in_app_iff in Hin. apply in_or_app. cbn in *. tauto.
Qed.
End Mutable.

(** The premade parsers, by unique, shared and borrowed references. *)
Section Premade.
Context {W ET CE : Type} (ET_eq : ET -> ET -> bool) (ET_hash : ET -> list hash_word) (hasher : list hash_word -> N).

Theorem C30_box {S TT Pos} umax cc (so : stream_ops S W TT Pos) co (bnd : bindings W TT ET Pos CE) st rs st' :
  no_combiner_returns bnd FailedDerefTryMut ->
  called umax cc so co box_alloc bnd st rs st' -> ~ In (Some (inr FailedDerefTryMut)) rs.
Proof. apply C30_mutable. reflexivity. Qed.
Theorem C30_rc {S TT Pos} umax cc (so : stream_ops S W TT Pos) co (bnd : bindings W TT ET Pos CE) st rs st' :
  no_combiner_returns bnd FailedDerefTryMut ->
  called umax cc so co rc_alloc bnd st rs st' -> ~ In (Some (inr FailedDerefTryMut)) rs.
Proof. apply C30_mutable. reflexivity. Qed.
Theorem C30_slice {S TT Pos} umax cc (so : stream_ops S _ TT Pos) co (bnd : bindings (slice_state _ * W) TT ET Pos CE) st rs st' :
  no_combiner_returns bnd FailedDerefTryMut ->
  called umax cc so co slice_alloc bnd st rs st' -> ~ In (Some (inr FailedDerefTryMut)) rs.
Proof. apply C30_mutable. reflexivity. Qed.

Theorem C30_str input (m : im_bindings (W:=W) (ET:=ET) (CE:=CE)) w items st : (N_len input <= usize_max)%N ->
  no_combiner_returns (im_lookup ET_eq ET_hash hasher m) FailedDerefTryMut ->
  parse_str_with ET_eq ET_hash hasher input m w = (Ok items, st) -> ~ In (inr FailedDerefTryMut) items.
Proof.
  intros Hu HB E. destruct (parse_str_with_safe ET_eq ET_hash hasher input m w Hu) as (s & all & st1 & st2 & _ & C & E1 & _).
  rewrite E in E1. injection E1 as -> _. eapply collect_mutable; [|exact HB|exact C]. reflexivity.
Qed.
Theorem C30_strings strs (m : st_bindings (W:=W) (ET:=ET) (CE:=CE)) w items st : (N_len (List.concat strs) <= usize_max)%N ->
  no_combiner_returns (st_lookup ET_eq ET_hash hasher m) FailedDerefTryMut ->
  parse_stream_with ET_eq ET_hash hasher strs m w = (Ok items, st) -> ~ In (inr FailedDerefTryMut) items.
Proof.
  intros Hu HB E. destruct (parse_stream_with_safe ET_eq ET_hash hasher strs m w Hu) as (s & all & st1 & st2 & _ & C & E1 & _).
  rewrite E in E1. injection E1 as -> _. eapply collect_mutable; [|exact HB|exact C]. reflexivity.
Qed.
Theorem C30_chars input (m : st_bindings (W:=W) (ET:=ET) (CE:=CE)) w items st : (N_len input <= usize_max)%N ->
  no_combiner_returns (st_lookup ET_eq ET_hash hasher m) FailedDerefTryMut ->
  parse_chars_with ET_eq ET_hash hasher input m w = (Ok items, st) -> ~ In (inr FailedDerefTryMut) items.
Proof.
  intros Hu HB E. destruct (parse_chars_with_safe ET_eq ET_hash hasher input m w Hu) as (all & st1 & st2 & C & E1 & _).
  rewrite E in E1. injection E1 as -> _. eapply collect_mutable; [|exact HB|exact C]. reflexivity.
Qed.
Theorem C30_text t l (m : nh_bindings (W:=W) (ET:=ET) (CE:=CE)) a items st :
  text_items (nh_ops (W:=W) (ET:=ET)) posstr_any t l -> (N_len l <= usize_max)%N ->
  no_combiner_returns (nh_lookup ET_eq m) FailedDerefTryMut ->
  parse_text_with ET_eq t m a = (Ok items, st) -> ~ In (inr FailedDerefTryMut) items.
Proof.
  intros Ht Hu HB E. destruct (parse_text_with_safe ET_eq m a Ht Hu) as (s & all & st1 & st2 & _ & C & E1 & _).
  rewrite E in E1. injection E1 as -> _. eapply collect_mutable; [|exact HB|exact C]. reflexivity.
Qed.
End Premade.

Print Assumptions C27_requests.
Print Assumptions C27_slot.
Print Assumptions C28_cut_off.
Print Assumptions C28_text.
Print Assumptions C28_reported.
Print Assumptions C28_reported_vec.
Print Assumptions C28_reported_slice.
Print Assumptions C28_more.
Print Assumptions C28_more_vec.
Print Assumptions C28_more_slots.
Print Assumptions C29_used.
Print Assumptions C29_exact.
Print Assumptions C30_mutable.
Print Assumptions C30_box.
Print Assumptions C30_rc.
Print Assumptions C30_slice.
Print Assumptions C30_str.
Print Assumptions C30_strings.
Print Assumptions C30_chars.
Print Assumptions C30_text.

(** ** Cases *)
(** Three slots: two requests, and five. *)
Example C27_case :
  requests [1; 2] (slice_new [10; 20; 30]) = ([Ok 0; Ok 1], SliceState [1; 2; 30] (Some 2)) /\
  slice_unused (SliceState [1; 2; 30] (Some 2)) = Some [30] /\
  requests [1; 2; 3; 4; 5] (slice_new [10; 20; 30]) =
    ([Ok 0; Ok 1; Ok 2; Err AllocExhausted; Err AllocExhausted], SliceState [1; 2; 3] None) /\
  slice_unused (SliceState [1; 2; 3] None) = None /\
  slice_unused (snd (requests [1; 2; 3] (slice_new [10; 20; 30]))) = Some [].
Proof. vm_compute. repeat split. Qed.

(** An operative that allocates: [q] stores its operands in a slot. *)
Definition nh_from (s : literal) : nh_text (ET:=N) := tx_from (nh_ops (W:=N) (ET:=N)) (posstr_from (lit s)).
Arguments nh_from _%lit.
Definition nh_store (_ : nh_datum (ET:=N)) (t : nh_text (ET:=N)) (a : slice_state nh_datum * N)
  : (option nh_datum + error strpos N) * (slice_state nh_datum * N) :=
  match a_new_datum slice_alloc (DText t) a with
  | (Ok d, a') => (inl (Some d), a')
  | (_, a') => (inr (FailedAlloc AllocExhausted), a')
  end.
Definition nh_q : nh_bindings (W:=N) (ET:=N) (CE:=N) := [(DText (nh_from "q"), Operative nh_store)].
Lemma nh_q_find d c : nh_lookup num_eq nh_q d = Some c -> In (DText (nh_from "q"), c) nh_q.
Proof.
  unfold nh_lookup, nh_q. cbn [pair_lookup]. destruct (nh_datum_eq num_eq d (DText (nh_from "q"))); [|discriminate].
  intros [= <-]. left. reflexivity.
Qed.
Lemma nh_from_items s : text_items (nh_ops (W:=N) (ET:=N)) posstr_any (nh_from s) (str_source (lit s)).
Proof.
  exact (xc_from (tdl_contract posstr_any_contract (@slice_alloc_contract N (nh_text (ET:=N)) N)) _ _ (posstr_from_any (lit s))).
Qed.
Definition nh_slots (n : nat) : list (nh_datum (ET:=N)) := repeat DEmptyNest n.
Definition nh_run (s : literal) m n := fst (parse_text_with (CE:=N) num_eq (nh_from s) m (nh_parser (nh_slots n) 0%N)).
Arguments nh_run _%lit.
Definition nh_chars (t : nh_text (ET:=N)) : list char :=
  match titer_new posstr_ops (nh_ops (W:=N) (ET:=N)) t with
  | Ok s => match titer_collect posstr_ops 1000 s with Ok l => map it_ch l | _ => [] end
  | _ => []
  end.

Fixpoint nh_datum_show (d : nh_datum (ET:=N)) : datum (list char) N :=
  match d with
  | DText t => DText (nh_chars t)
  | DComb a b => DComb (nh_datum_show a) (nh_datum_show b)
  | DEmptyNest => DEmptyNest
  | DList a b => DList (nh_datum_show a) (nh_datum_show b)
  | DEmptyList => DEmptyList
  | DExtra x => DExtra x
  end.
Definition nh_items_show (r : res Empty_set (list (datum nh_text N + error strpos N))) :=
  res_map (map (fun x => match x with inl d => inl (nh_datum_show d) | inr e => inr e end)) r.

Lemma nh_q_related : nh_related eq eq posstr_any nh_q (firstn 1 abs_map).
Proof.
  unfold nh_related, nh_q, abs_map. cbn [firstn]. repeat constructor; cbn [fst snd datum_rel]; try apply nh_from_items.
  unfold combiner_rel. intros d1 d2 t1 t2 a1 a2 _ Ht Ha.
  assert (G : (exists s, nh_store d1 t1 a1 = (inl (Some (DText t1)), (s, snd a1))) \/
              (exists b, nh_store d1 t1 a1 = (inr (FailedAlloc AllocExhausted), b))).
  { unfold nh_store, slice_alloc. cbn [a_new_datum].
    match goal with |- context [slice_new_datum ?x ?y] => destruct (slice_new_total x y) as [(i & s' & ->)|(e & s' & ->)] end; cbn; eauto. }
  destruct G as [(s & ->)|(b & ->)]; cbn; auto.
Qed.
Lemma nh_q_honest : honest_bindings slice_failed (nh_lookup num_eq nh_q).
Proof.
  intros d c H. apply nh_q_find in H. destruct H as [[= <-]|[]]. intros t a r a' Ha E. unfold nh_store in E. revert E.
  destruct (a_new_datum slice_alloc (DText t) a) as [[u|e| |] b] eqn:En; intros E; inversion E; subst; eauto.
  left. exact (slice_honest _ _ Ha En).
Qed.
Lemma nh_q_no_worse : bindings_no_worse more_room (nh_lookup num_eq nh_q) (nh_lookup num_eq nh_q).
Proof.
  intros d. destruct (nh_lookup num_eq nh_q d) as [c|] eqn:H; [|exact I]. apply nh_q_find in H. destruct H as [[= <-]|[]].
  intros t a1 a2 r1 a1' r2 a2' Ha E1 E2. unfold nh_store in E1, E2.
  destruct (a_new_datum slice_alloc (DText t) a1) as [x1 b1] eqn:N1, (a_new_datum slice_alloc (DText t) a2) as [x2 b2] eqn:N2.
  destruct (proj1 (@slice_no_worse N (nh_text (ET:=N)) N) _ _ _ _ _ _ _ Ha N1 N2) as [[-> Hb]|(e & ->)].
  - left. destruct x2; injection E1 as <- <-; injection E2 as <- <-; auto.
  - right. injection E1 as <- _. eauto.
Qed.

(** [q] needs a slot, the combination two, and the list cell two: with four or
    fewer slots [{q a}{b c}] is cut off; with five all is as with a heap. *)
Example C28_case :
  nh_related eq eq posstr_any nh_q (firstn 1 abs_map) /\ str_bindings (firstn 1 im_map) (firstn 1 abs_map) /\
  honest_bindings slice_failed (nh_lookup num_eq nh_q) /\
  bindings_no_worse more_room (nh_lookup num_eq nh_q) (nh_lookup num_eq nh_q) /\
  nh_items_show (nh_run "{q a}{b c}" nh_q 0) = Ok [inr (FailedAlloc AllocExhausted)] /\
  nh_items_show (nh_run "{q a}{b c}" nh_q 4) = Ok [inl (DText [97%N]); inr (FailedAlloc AllocExhausted)] /\
  nh_items_show (nh_run "{q a}{b c}" nh_q 5) =
    Ok [inl (DText [97%N]); inl (DComb (DText [98%N]) (DList (DText [99%N]) DEmptyList))] /\
  im_items_show (fst (parse_str_with num_eq num_hash sum_hasher (lit "{q a}{b c}") (firstn 1 im_map) 0%N)) =
    Ok [inl (DText [97%N]); inl (DComb (DText [98%N]) (DList (DText [99%N]) DEmptyList))].
Proof.
  split; [exact nh_q_related|]. split.
  { unfold str_bindings, im_related, im_map, abs_map. cbn [firstn]. repeat constructor; cbn [fst snd datum_rel];
      try apply im_from_items; unfold combiner_rel; intros; unfold Ra_view in *; subst; cbn; auto. }
  split; [exact nh_q_honest|]. split; [exact nh_q_no_worse|]. vm_compute. repeat split.
Qed.

(** The flag of [watch_alloc] is raised, and [next] tells. *)
Example C28_reported_case :
  let ao := watch_alloc (@slice_alloc N (tdl posstr N) N) in
  let x := tdl_ops posstr_ops ao in
  exists s o st, titer_new posstr_ops x (nh_from "{b c}") = Ok s /\
    iter_next (CE:=N) usize_max default_classifier (titer_stream posstr_ops x) (text_concat_ops x) ao (fun _ => None) 30
      (parse_iter_new s (nh_parser (nh_slots 1) 0%N, false)) = (Ok o, st) /\
    snd (ps_alloc st) = true /\ o = Some (inr (FailedAlloc AllocExhausted)).
Proof. do 3 eexists. split; [vm_compute; reflexivity|]. split; [vm_compute; reflexivity|]. split; reflexivity. Qed.

(** [{a b}c\}\}]: a combination with one list cell, and a text with three
    chunks ([c], [}] and [}]): six slots. *)
Example C29_case :
  (exists ads w', input (CE:=N) (W:=N) (ET:=N) default_classifier (fun _ => None) 0%N (str_source (lit "{a b}c\}\}")) ads w') /\
  (exists d1 d2, nh_run "{a b}c\}\}" [] 6 = Ok [inl d1; inl d2] /\ slots_needed d1 = 4 /\ slots_needed d2 = 2) /\
  nh_items_show (nh_run "{a b}c\}\}" [] 6) =
    Ok [inl (DComb (DText [97%N]) (DList (DText [98%N]) DEmptyList)); inl (DText [99; 125; 125]%N)] /\
  nh_items_show (nh_run "{a b}c\}\}" [] 5) =
    Ok [inl (DComb (DText [97%N]) (DList (DText [98%N]) DEmptyList)); inr (FailedAlloc AllocExhausted)].
Proof.
  split.
  { assert (H : exists d1 d2 st', iter_collect usize_max default_classifier im_stream (text_concat_ops im_ops) box_alloc
        (im_lookup (CE:=N) num_eq num_hash sum_hasher []) 20 60 (im_start "{a b}c\}\}" 0%N) = (Ok (map inl [d1; d2]), st')).
    { do 3 eexists. vm_compute. reflexivity. }
    destruct H as (d1 & d2 & st' & H).
    destruct (iterates_sound im_none_lawful _ default_disjoint (im_start_on _ _) (ex_intro _ 20 (ex_intro _ 60 H))) as (ads & G & _). eauto. }
  split; [do 2 eexists; split; [vm_compute; reflexivity|split; reflexivity]|]. vm_compute. repeat split.
Qed.

(** An allocator whose references cannot be mutated does give that error; the
    premade ones do not. *)
Definition frozen_alloc {W TT ET} : alloc_ops W TT ET := {|
  a_new_datum := fun d w => (Ok d, w);
  a_get_mut := fun _ _ => false |}.
Example C30_case :
  fst (iter_next (CE:=N) usize_max default_classifier (im_stream (W:=N)) (text_concat_ops im_ops) frozen_alloc
    (fun _ : datum im_text N => None) 30 (im_start "{a b}" 0%N)) = Ok (Some (inr FailedDerefTryMut)) /\
  (exists d, fst (iter_next (CE:=N) usize_max default_classifier (im_stream (W:=N)) (text_concat_ops im_ops) rc_alloc
    (fun _ : datum im_text N => None) 30 (im_start "{a b}" 0%N)) = Ok (Some (inl d))) /\
  no_combiner_returns (im_lookup num_eq num_hash sum_hasher im_map) FailedDerefTryMut.
Proof.
  split; [vm_compute; reflexivity|]. split; [eexists; vm_compute; reflexivity|].
  intros d c H. apply hm_lookup_in in H. destruct H as (k & H). unfold im_map in H.
  repeat (destruct H as [[= <- <-]|H]; [intros; discriminate|]). destruct H.
Qed.
