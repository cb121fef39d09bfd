(** Allocators seen through the relations of Memory.v and the counting of Count.v. *)
From Coq Require Import List Arith NArith Bool Lia.
From Verif.Model Require Import Prelude Parser Iter Chunk TextIter PosStr PosStrish TextVec TextDatumList CharIter StrishIter Alloc
  DefaultClassifier Premade.
From Verif.Spec Require Import Contract ChunkContract Run History Lawful Memory.
From Verif.Proofs Require Import Sim Refine Inv Memory Count AllocFacts ChunkFacts TextFacts Instances Transfer RunFacts Concrete.
Import ListNotations.
Set Implicit Arguments.

(** ** Honest texts and streams *)
Section Honest.
Context {A : Type} (failed : A -> bool).
Local Notation quiet a := (failed a = false).

Lemma tvec_honest {C CS Pos} (k : chunk_ops C CS Pos) : honest_concat failed (text_concat_ops (tvec_ops (A:=A) k)).
Proof. intros t1 t2 a t a' H E. cbn in E. injection E as _ <-. exact H. Qed.

Lemma tdl_honest {C CS Pos ET} (k : chunk_ops C CS Pos) (ao : alloc_ops A (tdl C ET) ET) :
  honest_alloc failed ao -> honest_concat failed (text_concat_ops (tdl_ops k ao)).
Proof.
  intros HA.
  assert (G : forall u t a t' a', quiet a -> tdl_link ao t u a = (Ok t', a') -> quiet a').
  { intros u. fix IH 1. intros [c [d|]] a t' a' H E; [destruct d as [t1| | | | |]|]; try discriminate; cbn [tdl_link] in E.
    - destruct (tdl_link ao t1 u a) as [[t2|e| |] a2] eqn:E2; try discriminate. injection E as _ <-. exact (IH _ _ _ _ H E2).
    - destruct (a_new_datum ao (DText u) a) as [[d|e| |] a2] eqn:E2; try discriminate. injection E as _ <-. exact (HA _ _ _ _ H E2). }
  intros t1 t2 a t a' H E. cbn in E. unfold tdl_concat in E.
  destruct (tdl_is_empty k t1) as [[|]|[]| |]; try discriminate; [injection E as _ <-; exact H|].
  destruct (tdl_is_empty k t2) as [[|]|[]| |]; try discriminate; [injection E as _ <-; exact H|]. eauto.
Qed.

Section Streams.
Context {TT C CS Pos : Type} (k : chunk_ops C CS Pos) (x : text_ops TT C A) (HX : honest_concat failed (text_concat_ops x)).
Lemma accum_chunk_honest accum cs a t cs' a' : quiet a -> accum_chunk k x accum cs a = (Ok t, (cs', a')) -> quiet a'.
Proof.
  intros H E. unfold accum_chunk in E. destruct (cs_accum_done k cs) as [[c|[]| |] cs1]; try discriminate.
  destruct (tx_concat x _ _ a) as [r b] eqn:Ec. injection E as -> _ <-. exact (HX _ _ H Ec).
Qed.
Lemma titer_honest : honest_stream failed (titer_stream k x).
Proof.
  assert (G : forall nexts cs accum a o s' a', quiet a -> titer_next_accum_loop k x nexts cs accum a = (Ok o, (s', a')) -> quiet a').
  { induction nexts as [| |c rest IH]; intros cs accum a o s' a' H E; cbn [titer_next_accum_loop] in E;
    (destruct (cs_next_accum k cs) as [[[it|]|[]| |] cs']; try discriminate; [injection E as <- <- <-; exact H|]);
    (destruct (accum_chunk k x accum cs' a) as [[t|e| |] [cs2 b]] eqn:Ec; try discriminate;
     pose proof (accum_chunk_honest _ _ H Ec)); try discriminate; [injection E as <- <- <-; assumption|eauto]. }
  split.
  - intros s a o s' a' H E. cbn in E. unfold titer_next_accum in E. destruct (ti_cur s); [eauto|]. injection E as _ _ <-. exact H.
  - intros s a t s' a' H E. cbn in E. unfold titer_accum_done in E. destruct (ti_cur s) as [cs|].
    + destruct (accum_chunk k x (ti_accum s) cs a) as [r [cs2 b]] eqn:Ec. injection E as -> _ <-. exact (accum_chunk_honest _ _ H Ec).
    + injection E as _ _ <-. exact H.
Qed.
End Streams.

Lemma chariter_honest {TT} (x : text_ops TT posstrish A) : honest_stream failed (chariter_stream x).
Proof.
  split.
  - intros s a o s' a' H E. cbn in E. unfold chariter_next_accum in E. destruct (pk_next (ch_iter s)) as [[i|] it]; injection E as _ _ <-; exact H.
  - intros s a t s' a' H E. cbn in E. injection E as _ _ <-. exact H.
Qed.
Lemma strishiter_honest {TT} (x : text_ops TT posstrish A) : honest_concat failed (text_concat_ops x) ->
  honest_stream failed (strishiter_stream x).
Proof.
  intros HX.
  assert (G : forall f s a o s' a', quiet a -> strishiter_next_accum_loop x f s a = (Ok o, (s', a')) -> quiet a').
  { induction f as [|f IH]; intros s a o s' a' H E; cbn [strishiter_next_accum_loop] in E; [discriminate|].
    destruct (si_cur s) as [cs|]; [|injection E as _ _ <-; exact H].
    destruct (posstrish_next_accum cs) as [[[it|]|[]| |] cs']; try discriminate; [injection E as _ _ <-; exact H|].
    destruct (accum_chunk posstrish_ops x (si_accum s) cs' a) as [[t|e| |] [cs2 b]] eqn:Ec; try discriminate.
    pose proof (accum_chunk_honest _ HX _ _ H Ec).
    destruct (next_posstrish _ _ _ _) as [[[cur it'] pk]|[]| |]; try discriminate. eauto. }
  split.
  - intros s a o s' a' H E. exact (G _ _ _ _ _ _ H E).
  - intros s a t s' a' H E. cbn in E. unfold strishiter_accum_done in E. destruct (si_cur s) as [cs|].
    + destruct (accum_chunk posstrish_ops x (si_accum s) cs a) as [r [cs2 b]] eqn:Ec. injection E as -> _ <-.
      exact (accum_chunk_honest _ HX _ _ H Ec).
    + injection E as _ _ <-. exact H.
Qed.
End Honest.

Lemma watch_honest {A TT ET} (ao : alloc_ops A TT ET) : honest_alloc snd (watch_alloc ao).
Proof.
  intros d [a b] d' [a' b'] H E. cbn in *. destruct (a_new_datum ao d a) as [r a2]. injection E as -> _ <-. exact H.
Qed.
Lemma slice_honest {W TT ET} : honest_alloc slice_failed (@slice_alloc W TT ET).
Proof.
  intros d [s w] d' [s' w'] H E. cbn in *. unfold slice_failed in *; cbn in *. unfold slice_new_datum in E.
  destruct (sl_free s) as [i|]; [|discriminate]. destruct (skipn i (sl_mem s)); [discriminate|]. injection E as _ <- _. reflexivity.
Qed.

(** A failure of an allocation inside [next] is what [next] returns. *)
Theorem honest_next {S A TT ET Pos CE} (failed : A -> bool) umax cc (so : stream_ops S A TT Pos) co ao (bnd : bindings A TT ET Pos CE)
    fuel st o st' :
  honest_stream failed so -> honest_concat failed co -> honest_alloc failed ao -> honest_bindings failed bnd ->
  iter_next umax cc so co ao bnd fuel st = (Ok o, st') -> failed (ps_alloc st) = false ->
  failed (ps_alloc st') = false \/ exists e, o = Some (inr (FailedAlloc e)).
Proof.
  intros [HS1 HS2] HC HA HB E Hf.
  assert (IV : invariant cc so co ao bnd (fun _ a => failed a = false) (fun _ => True) (fun _ => True) True).
  { split; unfold keeps; try (intros; auto; fail).
    - intros s a H. destruct (s_peek so s) as [[o'|[]| |] s']; cbn; auto.
    - intros s a H. destruct (s_next so s) as [[o'|[]| |] s']; cbn; auto.
    - intros s a H. destruct (s_next_accum so s a) as [[o'|e| |] [s' a']] eqn:En; cbn; eauto.
    - intros s a H. destruct (s_accum_done so s a) as [[o'|e| |] [s' a']] eqn:En; cbn; eauto.
    - intros t1 t2 s a _ _ H. destruct (Parser.t_concat co t1 t2 a) as [[o'|e| |] a'] eqn:En; cbn; eauto.
    - intros d s a H. destruct (a_new_datum ao d a) as [[o'|e| |] a'] eqn:En; cbn; eauto.
    - intros d f Hd t s a _ H. split; [|auto]. specialize (HB _ _ Hd). cbn in HB.
      destruct (f d t a) as [r a'] eqn:Ef. destruct (HB _ _ _ _ H Ef) as [G|G]; cbn; auto.
    - intros d f Hd t s a H. split; [|auto]. specialize (HB _ _ Hd). cbn in HB.
      destruct (f d t a) as [r a'] eqn:Ef. destruct (HB _ _ _ _ H Ef) as [G|G]; cbn; auto. }
  destruct (next_inv umax IV _ _ E Hf) as [[G|[_ G]] _]; auto.
Qed.

(** ** More memory *)
Section NoWorse.
Context {A1 A2 : Type} (R : A1 -> A2 -> Prop).
Local Notation T := (fun _ : A2 => True).
Lemma alloc_no_worse_two {TT ET} (ao1 : alloc_ops A1 TT ET) (ao2 : alloc_ops A2 TT ET) :
  alloc_no_worse R ao1 ao2 -> alloc_two R T ao1 ao2.
Proof.
  intros [HN HG]. split; [|split; auto]. intros d a1 a2 H. unfold op_rel.
  destruct (a_new_datum ao1 d a1) as [r1 b1] eqn:E1, (a_new_datum ao2 d a2) as [r2 b2] eqn:E2. cbn.
  destruct (HN _ _ _ _ _ _ _ H E1 E2) as [G|[e G]]; eauto.
Qed.
Lemma bindings_no_worse_two {TT ET Pos CE} (b1 : bindings A1 TT ET Pos CE) (b2 : bindings A2 TT ET Pos CE) :
  bindings_no_worse R b1 b2 -> bindings_two R T b1 b2.
Proof.
  intros HB d. specialize (HB d). destruct (b1 d) as [[f1|f1]|], (b2 d) as [[f2|f2]|]; try exact HB; cbn.
  - split; [|auto]. intros t a1 a2 H. unfold call_rel. destruct (f1 d t a1) as [r1 c1] eqn:E1, (f2 d t a2) as [r2 c2] eqn:E2. cbn.
    destruct (HB _ _ _ _ _ _ _ H E1 E2) as [G|[e G]]; eauto.
  - split; [|auto]. intros t a1 a2 H. unfold call_rel. destruct (f1 d t a1) as [r1 c1] eqn:E1, (f2 d t a2) as [r2 c2] eqn:E2. cbn.
    destruct (HB _ _ _ _ _ _ _ H E1 E2) as [G|[e G]]; eauto.
Qed.
End NoWorse.

(** The slice allocator with at least as many slots. *)
Lemma slice_no_worse {W TT ET} : alloc_no_worse more_room (@slice_alloc W TT ET) slice_alloc.
Proof.
  split; [|reflexivity]. intros d [s1 w1] [s2 w2] r1 [s1' w1'] r2 [s2' w2'] [Hw Hr] E1 E2. cbn in *.
  destruct (slice_new_total d s1) as [(i1 & t1 & G1)|(e1 & t1 & G1)]; rewrite G1 in E1; injection E1 as <- <- <-; [|eauto].
  left. apply room_ok in G1.
  destruct (slice_new_total d s2) as [(i2 & t2 & G2)|(e2 & t2 & G2)]; rewrite G2 in E2; injection E2 as <- <- <-.
  - apply room_ok in G2. split; [reflexivity|]. split; [exact Hw|cbn; lia].
  - apply room_err in G2. lia.
Qed.

(** The slice allocator against one that only counts. *)
Definition count_alloc {W TT ET} : alloc_ops (nat * W) TT ET := {|
  a_new_datum := fun d a => (Ok d, (S (fst a), snd a));
  a_get_mut := fun _ _ => true |}.
Lemma count_contract W TT ET : alloc_contract False snd (@count_alloc W TT ET).
Proof. intros d a. left. cbn. eauto. Qed.
Lemma count_HN {W TT ET} (d : datum TT ET) a d' a' : a_new_datum (@count_alloc W TT ET) d a = (Ok d', a') -> d' = d /\ fst a' = S (fst a).
Proof. intros [= <- <-]. auto. Qed.

(** [cap] slots in all. *)
Definition fits {X W} (cap : nat) (a1 : slice_state X * W) (a2 : nat * W) : Prop :=
  snd a1 = snd a2 /\ room (fst a1) + fst a2 = cap.
Definition over {W} (cap : nat) (a2 : nat * W) : Prop := cap < fst a2.
Lemma slice_count_two {W TT ET} cap : alloc_two (fits cap) (over cap) (@slice_alloc W TT ET) count_alloc.
Proof.
  split; [|split].
  - intros d [s1 w1] [n w2] [Hw Hr]. unfold op_rel. cbn in *.
    destruct (slice_new_total d s1) as [(i1 & t1 & G1)|(e1 & t1 & G1)]; rewrite G1; cbn.
    + left. apply room_ok in G1. split; [reflexivity|]. split; [exact Hw|cbn; lia].
    + right. apply room_err in G1. exists e1. split; [reflexivity|]. unfold over; cbn. lia.
  - reflexivity.
  - intros d a H. unfold over in *; cbn. lia.
Qed.

(** Allocations of the slice allocator counted downwards. *)
Section Used.
Context {ET CE W C CS Pos : Type} (umax : N) (cc : classifier) (k : chunk_ops C CS Pos).
Local Notation x := (tdl_ops k (@slice_alloc W (tdl C ET) ET)).
Local Notation cx := (tdl_ops k (@count_alloc W (tdl C ET) ET)).
Local Notation nob A := (fun _ => @None (combiner A (tdl C ET) ET Pos CE)).
Local Notation coll1 := (iter_collect umax cc (titer_stream k x) (text_concat_ops x) slice_alloc (nob _)).
Local Notation coll2 := (iter_collect umax cc (titer_stream k cx) (text_concat_ops cx) count_alloc (nob _)).

Definition count_state (st : pstate (titer (TT:=tdl C ET) (C:=C) (CS:=CS) (Pos:=Pos)) (slice_state (datum (tdl C ET) ET) * W))
  : pstate (titer (TT:=tdl C ET) (C:=C) (CS:=CS) (Pos:=Pos)) (nat * W) :=
  PState (ps_strm st) (ps_depth st) (0, snd (ps_alloc st)).
Lemma count_same st : same (fits (room (fst (ps_alloc st)))) st (count_state st).
Proof. split; [reflexivity|]. split; [reflexivity|]. split; [reflexivity|]. cbn. lia. Qed.
Lemma nob_two cap : bindings_two (fits cap) (over cap) (nob (slice_state (datum (tdl C ET) ET) * W)) (nob (nat * W)).
Proof. intros d. exact I. Qed.
Lemma slice_tdl_two cap : text_two (fits cap) (over cap) x cx.
Proof. apply tdl_two, slice_count_two. Qed.

Lemma count_used n fuel st ds st' : ti_accum (ps_strm st) = None -> coll2 n fuel st = (Ok (map inl ds), st') ->
  fst (ps_alloc st') = fst (ps_alloc st) + total_needed ds.
Proof.
  intros Ha E. apply (collect_used umax cc count_alloc fst (fun d a d' a' => @count_HN _ _ _ d a d' a')) in E; [apply E|].
  unfold fine, ptidy, pcost. rewrite Ha. auto.
Qed.

Lemma slice_iterates_used st ds st' : ti_accum (ps_strm st) = None ->
  iterates umax cc (titer_stream k x) (text_concat_ops x) slice_alloc (nob _) st (map inl ds) st' ->
  room (fst (ps_alloc st)) = room (fst (ps_alloc st')) + total_needed ds.
Proof.
  intros Ha (n & fuel & E). pose proof (slice_tdl_two (room (fst (ps_alloc st)))) as HX.
  destruct (two_collect_ok umax cc (titer_two k HX) (proj2 HX) (slice_count_two _) (nob_two _) fuel n (count_same st) E)
    as (s2 & E2 & H1 & H2 & H3 & H4).
  { intros e He. apply in_map_iff in He. destruct He as (d & [=] & _). }
  apply count_used in E2; [|exact Ha]. cbn in E2. lia.
Qed.

(** The count decides whether the slots are enough. *)
Lemma slice_count_runs n fuel st l1 s1 ds s2 : ti_accum (ps_strm st) = None ->
  coll1 n fuel st = (Ok l1, s1) -> coll2 n fuel (count_state st) = (Ok (map inl ds), s2) ->
  (total_needed ds <= room (fst (ps_alloc st)) ->
     l1 = map inl ds /\ room (fst (ps_alloc st)) = room (fst (ps_alloc s1)) + total_needed ds) /\
  (room (fst (ps_alloc st)) < total_needed ds ->
     exists ds1 ds2 e q, l1 = map inl ds1 ++ inr (FailedAlloc e) :: q /\ ds = ds1 ++ ds2).
Proof.
  intros Ha E1 E2. pose proof (slice_tdl_two (room (fst (ps_alloc st)))) as HX.
  pose proof (count_used _ _ (count_state st) _ Ha E2) as U. cbn in U.
  destruct (two_collect umax cc (titer_two k HX) (proj2 HX) (slice_count_two _) (nob_two _) fuel n (count_same st) E1 E2)
    as [(-> & H1 & H2 & H3 & H4)|(HL & p & e & q1 & q2 & -> & Ep)].
  - split; intros; [split; [reflexivity|]|]; lia.
  - unfold LS, over in HL. split; intros; [lia|].
    assert (G : exists ds1 ds2, p = map inl ds1 /\ q2 = map inl ds2 /\ ds = ds1 ++ ds2).
    { clear - Ep. revert p Ep. induction ds as [|d ds IH]; intros p Ep.
      - cbn in Ep. symmetry in Ep. apply app_eq_nil in Ep. destruct Ep as [-> ->]. exists [], []. auto.
      - destruct p as [|y p]; cbn in Ep.
        + exists [], (d :: ds). auto.
        + injection Ep as <- Ep. destruct (IH p Ep) as (a & b & -> & -> & ->). exists (d :: a), b. auto. }
    destruct G as (ds1 & ds2 & -> & -> & ->). exists ds1, ds2, e, q1. auto.
Qed.
End Used.
