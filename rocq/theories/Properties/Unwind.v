(** C59: panics of combiners that the caller catches. *)
From Coq Require Import List NArith Arith Lia.
From Verif.Model Require Import Prelude Parser Iter Utf8 Chunk TextIter PosStr PosStrish
  TextVec TextDatumList CharIter StrishIter Alloc DefaultClassifier TextMethods DatumMethods Bindings Premade Unwind.
From Verif.Spec Require Import Contract ChunkContract AbsStream Grammar Balance Fails Unclosed Lawful Run Unwind.
From Verif.Proofs Require Import Sim Refine AbsParse AbsIter Instances RunFacts NextFacts FormRuns ClassifierFacts Transfer UnclosedFacts
  ChunkFacts TextFacts Compose PremadeFacts UnwindSim UnwindFacts.
From Verif.Properties Require Import WholeRun.
From Verif.Tests Require Import Str AbsCases.
Import ListNotations.
Local Notation N_len r := (N.of_nat (length r)).
Local Notation oks ds := (map (fun d => Some (inl d)) ds).

(** For all collaborators, lawful or not: a call of [next] is as without unwinding, but for the depth that
    a panic leaves behind. *)
Section Any.
Context {S A TT ET Pos CE : Type}.
Context (umax : N) (cc : classifier) (so : stream_ops S A TT Pos) (co : concat_ops A TT)
        (ao : alloc_ops A TT ET) (bnd : bindings A TT ET Pos (option CE)).

Theorem C59_same fuel st :
  let (o1, st1) := unw_iter_next umax cc so co ao bnd fuel st in
  let (o2, st2) := iter_next umax cc so co ao bnd fuel st in
  o1 = o2 /\ ps_strm st1 = ps_strm st2 /\ ps_alloc st1 = ps_alloc st2 /\
  (o1 <> Ok (Some (inr (FailedCombiner None))) -> st1 = st2).
Proof.
  destruct (proj1 (same_parser umax cc so co ao bnd fuel) Base st) as [E H].
  unfold unw_iter_next, iter_next, do_next.
  destruct (unw_next umax cc so co ao bnd fuel Base st) as [o1 s1], (parse_next umax cc so co ao bnd fuel Base st) as [o2 s2].
  cbn in E, H. subst o2. destruct H as [->|((e & -> & Hu) & H1 & H2)].
  - destruct o1 as [[d|]|e| |]; auto.
  - destruct e as [| | | |[c|]]; try discriminate. repeat split; auto. congruence.
Qed.
End Any.
Print Assumptions C59_same.

(** Every source has such a run, and if there is a panic in it then it does not end at the end of the source:
    either [next] never returns [None] any more, or it always does in front of a part of the source that is never
    read. *)
Section Declarative.
Context {W ET Pos CE : Type} (cc : classifier) (bnd : bindings W (list (item Pos)) ET Pos (option CE)) (DC : disjoint_classes cc).

Theorem C59_total w s : exists items w' t rest, caught_run cc bnd 0 w s items w' t rest.
Proof. destruct (C56_total cc bnd DC w s) as (items & w' & H). exact (caught_total H 0). Qed.

Theorem C59_stuck w s items w' t rest : caught_run cc bnd 0 w s items w' t rest ->
  In (inr (FailedCombiner None)) items -> t <> None \/ rest <> [].
Proof. intros H Hi. eapply caught_stuck; eauto. Qed.
End Declarative.
Print Assumptions C59_total.
Print Assumptions C59_stuck.

(** Any lawful parser: what the calls of [next] give is as the run says, for ever. *)
Section Lawful.
Context {S A TT ET Pos CE W AE AC : Type}.
Context (umax : N) (cc : classifier) (so : stream_ops S A TT Pos) (co : concat_ops A TT)
        (ao : alloc_ops A TT ET) (bnd : bindings A TT ET Pos (option CE)).
Local Notation text := (list (item Pos)).
Context (view : A -> W) (abnd : bindings W text AE Pos (option AC)).
Context (Rs : S -> text -> text -> Prop) (Rt : TT -> text -> Prop)
        (Rx : ET -> AE -> Prop) (Rc : option CE -> option AC -> Prop).
Context (RN : forall c1 c2, Rc c1 c2 -> (c1 = None <-> c2 = None)).
Local Notation unw_nexts := (unw_nexts umax cc so co ao bnd).
Local Notation Ri := (pitem_rel Rt Rx (@eq Pos) Rc).
Local Notation Rd := (datum_rel Rt Rx).
Context (LW : lawful False view so co ao bnd abnd Rs Rt Rx Rc) (DC : disjoint_classes cc).

Theorem C59_complete st s w aitems w' t rest m : starts_on Rs view st s w -> (N_len s <= umax)%N ->
  caught_run cc abnd 0 w s aitems w' t rest ->
  exists os st' p, unw_nexts st os st' /\ Forall2 (option_rel Ri) os (map Some aitems ++ repeat t (1 + m)) /\
    Rs (ps_strm st') rest p /\ view (ps_alloc st') = w'.
Proof.
  intros Hs Hu H. apply strel_starts in Hs.
  destruct (caught_parse (umax:=umax) DC H Hu m) as (p & d & E).
  destruct (unexts_concrete RN LW E Hs) as (os & st' & Hn & Hf & (K1 & _ & K3)).
  exists os, st', p. auto.
Qed.

Theorem C59_always st s w aitems w' t rest os st' : starts_on Rs view st s w -> (N_len s <= umax)%N ->
  caught_run cc abnd 0 w s aitems w' t rest -> unw_nexts st os st' ->
  Forall2 (option_rel Ri) os (firstn (length os) (map Some aitems ++ repeat t (length os))).
Proof.
  intros Hs Hu H Hn. destruct (C59_complete _ _ _ _ _ _ _ (length os) Hs Hu H) as (os' & st2 & p & Hn' & Hf & _).
  assert (L : length os' = length aitems + (1 + length os)).
  { rewrite <- (map_length Some aitems), <- (repeat_length t (1 + length os)), <- app_length. clear -Hf. induction Hf; cbn; auto. }
  assert (E : os = firstn (length os) os') by (eapply unexts_det; eauto; lia).
  assert (F : forall n l1 l2, Forall2 (option_rel Ri) l1 l2 -> Forall2 (option_rel Ri) (firstn n l1) (firstn n l2)).
  { clear. induction n; intros l1 l2 H; [constructor|]. destruct H; cbn; constructor; auto. }
  apply (F (length os)) in Hf. rewrite <- E in Hf. cbn [repeat Nat.add] in Hf.
  rewrite repeat_cons, app_assoc, firstn_app, app_length, repeat_length in Hf.
  replace (length os - (length (map Some aitems) + length os)) with 0 in Hf by lia.
  cbn [firstn] in Hf. rewrite app_nil_r in Hf. exact Hf.
Qed.

(** Up to the first panic, inside [n] nest forms: the depth is [n] after it, and the stream and the combiners' state
    are where a parser started anew goes on behind the form whose combiner panicked. *)
Theorem C59_panic st u ads w1 b n f w2 r w : starts_on Rs view st (u ++ f ++ r) w -> (N_len (u ++ f) <= umax)%N ->
  forms cc abnd false false w u ads w1 b -> fails_at cc abnd n w1 f (FailedCombiner None) w2 ->
  exists ds st', unw_nexts st (oks ds ++ [Some (inr (FailedCombiner None))]) st' /\ Forall2 Rd ds ads /\
    ps_depth st' = N.of_nat n /\ starts_on Rs view (PState (ps_strm st') 0 (ps_alloc st')) r w2.
Proof.
  intros Hs Hu Hf Hx. apply strel_starts in Hs.
  pose proof (u_panics (umax:=umax) DC 0 Hu Hf Hx (unexts_nil umax cc abs_stream abs_concat abs_alloc abnd (ast r [] (0 + N.of_nat n) w2))) as E.
  destruct (unexts_concrete RN LW E Hs) as (os & st' & Hn & Ho & (K1 & K2 & K3)).
  destruct (options_error' _ _ Ho) as (ds & e & -> & Hd & He).
  destruct e as [| | | |c]; cbn in He; try contradiction. assert (c = None) as -> by (apply (RN _ _ He); reflexivity).
  exists ds, st'. repeat split; auto.
Qed.
End Lawful.
Print Assumptions C59_complete.
Print Assumptions C59_always.
Print Assumptions C59_panic.

(** Cases. *)
Definition pan_map : im_bindings (W:=N) (ET:=N) (CE:=option N) := [
  (DText (im_from "l"), Applicative (fun _ l w => (inl (Some l), w)));
  (DText (im_from "rm"), Operative (fun _ _ w => (inl None, w)));
  (DText (im_from "err"), Applicative (fun _ _ w => (inr (FailedCombiner (Some 7)), w)));
  (DText (im_from "pan"), Applicative (fun _ _ w => (inr (FailedCombiner None), w + 1)))]%N.
Definition pan_abs : list (datum (list (item strpos)) N * combiner N (list (item strpos)) N strpos (option N)) := [
  (DText (str_source (lit "l")), Applicative (fun _ l w => (inl (Some l), w)));
  (DText (str_source (lit "rm")), Operative (fun _ _ w => (inl None, w)));
  (DText (str_source (lit "err")), Applicative (fun _ _ w => (inr (FailedCombiner (Some 7)), w)));
  (DText (str_source (lit "pan")), Applicative (fun _ _ w => (inr (FailedCombiner None), w + 1)))]%N.
Lemma pan_related : str_bindings pan_map pan_abs.
Proof.
  unfold str_bindings, im_related, pan_map, pan_abs. repeat constructor; cbn [fst snd datum_rel];
    try apply im_from_items; unfold combiner_rel; intros; unfold Ra_view in *; subst; cbn; auto.
Qed.
Lemma pan_lawful :
  lawful False (fun w : N => w) im_stream (text_concat_ops (im_ops (W:=N))) box_alloc
    (im_lookup num_eq num_hash sum_hasher pan_map) (abs_lookup num_eq pan_abs)
    (titer_rep posstr_any posstr_any_state (im_ops (W:=N))) (text_items (im_ops (W:=N)) posstr_any) eq eq.
Proof. apply (str_lawful num_eq num_hash sum_hasher num_eq_hash pan_related). Qed.
Lemma pan_none (c1 c2 : option N) : c1 = c2 -> (c1 = None <-> c2 = None).
Proof. intros ->. tauto. Qed.

Section Calls.
Context {S A TT ET Pos CE : Type}.
Context (umax : N) (cc : classifier) (so : stream_ops S A TT Pos) (co : concat_ops A TT)
        (ao : alloc_ops A TT ET) (bnd : bindings A TT ET Pos (option CE)) (fuel : nat).
Fixpoint unw_calls (n : nat) (st : pstate S A) :=
  match n with
  | 0 => ([], st)
  | Datatypes.S n => match unw_iter_next umax cc so co ao bnd fuel st with
           | (Ok o, st') => let (l, st2) := unw_calls n st' in (o :: l, st2)
           | (_, st') => ([], st')
           end
  end.
Lemma unw_calls_nexts n : forall st, length (fst (unw_calls n st)) = n ->
  unw_nexts umax cc so co ao bnd st (fst (unw_calls n st)) (snd (unw_calls n st)).
Proof.
  induction n as [|n IH]; intros st H; [constructor|]. cbn [unw_calls] in *.
  destruct (unw_iter_next umax cc so co ao bnd fuel st) as [[o|[]| |] st'] eqn:E; try discriminate.
  specialize (IH st'). destruct (unw_calls n st') as [l st2]. cbn [fst snd length] in *.
  econstructor; [exact E|]. apply IH. lia.
Qed.
End Calls.
Definition pan_calls := unw_calls usize_max default_classifier (im_stream (W:=N)) (text_concat_ops im_ops) box_alloc
  (im_lookup (ET:=N) (CE:=option N) num_eq num_hash sum_hasher pan_map) 100.
Definition pan_show (x : option (datum im_text N + error strpos (option N))) :=
  match x with Some (inl d) => Some (inl (im_datum_show d)) | Some (inr e) => Some (inr e) | None => None end.

(** A panic inside one nest form, and inside two. *)
Example C59_case_open :
  map pan_show (fst (pan_calls 6 (im_start "x{pan {l }}y{err }" 0%N))) =
    [Some (inl (DText (lit "x"))); Some (inr (FailedCombiner None)); Some (inl (DText (lit "y")));
     Some (inr (FailedCombiner (Some 7%N))); Some (inr MissingEndChar); Some (inr MissingEndChar)] /\
  ps_depth (snd (pan_calls 6 (im_start "x{pan {l }}y{err }" 0%N))) = 1%N.
Proof. split; vm_compute; reflexivity. Qed.
Example C59_case_before :
  map pan_show (fst (pan_calls 5 (im_start "x{l a {pan } c}d" 0%N))) =
    [Some (inl (DText (lit "x"))); Some (inr (FailedCombiner None)); Some (inl (DText (lit " c"))); None; None].
Proof. vm_compute. reflexivity. Qed.

(** The hypotheses of the theorems are met: the run of the second source has three items, and then [None] for ever in
    front of the end delimiter of the form in which the panic was. *)
Lemma caught_end {W ET Pos CE} cc (bnd : bindings W (list (item Pos)) ET Pos (option CE)) k w s items w' t rest :
  caught_run cc bnd k w s items w' t rest -> t = None \/ t = Some (inr MissingEndChar).
Proof. induction 1; auto. Qed.

Lemma pan_before_nexts : exists os st',
  unw_nexts usize_max default_classifier (im_stream (W:=N)) (text_concat_ops im_ops) box_alloc
    (im_lookup (ET:=N) (CE:=option N) num_eq num_hash sum_hasher pan_map) (im_start "x{l a {pan } c}d" 0%N) os st' /\
  map pan_show os = [Some (inl (DText (lit "x"))); Some (inr (FailedCombiner None)); Some (inl (DText (lit " c"))); None; None].
Proof.
  eexists _, _. split; [apply (unw_calls_nexts usize_max default_classifier _ _ _ _ 100 5)|exact C59_case_before].
  rewrite <- (map_length pan_show). pose proof C59_case_before as B. unfold pan_calls in B. rewrite B. reflexivity.
Qed.

Example C59_case_run : exists aitems w' t rest,
  caught_run default_classifier (abs_lookup num_eq pan_abs) 0 0%N (str_source (lit "x{l a {pan } c}d")) aitems w' t rest /\
  length aitems = 3 /\ t = None /\ In (inr (FailedCombiner None)) aitems /\ rest <> [].
Proof.
  destruct (C59_total default_classifier (abs_lookup num_eq pan_abs) default_disjoint 0%N (str_source (lit "x{l a {pan } c}d")))
    as (aitems & w' & t & rest & H).
  exists aitems, w', t, rest. split; [exact H|].
  destruct pan_before_nexts as (l & st' & Hn & B).
  assert (Hu : (N_len (str_source (lit "x{l a {pan } c}d")) <= usize_max)%N) by (vm_compute; discriminate).
  pose proof (C59_always usize_max default_classifier _ _ _ _ _ _ _ _ _ _ pan_none pan_lawful default_disjoint
    _ _ _ _ _ _ _ _ _ (im_start_on _ 0%N) Hu H Hn) as F. clear Hu.
  assert (G : length aitems = 3 /\ t = None /\ In (inr (FailedCombiner None)) aitems).
  { pose proof (caught_end _ _ _ _ _ _ _ _ _ H) as Ht. clear H Hn. revert F B.
    generalize (text_items (im_ops (W:=N)) posstr_any) as Rt. intros Rt F B.
    destruct l as [|o1 [|o2 [|o3 [|o4 [|o5 [|]]]]]]; try discriminate. cbn [map length firstn] in B, F.
    injection B as B1 B2 B3 B4 B5.
    destruct o1 as [[o1|o1]|]; [|discriminate..]. destruct o2 as [[o2|o2]|]; [discriminate| |discriminate].
    destruct o3 as [[o3|o3]|]; [|discriminate..]. destruct o4 as [[o4|o4]|]; [discriminate..|].
    destruct o5 as [[o5|o5]|]; [discriminate..|]. injection B2 as ->. clear B1 B3 B4 B5.
    destruct aitems as [|a1 [|a2 [|a3 [|a4 aitems]]]]; cbn [map app repeat firstn] in F;
      repeat match goal with H : Forall2 _ (_ :: _) _ |- _ => inversion H; subst; clear H end;
      destruct Ht as [->| ->]; cbn [option_rel pitem_rel error_rel] in *; try contradiction; try tauto.
    destruct a2 as [a2|a2]; cbn [option_rel pitem_rel] in *; [contradiction|].
    destruct a2 as [| | | |[c|]]; cbn [error_rel] in *; try contradiction; try discriminate. cbn; auto. }
  destruct G as (G1 & -> & G2). repeat split; auto.
  destruct (C59_stuck _ _ _ _ _ _ _ _ H G2); congruence.
Qed.

(** The panic in it is inside two nest forms. *)
Example C59_case_panic : fails_at default_classifier (abs_lookup num_eq pan_abs) 2 0%N
  (firstn 11 (skipn 1 (str_source (lit "x{l a {pan } c}d")))) (FailedCombiner None) 1%N.
Proof.
  set (it i := nth i (str_source (lit "x{l a {pan } c}d")) (Item 0%N (StrPos [] 0 0))).
  assert (P : forall cc stop i, stop (it_ch (it i)) = false -> is_nest_escape cc (it_ch (it i)) = false ->
    forall s t, raw cc stop s t -> raw cc stop (it i :: s) (it i :: t)).
  { intros cc stop i H1 H2 s t Hr. apply raw_plain; auto. unfold escapes. congruence. }
  change (fails_at default_classifier (abs_lookup num_eq pan_abs) 2 0%N
    (it 1 :: [] ++ [it 2] ++ [it 3] ++ ([it 4; it 5] ++ []) ++ (it 6 :: [] ++ [it 7; it 8; it 9] ++ [it 10] ++ [] ++ [it 11]))
    (FailedCombiner None) 1%N).
  eapply fails_at_operand; [reflexivity|apply l_nil| | | | |].
  - apply h_text; [discriminate|]. apply P; try reflexivity. apply raw_nil.
  - vm_compute. exact I.
  - left. exists (it 3). split; reflexivity.
  - eapply f_text; [discriminate| |apply f_nil]. apply P; try reflexivity. apply P; try reflexivity. apply raw_nil.
  - apply fails_at_here. eapply n_applicative; [reflexivity|apply l_nil| | | |apply f_nil|reflexivity|].
    + apply h_text; [discriminate|]. do 3 (apply P; try reflexivity). apply raw_nil.
    + vm_compute. reflexivity.
    + left. exists (it 10). split; reflexivity.
    + reflexivity.
Qed.
