(** C41: building in place.

    The other files take a reference for the datum it refers to.  Here datums
    refer to slots of the slice, by number, and the lists are built by overwriting slots
    (Model/SlotHeap.v). *)
From Coq Require Import List NArith Arith Bool Lia.
From Verif.Model Require Import Prelude Parser Iter Utf8 Chunk TextIter PosStr
  TextDatumList Alloc DefaultClassifier TextMethods DatumMethods Bindings Premade SlotHeap.
From Verif.Spec Require Import Contract Grammar ChunkContract Lawful Run History Memory AbsStream SlotHeap.
From Verif.Proofs Require Import Sim TextFacts AllocFacts ClassifierFacts Instances PremadeFacts Concrete SlotSim SlotText SlotRun.
From Verif.Properties Require Import Alloc.
From Verif.Tests Require Import Str Cases AbsCases.
Import ListNotations.
Local Notation N_len r := (N.of_nat (length r)).

Section Any.
Context {S1 S2 W T TT ET Pos CE : Type} (umax : N) (cc : classifier).
Local Notation A := (slots T ET W).
Local Notation B := (slice_state (datum TT ET) * W)%type.
Local Notation heap := (list (cell T ET)).
Local Notation ao := (@slice_alloc W TT ET).
Context (so1 : stream_ops S1 A T Pos) (so2 : stream_ops S2 B TT Pos)
        (co1 : concat_ops A T) (co2 : concat_ops B TT)
        (bnd1 : heap -> cell T ET -> option (slot_combiner A T ET Pos CE)) (bnd2 : bindings B TT ET Pos CE)
        (rt : heap -> T -> TT -> list nat -> Prop) (rs : heap -> S1 -> S2 -> list nat -> Prop).

(** The operand list built in place reads, its references followed, as the list
    of the operands in order, where the operands are what parsing trees gives.
    It reaches no slot twice, and only slots handed out meanwhile (or to the source before); slots not
    handed out, and those handed out before to others than the source, are unchanged. *)
Theorem C41_list fuel m s1 s2 n a b fs c st1' :
  stream_slots rt rs so1 so2 -> concat_slots rt co1 co2 -> bindings_slots rt bnd1 bnd2 ->
  same_room a b -> rs (mem a) s1 s2 fs -> owned a fs ->
  s_parse_all umax cc so1 co1 bnd1 fuel m CEmptyList None (PState s1 n a) = (Ok c, st1') ->
  exists ds st2' f, operands umax cc so2 co2 ao bnd2 m (PState s2 n b) ds st2' /\
    same_room (ps_alloc st1') (ps_alloc st2') /\
    holds rt (mem (ps_alloc st1')) c (list_of ds) f /\ NoDup f /\
    (forall i, In i f -> In i fs \/ brk a <= i < brk (ps_alloc st1')) /\
    (forall i, ~ In i fs -> ~ (brk a <= i < brk (ps_alloc st1')) ->
       nth_error (mem (ps_alloc st1')) i = nth_error (mem a) i).
Proof.
  intros HS HC HB R HR O E. pose proof (parse_sim umax cc HS HC HB fuel) as (_ & _ & HA & _).
  assert (R0 : ready rs (PState s1 n a) (PState s2 n b) fs []).
  { split; [reflexivity|]. split; [exact R|]. split; [exact HR|]. cbn. rewrite app_nil_r. exact O. }
  specialize (HA m _ _ _ R0). rewrite E in HA. cbn in HA.
  destruct (parse_all umax cc so2 co2 ao bnd2 fuel m (PState s2 n b)) as [v2 st2'] eqn:E2.
  destruct v2 as [d| | |]; try contradiction. destruct HA as (fs' & f & (_ & R' & _) & H & (_ & _ & N & I1 & I2)).
  rewrite app_nil_r in *. destruct (all_operands _ _ _ _ _ _ _ _ _ E2) as (ds & -> & HO).
  exists ds, st2', f. split; [exact HO|]. split; [exact R'|]. split; [exact H|].
  split; [eapply msub_nodup; [|exact N]; msub|]. split; [|exact I2].
  intros i Hi. apply I1. apply in_or_app. auto.
Qed.

(** If parsing trees gives a list, so does building in place. *)
Theorem C41_list_total fuel m s1 s2 n a b fs d st2' :
  stream_slots rt rs so1 so2 -> concat_slots rt co1 co2 -> bindings_slots rt bnd1 bnd2 ->
  same_room a b -> rs (mem a) s1 s2 fs -> owned a fs ->
  parse_all umax cc so2 co2 ao bnd2 fuel m (PState s2 n b) = (Ok d, st2') ->
  exists c st1' f, s_parse_all umax cc so1 co1 bnd1 fuel m CEmptyList None (PState s1 n a) = (Ok c, st1') /\
    holds rt (mem (ps_alloc st1')) c d f.
Proof.
  intros HS HC HB R HR O E. pose proof (parse_sim umax cc HS HC HB fuel) as (_ & _ & HA & _).
  assert (R0 : ready rs (PState s1 n a) (PState s2 n b) fs []).
  { split; [reflexivity|]. split; [exact R|]. split; [exact HR|]. cbn. rewrite app_nil_r. exact O. }
  specialize (HA m _ _ _ R0). rewrite E in HA.
  destruct (s_parse_all umax cc so1 co1 bnd1 fuel m CEmptyList None (PState s1 n a)) as [v1 st1'].
  destruct v1 as [c| | |]; try contradiction. destruct HA as (fs' & f & _ & H & _). eauto.
Qed.

(** Whatever calls of [next]: after all of them, every datum returned reads as
    the tree that parsing trees returns, with the same errors in between; all of
    them together reach no slot twice, only slots in use, and other slots are as before. *)
Theorem C41_calls s1 s2 n a b fs rs1 st1' :
  stream_slots rt rs so1 so2 -> concat_slots rt co1 co2 -> bindings_slots rt bnd1 bnd2 ->
  same_room a b -> rs (mem a) s1 s2 fs -> owned a fs ->
  s_called umax cc so1 co1 bnd1 (PState s1 n a) rs1 st1' ->
  exists rs2 st2' f, called umax cc so2 co2 ao bnd2 (PState s2 n b) rs2 st2' /\
    same_room (ps_alloc st1') (ps_alloc st2') /\
    all_hold (result_holds rt (mem (ps_alloc st1'))) rs1 rs2 f /\ NoDup f /\
    (forall i, In i f -> In i fs \/ brk a <= i < brk (ps_alloc st1')) /\
    (forall i, ~ In i fs -> ~ (brk a <= i < brk (ps_alloc st1')) ->
       nth_error (mem (ps_alloc st1')) i = nth_error (mem a) i).
Proof.
  intros HS HC HB R HR O E.
  assert (R0 : ready rs (PState s1 n a) (PState s2 n b) fs []).
  { split; [reflexivity|]. split; [exact R|]. split; [exact HR|]. cbn. rewrite app_nil_r. exact O. }
  destruct (called_sim HS HC HB E R0) as (rs2 & st2' & fs' & f & C & (_ & R' & _) & H & (_ & _ & N & I1 & I2)).
  exists rs2, st2', f. split; [exact C|]. split; [exact R'|]. split; [exact H|].
  split; [eapply msub_nodup; [|exact N]; msub|]. split; [|exact I2].
  intros i Hi. apply I1. apply in_or_app. auto.
Qed.

(** The calls that return when parsing trees return when building in place. *)
Theorem C41_calls_total s1 s2 n a b fs rs2 st2' :
  stream_slots rt rs so1 so2 -> concat_slots rt co1 co2 -> bindings_slots rt bnd1 bnd2 ->
  same_room a b -> rs (mem a) s1 s2 fs -> owned a fs ->
  called umax cc so2 co2 ao bnd2 (PState s2 n b) rs2 st2' ->
  exists rs1 st1' f, s_called umax cc so1 co1 bnd1 (PState s1 n a) rs1 st1' /\
    all_hold (result_holds rt (mem (ps_alloc st1'))) rs1 rs2 f.
Proof.
  intros HS HC HB R HR O E.
  assert (R0 : ready rs (PState s1 n a) (PState s2 n b) fs []).
  { split; [reflexivity|]. split; [exact R|]. split; [exact HR|]. cbn. rewrite app_nil_r. exact O. }
  destruct (called_sim_rev HS HC HB E R0) as (rs1 & st1' & fs' & f & C & _ & H & _). eauto.
Qed.
End Any.

(** ** The ready-made parser, core/src/premade/inmem.rs *)
Section Premade.
Context {W ET CE : Type} (ET_eq : ET -> ET -> bool).
Local Notation rt := (@tdl_holds posstr ET).

Lemma s_parser_room (slice1 : list (cell (stdl posstr) ET)) (slice2 : list (nh_datum (ET:=ET))) (w : W) :
  length slice1 = length slice2 -> same_room (slice_new slice1, w) (nh_parser slice2 w).
Proof.
  intros L. unfold same_room, nh_parser, mem, brk, used, slice_new. cbn.
  split; [destruct slice1, slice2; try discriminate L; reflexivity|]. split; [exact L|]. split; [reflexivity|].
  destruct slice1; cbn; lia.
Qed.

(** Over any slice of slots, whatever it holds, parsing gives the items that
    parsing trees gives: every datum, its references followed at the end, reads as the
    tree; all of them together reach no slot twice and only slots handed out, and the slots that were
    not handed out are as before. *)
Theorem C41_parse t (m1 : list (nh_datum * slot_combiner (slots (stdl posstr) ET W) (stdl posstr) ET strpos CE))
    (m2 : nh_bindings (W:=W) (ET:=ET) (CE:=CE)) slice1 slice2 w items2 st2 :
  Forall2 (fun p q => fst p = fst q /\ combiner_slots rt (snd p) (snd q)) m1 m2 ->
  length slice1 = length slice2 ->
  parse_text_with ET_eq t m2 (nh_parser slice2 w) = (Ok items2, Some st2) ->
  exists items1 st1 f,
    s_parse_chunks_with (tx_chunks (nh_ops (W:=W) (ET:=ET)) t) (s_pair_lookup ET_eq m1) (slice_new slice1, w) = (Ok items1, Some st1) /\
    Forall2 (fun x y => match x, y with
                        | inl c, inl d => s_read (S (length slice1)) (mem (ps_alloc st1)) c = Some d
                        | inr e, inr e' => e = e'
                        | _, _ => False
                        end) items1 items2 /\
    all_hold (item_holds rt (mem (ps_alloc st1))) items1 items2 f /\ NoDup f /\
    (forall i, In i f -> i < length slice1 - room (fst (ps_alloc st2))) /\
    (forall i, length slice1 - room (fst (ps_alloc st2)) <= i -> nth_error (mem (ps_alloc st1)) i = nth_error slice1 i) /\
    snd (ps_alloc st1) = snd (ps_alloc st2).
Proof.
  intros HM L E. pose proof (premade_sim ET_eq t m2 (s_pair_slots ET_eq HM) (s_parser_room slice1 slice2 w L)) as G.
  rewrite E in G.
  destruct (s_parse_chunks_with _ _ _) as [v1 o1]. destruct v1 as [l1|[]| |]; try contradiction; try (destruct o1; contradiction).
  destruct o1 as [st1|]; [|contradiction]. destruct G as (fs & f & H & (_ & ML & N & I1 & I2) & R).
  assert (Nf : NoDup f) by (eapply msub_nodup; [|exact N]; msub).
  assert (Hb : brk (ps_alloc st1) = length slice1 - room (fst (ps_alloc st2))).
  { destruct R as (F & LL & _ & Le). unfold brk, used, room, slice_unused, mem in *.
    unfold nh_alloc_state, nh_datum, nh_text in *. rewrite <- F.
    destruct (sl_free (fst (ps_alloc st1))) as [i|]; cbn [option_map].
    - rewrite skipn_length. rewrite ML in Le, LL. cbn in Le, LL. lia.
    - rewrite ML. cbn. lia. }
  assert (B0 : brk (slice_new slice1, w) = 0) by (unfold brk, used, slice_new; destruct slice1; reflexivity).
  exists l1, st1, f. split; [reflexivity|]. split; [|split; [exact H|]].
  { assert (Lf : NoDup f) by exact Nf. revert Lf. clear - H ML. induction H as [|x y g l l' fs' Q _ IH]; intros Lf; [constructor|].
    assert (NoDup g /\ NoDup fs') as [N1 N2]. { split; eapply msub_nodup; [|exact Lf| |exact Lf]; msub. }
    constructor; [|auto]. destruct x as [c|e], y as [d|e']; cbn in Q; try contradiction; [|exact (proj1 Q)].
    apply (read_holds Q). pose proof (holds_small Q N1) as Hs. rewrite ML in Hs. cbn in Hs. lia. }
  split; [exact Nf|]. split; [|split].
  - intros i Hi. destruct (I1 i) as [[]|Hlt]; [apply in_or_app; auto|]. lia.
  - intros i Hi. rewrite (I2 i); [reflexivity|auto|lia].
  - exact (proj1 (proj2 (proj2 R))).
Qed.

(** An input in the language, without bindings: with [total_needed] slots or
    more, the datums read back, from the memory after, as the datums of the input; only the first
    [total_needed] slots are written. *)
Theorem C41_exact t l ads (w w' : W) :
  text_items (nh_ops (W:=W) (ET:=ET)) posstr_any t l -> (N_len l <= usize_max)%N ->
  input (CE:=CE) default_classifier (fun _ => None) w l ads w' ->
  exists ds, Forall2 (datum_rel (reads posstr_ops (nh_ops (W:=W) (ET:=ET))) eq) ds ads /\
  forall slice, exists items st,
    s_parse_chunks_with (CE:=CE) (tx_chunks (nh_ops (W:=W) (ET:=ET)) t) (s_pair_lookup ET_eq []) (slice_new slice, w) = (Ok items, Some st) /\
    (total_needed ds <= length slice -> exists cs, items = map inl cs /\
       map (s_read (S (length slice)) (mem (ps_alloc st))) cs = map Some ds /\
       forall i, total_needed ds <= i -> nth_error (mem (ps_alloc st)) i = nth_error slice i) /\
    (length slice < total_needed ds -> exists cs e ds1 ds2, items = map inl cs ++ [inr (FailedAlloc e)] /\
       map (s_read (S (length slice)) (mem (ps_alloc st))) cs = map Some ds1 /\ ds = ds1 ++ ds2).
Proof.
  intros Ht Hu Hin. destruct (C29_exact ET_eq t l ads w w' Ht Hu Hin) as (ds & Hds & K). exists ds. split; [exact Hds|].
  intros slice. set (slice2 := repeat (@DEmptyList (nh_text (ET:=ET)) ET) (length slice)).
  assert (L : length slice = length slice2) by (subst slice2; rewrite repeat_length; reflexivity).
  destruct (K slice2) as (items2 & st2 & E2 & K1 & K2).
  destruct (C41_parse t [] [] slice slice2 w items2 st2 ltac:(constructor) L E2) as (items1 & st1 & f & E1 & HR & _ & _ & _ & HU & _).
  exists items1, st1. split; [exact E1|].
  assert (RB : forall ds' items, Forall2 (fun (x : slot_item (T:=stdl posstr) (ET:=ET) (Pos:=strpos) (CE:=CE))
      (y : parse_item (TT:=tdl posstr ET) (ET:=ET) (Pos:=strpos) (CE:=CE)) => match x, y with
                        | inl c, inl d => s_read (S (length slice)) (mem (ps_alloc st1)) c = Some d
                        | inr e, inr e' => e = e'
                        | _, _ => False
                        end) items (map inl ds') ->
     exists cs, items = map inl cs /\ map (s_read (S (length slice)) (mem (ps_alloc st1))) cs = map Some ds').
  { clear. induction ds' as [|d ds' IH]; intros items H; inversion H as [|x y l l' Hx Hl]; subst; [exists []; auto|].
    destruct (IH _ Hl) as (cs & -> & E). destruct x as [c|]; [|contradiction]. exists (c :: cs). split; [reflexivity|].
    cbn [map]. rewrite Hx, E. reflexivity. }
  split.
  - intros Hl. rewrite L in Hl. destruct (K1 Hl) as (-> & Hr). destruct (RB _ _ HR) as (cs & -> & E). exists cs.
    split; [reflexivity|]. split; [exact E|]. intros i Hi. apply HU. unfold nh_alloc_state, nh_datum, nh_text in *. lia.
  - intros Hl. rewrite L in Hl. destruct (K2 Hl) as (ds1 & ds2 & e & -> & ->).
    apply Forall2_app_inv_r in HR. destruct HR as (i1 & i2 & H1 & H2 & ->).
    inversion H2 as [|x y l0 l' Hx Hl0]; subst. inversion Hl0; subst. destruct x as [|e0]; [contradiction|]. subst e0.
    destruct (RB _ _ H1) as (cs & -> & E). exists cs, e, ds1, ds2. auto.
Qed.
End Premade.

(** The chunks that iterating over a text of slots gives are those of the text it reads back as. *)
Theorem C41_chunks {C ET} fuel (h : list (cell (stdl C) ET)) t u : s_read_text fuel h t = Some u -> s_chunks fuel h t = tdl_chunks u.
Proof.
  revert t u. induction fuel as [|f IH]; intros [c [i|]] u H; cbn in H |- *; try discriminate.
  - destruct (nth_error h i) as [[t'| | | | |]|]; try discriminate.
    destruct (s_read_text f h t') as [u'|] eqn:E; [|discriminate]. injection H as <-. rewrite (IH _ _ E). reflexivity.
  - injection H as <-. reflexivity.
Qed.
Print Assumptions C41_list.
Print Assumptions C41_chunks.
Print Assumptions C41_list_total.
Print Assumptions C41_calls.
Print Assumptions C41_calls_total.
Print Assumptions C41_parse.
Print Assumptions C41_exact.

(** * Cases *)

Local Notation T := (stdl posstr).
Local Notation A := (slots T N N).
Local Notation TT := (nh_text (ET:=N)).
Local Notation B := (nh_alloc_state (W:=N) (ET:=N)).
Local Notation rt := (@tdl_holds posstr N).

(** Combiners: [q] returns its text; [clear] overwrites its first operand in
    place; [wrap] allocates its operator and its operands. *)
Definition sq : slot_combiner A T N strpos N := SOperative (fun _ t a => (inl (Some (CText t)), a)).
Definition tq : combiner B TT N strpos N := Operative (fun _ t b => (inl (Some (DText t)), b)).

Definition s_clear : slot_combiner A T N strpos N := SApplicative (fun _ c a =>
  match c with
  | CList i _ => (inl (Some c), (SliceState (set_slot (mem a) i CEmptyNest) (sl_free (fst a)), snd a))
  | _ => (inl (Some c), a)
  end).
Definition t_clear : combiner B TT N strpos N := Applicative (fun _ d b =>
  (inl (Some (match d with DList _ n => DList DEmptyNest n | _ => d end)), b)).

Definition s_wrap : slot_combiner A T N strpos N := SApplicative (fun c c' a =>
  match slice_new_datum c (fst a) with
  | (Ok i, s1) =>
      match slice_new_datum c' s1 with
      | (Ok j, s2) => (inl (Some (CComb i j)), (s2, snd a))
      | (Err e, s2) => (inr (FailedAlloc e), (s2, snd a))
      | (_, s2) => (inl None, (s2, snd a))
      end
  | (Err e, s1) => (inr (FailedAlloc e), (s1, snd a))
  | (_, s1) => (inl None, (s1, snd a))
  end).
Definition t_wrap : combiner B TT N strpos N := Applicative (fun d d' b =>
  match slice_new_datum d (fst b) with
  | (Ok _, s1) =>
      match slice_new_datum d' s1 with
      | (Ok _, s2) => (inl (Some (DComb d d')), (s2, snd b))
      | (Err e, s2) => (inr (FailedAlloc e), (s2, snd b))
      | (_, s2) => (inl None, (s2, snd b))
      end
  | (Err e, s1) => (inr (FailedAlloc e), (s1, snd b))
  | (_, s1) => (inl None, (s1, snd b))
  end).

Lemma q_slots : combiner_slots rt sq tq.
Proof.
  intros a b c d fc t u ft R O Hc Ht. cbn. split; [exact R|]. exists ft. split; [constructor; exact Ht|].
  eapply moves_sub; [apply moves_refl; exact O|]. msub.
Qed.

Lemma clear_slots : combiner_slots rt s_clear t_clear.
Proof.
  intros a b c d fc c' d' fc' R O Hc Hc'. cbn.
  assert (M0 : moves a a (fc ++ fc') fc') by (eapply moves_sub; [apply moves_refl; exact O|]; msub).
  inversion Hc' as [t u f H| | |i ci di fi j cj dj fj Ei Hi Ej Hj| |x]; subst; cbn.
  1-3,5,6: split; [exact R|]; eexists; split; [cbn; eassumption|exact M0].
  split; [apply write_room; exact R|]. exists (i :: [] ++ j :: fj).
  assert (Oc : owned a (i :: fi ++ j :: fj)) by (eapply owned_sub; [|exact O]; msub).
  assert (Hlt : i < length (mem a)) by (apply nth_error_Some; congruence).
  assert (Nij : i <> j /\ ~ In i fj).
  { destruct Oc as [Nd _]. inversion Nd as [|? ? Hn _]; subst. rewrite in_app_iff in Hn. cbn in Hn. split; intro; apply Hn; auto. }
  destruct Nij as [Nj Nf]. split.
  - change (holds rt (set_slot (mem a) i CEmptyNest) (CList i j) (DList DEmptyNest dj) (i :: [] ++ j :: fj)). econstructor.
    + apply set_slot_same. exact Hlt.
    + constructor.
    + rewrite set_slot_other by exact Nj. exact Ej.
    + eapply holds_local; [apply tdl_local|exact Hj|]. intros k Hk. apply set_slot_other. intros ->. contradiction.
  - eapply moves_sub; [apply write_slot with (f:=fc ++ i :: fi ++ j :: fj); [|exact O]|msub].
    apply in_or_app. right. left. reflexivity.
Qed.

Lemma wrap_slots : combiner_slots rt s_wrap t_wrap.
Proof.
  intros a b c d fc c' d' fc' R O Hc Hc'. cbn.
  destruct (new_slot c d R) as [(a1 & b1 & E1 & E2 & R1 & Hn & Hlt & Hm)|(e & a1 & b1 & E1 & E2 & R1 & Hm)];
    unfold nh_datum, nh_text in *; rewrite E1, E2.
  2:{ cbn. split; [exact R1|]. split; [reflexivity|]. eapply moves_sub; [apply Hm; exact O|msub]. }
  pose proof (Hm _ O) as M1. pose proof (moves_owned O M1) as O1.
  assert (Hc1 : holds rt (mem (a1, snd a)) c d fc).
  { eapply holds_local; [apply tdl_local|exact Hc|]. eapply moves_agree with (f:=[]) (f1:=[brk a]); [|apply Hm; split; [constructor|intros ? []]].
    eapply owned_sub; [|exact O]. msub. }
  assert (Hc1' : holds rt (mem (a1, snd a)) c' d' fc').
  { eapply holds_local; [apply tdl_local|exact Hc'|]. eapply moves_agree with (f:=[]) (f1:=[brk a]); [|apply Hm; split; [constructor|intros ? []]].
    eapply owned_sub; [|exact O]. msub. }
  destruct (new_slot c' d' R1) as [(a2 & b2 & E3 & E4 & R2 & Hn2 & Hlt2 & Hm2)|(e & a2 & b2 & E3 & E4 & R2 & Hm2)];
    cbn [fst snd] in E3, E4; rewrite E3, E4.
  2:{ cbn. split; [exact R2|]. split; [reflexivity|]. eapply moves_trans; [exact M1|]. eapply moves_sub; [apply Hm2; exact O1|msub]. }
  pose proof (Hm2 _ O1) as M2. cbn. split; [exact R2|].
  assert (G : agree (mem (a1, snd a)) (mem (a2, snd a)) (brk a :: fc ++ fc')).
  { eapply moves_agree with (f:=[]) (f1:=[brk (a1, snd a)]); [exact O1|apply Hm2; split; [constructor|intros ? []]]. }
  exists (brk a :: fc ++ brk (a1, snd a) :: fc'). split.
  - cbn. econstructor.
    + etransitivity; [apply G; left; reflexivity|exact Hn].
    + eapply holds_local; [apply tdl_local|exact Hc1|]. intros k Hk. apply G. right. apply in_or_app. auto.
    + exact Hn2.
    + eapply holds_local; [apply tdl_local|exact Hc1'|]. intros k Hk. apply G. right. apply in_or_app. auto.
  - eapply moves_trans; [exact M1|]. eapply moves_sub; [exact M2|msub].
Qed.

Definition s_map : list (nh_datum (ET:=N) * slot_combiner A T N strpos N) :=
  [(DText (nh_from "q"), sq); (DText (nh_from "clear"), s_clear); (DText (nh_from "wrap"), s_wrap)].
Definition t_map : nh_bindings (W:=N) (ET:=N) (CE:=N) :=
  [(DText (nh_from "q"), tq); (DText (nh_from "clear"), t_clear); (DText (nh_from "wrap"), t_wrap)].
Lemma map_slots : Forall2 (fun p q => fst p = fst q /\ combiner_slots rt (snd p) (snd q)) s_map t_map.
Proof.
  apply Forall2_cons; [split; [reflexivity|exact q_slots]|].
  apply Forall2_cons; [split; [reflexivity|exact clear_slots]|].
  apply Forall2_cons; [split; [reflexivity|exact wrap_slots]|]. constructor.
Qed.

(** Slots full of other things, which refer to each other. *)
Definition junk (n : nat) : list (cell T N) := repeat (CComb 0 1) n.
Definition s_run (s : literal) n := s_parse_chunks_with (CE:=N) (tx_chunks (nh_ops (W:=N) (ET:=N)) (nh_from s))
  (s_pair_lookup num_eq s_map) (slice_new (junk n), 0%N).
Arguments s_run _%lit.
Definition s_show {S} n (r : res Empty_set (list (slot_item (T:=T) (ET:=N) (Pos:=strpos) (CE:=N))) * option (pstate S A)) :=
  match r with
  | (Ok l, Some st) => Some (map (fun x => match x with
       | inl c => inl (option_map nh_datum_show (s_read (1 + n) (mem (ps_alloc st)) c))
       | inr e => inr e end) l)
  | _ => None
  end.
Definition s_start (s : literal) n : pstate (@titer T posstr posstr_iter strpos) A :=
  match next_chunk posstr_ops (tx_chunks (nh_ops (W:=N) (ET:=N)) (nh_from s)) with
  | Ok (cur, rest) => parse_iter_new (TIter cur rest None None) (slice_new (junk n), 0%N)
  | _ => parse_iter_new (TIter None SEnd None None) (slice_new (junk n), 0%N)
  end.
Arguments s_start _%lit.
Definition t_start (s : literal) n : pstate (@titer TT posstr posstr_iter strpos) B :=
  match next_chunk posstr_ops (tx_chunks (nh_ops (W:=N) (ET:=N)) (nh_from s)) with
  | Ok (cur, rest) => parse_iter_new (TIter cur rest None None) (nh_parser (nh_slots n) 0%N)
  | _ => parse_iter_new (TIter None SEnd None None) (nh_parser (nh_slots n) 0%N)
  end.
Arguments t_start _%lit.


(** A list in a list; the second list cell, in slot 1, was overwritten in place. *)
Local Notation s_operands := (s_parse_all (CE:=N) usize_max default_classifier s_nh_stream (text_concat_ops s_nh_ops)
  (s_pair_lookup (W:=N) num_eq s_map)).
Lemma start_alike s n : let a := ps_alloc (s_start s n) in let b := ps_alloc (t_start s n) in
  same_room a b /\ iter_rs rt (mem a) (ps_strm (s_start s n)) (ps_strm (t_start s n)) [] /\ owned a [].
Proof.
  unfold s_start, t_start. destruct (next_chunk posstr_ops (tx_chunks nh_ops (nh_from s))) as [[cur rest]|[]| |]; cbn.
  all: (split; [apply s_parser_room; unfold junk, nh_slots; rewrite !repeat_length; reflexivity|]).
  all: split; [repeat split|split; [constructor|intros i []]].
Qed.
Example C41_list_case :
  stream_slots rt (iter_rs rt) (s_nh_stream (W:=N)) nh_stream /\
  concat_slots rt (text_concat_ops (s_nh_ops (W:=N))) (text_concat_ops nh_ops) /\
  bindings_slots rt (s_pair_lookup (W:=N) num_eq s_map) (nh_lookup num_eq t_map) /\
  (let a := ps_alloc (s_start "a{f}" 9) in let b := ps_alloc (t_start "a{f}" 9) in
   same_room a b /\ iter_rs rt (mem a) (ps_strm (s_start "a{f}" 9)) (ps_strm (t_start "a{f}" 9)) [] /\ owned a []) /\
  exists st' x1 x2, s_operands 60 Base CEmptyList None (s_start "a{f}" 9) = (Ok (CList 0 1), st') /\
    mem (ps_alloc st') = [x1; CList 4 5; x2; CEmptyList; CComb 2 3; CEmptyList; CComb 0 1; CComb 0 1; CComb 0 1] /\
    option_map nh_datum_show (s_read 10 (mem (ps_alloc st')) (CList 0 1)) =
      Some (list_of [DText [97%N]; DComb (DText [102%N]) DEmptyList]).
Proof.
  split; [exact nh_stream_slots|]. split; [apply stdl_concat_slots|]. split; [exact (s_pair_slots num_eq map_slots)|].
  split; [apply start_alike|]. do 3 eexists. split; [vm_compute; reflexivity|]. split; vm_compute; reflexivity.
Qed.
Example C41_list_total_case : exists d st', parse_all (CE:=N) usize_max default_classifier nh_stream (text_concat_ops nh_ops) slice_alloc
  (nh_lookup (W:=N) num_eq t_map) 60 Base (t_start "a{f}" 9) = (Ok d, st').
Proof. do 2 eexists. vm_compute. reflexivity. Qed.

(** Calls that return a datum, an error, a datum and nothing. *)
Example C41_calls_case : exists i1 e i3 st',
  s_called usize_max default_classifier s_nh_stream (text_concat_ops s_nh_ops) (s_pair_lookup (W:=N) (CE:=N) num_eq s_map)
    (s_start "{a b}}{c d}" 20) [Some (inl i1); Some (inr e); Some (inl i3); None] st' /\
  i1 = CComb 2 3 /\ i3 = CComb 6 7 /\
  map (fun c => option_map nh_datum_show (s_read 21 (mem (ps_alloc st')) c)) [i1; i3] =
    [Some (DComb (DText [97%N]) (list_of [DText [98%N]])); Some (DComb (DText [99%N]) (list_of [DText [100%N]]))].
Proof.
  do 4 eexists. split.
  { do 4 (eapply s_called_next with (fuel:=60); [vm_compute; reflexivity|]). constructor. }
  split; [reflexivity|]. split; [reflexivity|]. vm_compute. reflexivity.
Qed.
Example C41_calls_total_case : exists d1 e d3 st',
  called usize_max default_classifier nh_stream (text_concat_ops nh_ops) slice_alloc (nh_lookup (W:=N) (CE:=N) num_eq t_map)
    (t_start "{a b}}{c d}" 20) [Some (inl d1); Some (inr e); Some (inl d3); None] st'.
Proof. do 4 eexists. do 4 (eapply called_next with (fuel:=60); [vm_compute; reflexivity|]). constructor. Qed.

(** [f]'s operands are a text, the list that [clear] has changed in place, and a text of
    two chunks; [wrap] allocates; with few slots there is an error. *)
Example C41_parse_case :
  Forall2 (fun p q => fst p = fst q /\ combiner_slots rt (snd p) (snd q)) s_map t_map /\
  length (junk 40) = length (nh_slots 40) /\
  (exists items st, parse_text_with num_eq (nh_from "{f a {clear x y} b\}} {wrap u v}{q hi}") t_map (nh_parser (nh_slots 40) 0%N) = (Ok items, Some st) /\
    length items = 4) /\
  s_show 40 (s_run "{f a {clear x y} b\}} {wrap u v}{q hi}" 40) = Some
    [inl (Some (DComb (DText [102%N]) (list_of [DText [97; 32]%N; list_of [DEmptyNest]; DText [32; 98; 125]%N])));
     inl (Some (DText [32%N]));
     inl (Some (DComb (DText [119; 114; 97; 112]%N) (list_of [DText [117; 32; 118]%N])));
     inl (Some (DText [104; 105]%N))] /\
  s_show 12 (s_run "{f a {clear x y} b\}} {wrap u v}{q hi}" 12) = Some
    [inl (Some (DComb (DText [102%N]) (list_of [DText [97; 32]%N; list_of [DEmptyNest]; DText [32; 98; 125]%N])));
     inl (Some (DText [32%N]));
     inr (FailedAlloc AllocExhausted)].
Proof.
  split; [exact map_slots|]. split; [reflexivity|].
  split; [do 2 eexists; split; vm_compute; reflexivity|]. split; vm_compute; reflexivity.
Qed.

(** The input of [C29_case] in slots. *)
Example C41_exact_case :
  (exists ads w', input (CE:=N) (W:=N) (ET:=N) default_classifier (fun _ => None) 0%N (str_source (lit "{a b}c\}\}")) ads w') /\
  (forall n, n = 6 \/ n = 9 -> exists st c1 c2, s_parse_chunks_with (CE:=N) (tx_chunks (nh_ops (W:=N) (ET:=N)) (nh_from "{a b}c\}\}"))
      (s_pair_lookup num_eq []) (slice_new (junk n), 0%N) = (Ok [inl c1; inl c2], Some st) /\
    map (fun c => option_map nh_datum_show (s_read (1 + n) (mem (ps_alloc st)) c)) [c1; c2] =
      [Some (DComb (DText [97%N]) (list_of [DText [98%N]])); Some (DText [99; 125; 125]%N)]).
Proof.
  split; [exact (proj1 C29_case)|].
  intros n [->| ->]; do 3 eexists; (split; [vm_compute; reflexivity|]; vm_compute; reflexivity).
Qed.

Example C41_chunks_case :
  let h := [CEmptyList; CText (STDL 7%N None); CText (STDL 8%N (Some 1))] : list (cell (stdl N) N) in
  s_read_text 3 h (STDL 9%N (Some 2)) = Some (TDL 9%N (Some (DText (TDL 8%N (Some (DText (TDL 7%N None))))))) /\
  s_chunks 3 h (STDL 9%N (Some 2)) = SCons 9%N (SCons 8%N (SCons 7%N SEnd)).
Proof. split; reflexivity. Qed.
