(** The meaning of all sources of the examples' notation. *)
From Coq Require Import List NArith ZArith Bool Lia.
From Verif.Model Require Import Prelude Parser Iter Utf8 Chunk TextIter PosStr TextVec TextDatumList Alloc
  DefaultClassifier DatumMethods TextMethods Bindings Premade Numeral ExampleLang.
From Verif.Spec Require Import Contract ChunkContract AbsStream Grammar Balance Lawful Run Unclosed Numeral Extended.
From Verif.Proofs Require Import Sim Refine ChunkFacts TextFacts AllocFacts Instances RunFacts Transfer PremadeFacts
  AbsIter ClassifierFacts Memory MemoryFacts NumeralFacts ExampleFacts ExampleRuns ExampleStack UnclosedFacts FormRuns.
Import ListNotations.
Set Implicit Arguments.
Local Notation N_len r := (N.of_nat (length r)).

(** Bindings may be exchanged for others with the same results. *)
Definition same_combiner {A TT ET Pos CE} (c1 c2 : combiner A TT ET Pos CE) : Prop :=
  match c1, c2 with
  | Operative f1, Operative f2 => forall d t a, f1 d t a = f2 d t a
  | Applicative f1, Applicative f2 => forall d t a, f1 d t a = f2 d t a
  | _, _ => False
  end.
Lemma lawful_same {S A TT ET Pos CE W AE AC F view so co ao} {bnd : bindings A TT ET Pos CE}
    {abnd abnd' : bindings W (list (item Pos)) AE Pos AC} {Rs : S -> _ -> _ -> Prop} {Rt Rx Rc} :
  lawful F view so co ao bnd abnd Rs Rt Rx Rc -> (forall o, option_rel same_combiner (abnd o) (abnd' o)) ->
  lawful F view so co ao bnd abnd' Rs Rt Rx Rc.
Proof.
  intros [H1 H2 H3 H4 H5] H. split; auto. intros d1 d2 Hd. specialize (H5 d1 d2 Hd). specialize (H d2).
  destruct (bnd d1) as [c1|], (abnd d2) as [c2|], (abnd' d2) as [c3|]; cbn in *; try contradiction; auto.
  destruct c1, c2, c3; cbn in *; try contradiction; intros; rewrite <- H; auto.
Qed.

Lemma chars_are_eqb t s : chars_eqb t (str_source s) = chars_are t s.
Proof. unfold chars_eqb, chars_are. rewrite str_source_ch. reflexivity. Qed.
Lemma notation_ext {W X} other (now : W -> X * W) limit x_eq o :
  option_rel same_combiner (abs_lookup (variants_eq x_eq) (ext other now (bounded_str limit)) o) (notation other now limit o).
Proof.
  unfold abs_lookup, ext, datum_eq, notation. cbn [pair_lookup].
  assert (I : forall d t a, int (Pos:=strpos) (A:=W) (bounded_str limit) d t a = (int_value (X:=X) limit (map it_ch t), a)).
  { intros d t a. unfold int, bounded_str, int_value. destruct limit as [n|].
    - rewrite Nat.ltb_antisym. destruct (length (encode (map it_ch t)) <=? n)%nat; cbn [negb]; [|reflexivity].
      destruct (i128_from_str _); reflexivity.
    - destruct (i128_from_str _); reflexivity. }
  destruct o as [t|a b| | | |]; cbn [datum_eq_run fst]; try exact Logic.I.
  - rewrite !chars_are_eqb. destruct (chars_are t name_comment); [cbn; reflexivity|].
    destruct (chars_are t other); [|destruct (chars_are t name_int); [exact I|exact Logic.I]].
    cbn. intros d b a. unfold current. destruct b; try reflexivity. destruct (now a); reflexivity.
  - destruct b; cbn [datum_eq_run fst]; try (destruct a; exact Logic.I).
    destruct a as [t| | | | |]; cbn [datum_eq_run fst]; try exact Logic.I.
    rewrite chars_are_eqb. destruct (chars_are t name_compound); [cbn; reflexivity|exact Logic.I].
Qed.

Lemma rel_inl {T1 T2 E1 E2 P C1 C2} (Rt : T1 -> T2 -> Prop) (Rx : E1 -> E2 -> Prop) (Rc : C1 -> C2 -> Prop) all : forall ads,
  Forall2 (pitem_rel Rt Rx (@eq P) Rc) all (map inl ads) -> exists ds, all = map inl ds.
Proof.
  induction all as [|[d|e] l IH]; intros [|a ads] H; cbn in H; inversion H as [|? ? ? ? H1 H2]; subst; try contradiction.
  - exists []. reflexivity.
  - destruct (IH _ H2) as (ds & ->). exists (d :: ds). reflexivity.
Qed.
Lemma upto_inl {T E P C} (ds : list (datum T E)) : upto_err (map inl ds) = map (inl (B:=error P C)) ds.
Proof. induction ds as [|x ds IH]; cbn; [reflexivity|f_equal; exact IH]. Qed.

Lemma datum_rel_mono {T1 T2 E1 E2} (R R' : T1 -> T2 -> Prop) (Rx : E1 -> E2 -> Prop) : (forall a b, R a b -> R' a b) ->
  forall d1 d2, datum_rel R Rx d1 d2 -> datum_rel R' Rx d1 d2.
Proof. intros H. induction d1; destruct d2; cbn; auto; intros [? ?]; auto. Qed.
Lemma my_item_mono {T1 T2 X} (R R' : T1 -> T2 -> Prop) : (forall a b, R a b -> R' a b) -> forall i1 i2,
  pitem_rel R (@eq (variants X)) (@eq strpos) (my_error_rel (datum_rel R (@eq (variants X)))) i1 i2 ->
  pitem_rel R' (@eq (variants X)) (@eq strpos) (my_error_rel (datum_rel R' (@eq (variants X)))) i1 i2.
Proof.
  intros H [d1|e1] [d2|e2]; cbn; auto.
  - apply datum_rel_mono. exact H.
  - destruct e1 as [| | | |c1], e2 as [| | | |c2]; cbn; auto. destruct c1, c2; cbn; auto. apply datum_rel_mono. exact H.
Qed.

Section CommonBasic.
Context {W : Type} (now : W -> N * W) (hasher : list hash_word -> N).
Local Notation Rt := (text_items (im_ops (W:=W)) posstr_any).
Local Notation Ri := (pitem_rel Rt (@eq (variants N)) (@eq strpos) (my_error_rel (datum_rel Rt (@eq (variants N))))).
Lemma cb_meaning input w aitems w' : (N_len input <= usize_max)%N ->
  run default_classifier (notation name_time now None) w (str_source input) aitems w' ->
  exists items st, cb_parse now hasher input w = (Ok items, Some st) /\ Forall2 Ri items (upto_err aitems) /\
    (forall ads, aitems = map inl ads -> ps_alloc st = w').
Proof.
  intros Hu Hr. destruct (str_starts input w) as (s & Es & Hs).
  destruct (parse_str_iterates (variants_eq N.eqb) variants_hash hasher (cb_bindings now hasher) w Hu Es)
    as ((all & st1 & Ha & st & Ep) & Hok & _).
  pose proof (lawful_same (cb_lawful now hasher) (notation_ext name_time now None N.eqb)) as LW.
  destruct (run_iterates default_disjoint (umax:=usize_max) Hr ltac:(rewrite str_source_length; exact Hu)) as (p & Hai).
  destruct (iterates_conc LW Hs Hai) as (items & st' & E & Hi & (_ & _ & V)).
  destruct (iterates_det Ha E) as [<- <-].
  exists (upto_err all), st. split; [exact Ep|]. split; [apply upto_err_rel; auto; intros ? ? []|].
  intros ads Eads. rewrite Eads in Hi. clear Eads.
  destruct (rel_inl _ Hi) as (ds & Ea). rewrite Ea, upto_inl in Ep. rewrite Ea in Ha.
  pose proof (Hok _ _ Ep) as Hit. destruct (iterates_det Ha Hit) as [_ <-]. exact V.
Qed.
End CommonBasic.

Section StackOnly.
Context {W : Type}.
Local Notation Rt := (text_items (nh_ops (W:=W) (ET:=variants unit)) posstr_any).
Local Notation Ri := (pitem_rel Rt (@eq (variants unit)) (@eq strpos) (my_error_rel (datum_rel Rt (@eq (variants unit))))).
Lemma so_meaning input (w : W) aitems w' : Forall (fun c => is_scalar c = true) input -> (N_len input <= usize_max)%N ->
  run default_classifier (notation name_thing (fun a => (tt, a)) (Some 39)) w (str_source input) aitems w' ->
  exists k, forall slots, exists items st, so_parse input slots w = (Ok items, Some st) /\
    (Forall2 Ri items (upto_err aitems) \/
     length slots < k /\ exists ds e rest rest', items = map inl ds ++ [inr (FailedAlloc e)] /\
       upto_err aitems = rest ++ rest' /\ Forall2 Ri (map inl ds) rest).
Proof.
  intros Hsc Hu Hr. destruct (so_run w Hsc Hu) as (s & all & st' & k & Es & Ha & Hs & Hrun).
  pose proof (lawful_same (so_lawful (W:=W)) (notation_ext name_thing (fun a : W => (tt, a)) (Some 39) unit_eq)) as LW.
  destruct (run_iterates default_disjoint (umax:=usize_max) Hr ltac:(rewrite str_source_length; exact Hu)) as (p & Hai).
  destruct (iterates_conc LW Hs Hai) as (items & st1 & E & Hi & _).
  destruct (iterates_det Ha E) as [<- _].
  assert (HU : Forall2 Ri (upto_err all) (upto_err aitems)).
  { apply upto_err_rel; [intros ? ? []|intros ? ? []|]. clear - Hi. induction Hi; constructor; auto.
    eapply my_item_mono; [|eassumption]. intros t k0 Ht. exact (proj1 (only_text Ht)). }
  exists k. intros slots. destruct (Hrun slots) as (its & st & Ep & Hk & Hor). exists its, st. split; [exact Ep|].
  destruct (Nat.le_gt_cases k (length slots)) as [Hle|Hgt]; [left; rewrite (Hk Hle); exact HU|].
  destruct Hor as [->|(ds & e & rest & -> & Hds)]; [left; exact HU|].
  right. split; [exact Hgt|]. rewrite Hds in HU. apply Forall2_app_inv_l in HU. destruct HU as (l1 & l2 & H1 & _ & ->).
  exists ds, e, l1, l2. auto.
Qed.
End StackOnly.
