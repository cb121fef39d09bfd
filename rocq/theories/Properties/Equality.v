(** C49: comparing with [==] what was parsed in different ways. *)
From Coq Require Import List NArith Arith Bool Lia.
From Verif.Model Require Import Prelude Parser Iter Utf8 Chunk TextIter PosStr PosStrish
  TextVec TextDatumList CharIter StrishIter Alloc DefaultClassifier TextMethods DatumMethods Bindings Premade Equal.
From Verif.Spec Require Import Contract ChunkContract Run.
From Verif.Proofs Require Import Sim Refine ChunkFacts TextFacts AllocFacts Instances RunFacts Transfer PremadeFacts Concrete
  MethodFacts DatumFacts TwoRuns Compose EqualFacts.
From Verif.Tests Require Import Str Cases AbsCases.
Import ListNotations.
Local Notation N_len r := (N.of_nat (length r)).

(** ** Errors *)

(** [==] of errors of any two types holds exactly for the same variant with
    equal contents. *)
Theorem C49_error {P1 P2 C1 C2} (peq : P1 -> P2 -> bool) (ceq : C1 -> C2 -> bool) e1 e2 :
  error_eq peq ceq e1 e2 = true <->
  (exists p1 p2, e1 = UnbalancedEndChar p1 /\ e2 = UnbalancedEndChar p2 /\ peq p1 p2 = true) \/
  (e1 = MissingEndChar /\ e2 = MissingEndChar) \/
  (exists a, e1 = FailedAlloc a /\ e2 = FailedAlloc a) \/
  (e1 = FailedDerefTryMut /\ e2 = FailedDerefTryMut) \/
  (exists c1 c2, e1 = FailedCombiner c1 /\ e2 = FailedCombiner c2 /\ ceq c1 c2 = true).
Proof.
  split.
  - destruct e1 as [p| |[]| |c], e2 as [q| |[]| |d]; cbn; intros H; try discriminate; eauto 8.
    do 4 right. eauto.
  - intros [(p & q & -> & -> & H)|[[-> ->]|[([] & -> & ->)|[[-> ->]|(c & d & -> & -> & H)]]]]; auto.
Qed.

(** It is an equivalence where the [==] of the contents are, also across types. *)
Theorem C49_error_equivalence {P C} (peq : P -> P -> bool) (ceq : C -> C -> bool) :
  ((forall p, peq p p = true) -> (forall c, ceq c c = true) -> forall e, error_eq peq ceq e e = true) /\
  (forall P2 C2 (peq12 : P -> P2 -> bool) (ceq12 : C -> C2 -> bool) peq21 ceq21,
    (forall p q, peq12 p q = peq21 q p) -> (forall c d, ceq12 c d = ceq21 d c) ->
    forall e1 e2, error_eq peq12 ceq12 e1 e2 = error_eq peq21 ceq21 e2 e1) /\
  (forall P2 C2 P3 C3 (peq12 : P -> P2 -> bool) (ceq12 : C -> C2 -> bool)
    (peq23 : P2 -> P3 -> bool) (ceq23 : C2 -> C3 -> bool) (peq13 : P -> P3 -> bool) (ceq13 : C -> C3 -> bool),
    (forall p q r, peq12 p q = true -> peq23 q r = true -> peq13 p r = true) ->
    (forall c d e, ceq12 c d = true -> ceq23 d e = true -> ceq13 c e = true) ->
    forall e1 e2 e3, error_eq peq12 ceq12 e1 e2 = true -> error_eq peq23 ceq23 e2 e3 = true ->
    error_eq peq13 ceq13 e1 e3 = true).
Proof.
  repeat split.
  - intros Hp Hc [p| |[]| |c]; cbn; auto.
  - intros P2 C2 peq12 ceq12 peq21 ceq21 Hp Hc [p| |[]| |c] [q| |[]| |d]; cbn; auto.
  - intros P2 C2 P3 C3 peq12 ceq12 peq23 ceq23 peq13 ceq13 Hp Hc [p| |[]| |c] [q| |[]| |d] [r| |[]| |e]; cbn; try discriminate; eauto.
Qed.

(** ** Datums with different types of texts *)
Section Two.
Context {T1 C1 S1 A1 P1 W1 T2 C2 S2 A2 P2 W2 : Type}.
Context (k1 : chunk_ops C1 S1 P1) (Rc1 : C1 -> list (item P1) -> Prop)
        (Rcs1 : S1 -> list (item P1) -> list (item P1) -> Prop) (KC1 : chunk_contract k1 Rc1 Rcs1).
Context (F1 : Prop) (view1 : A1 -> W1) (x1 : text_ops T1 C1 A1) (XC1 : text_contract F1 view1 x1 Rc1).
Context (size1 : C1 -> nat) (Hsize1 : forall c l, Rc1 c l -> length l <= size1 c).
Context (k2 : chunk_ops C2 S2 P2) (Rc2 : C2 -> list (item P2) -> Prop)
        (Rcs2 : S2 -> list (item P2) -> list (item P2) -> Prop) (KC2 : chunk_contract k2 Rc2 Rcs2).
Context (F2 : Prop) (view2 : A2 -> W2) (x2 : text_ops T2 C2 A2) (XC2 : text_contract F2 view2 x2 Rc2).
Context (size2 : C2 -> nat) (Hsize2 : forall c l, Rc2 c l -> length l <= size2 c).
Context {E1 E2 : Type} (xeq : E1 -> E2 -> bool) (xeq' : E2 -> E1 -> bool).
Local Notation wf1 := (datum_all (fun t => exists l, text_items x1 Rc1 t l) (fun _ : E1 => True)).
Local Notation wf2 := (datum_all (fun t => exists l, text_items x2 Rc2 t l) (fun _ : E2 => True)).
Local Notation eqb12 := (texts_eqb k1 x1 size1 k2 x2).
Local Notation eqb21 := (texts_eqb k2 x2 size2 k1 x1).

(** Any two types of texts with any representations, in chunks cut in any ways:
    [==] holds exactly if the trees have the same shape, with texts of the same
    characters and equal extras at corresponding places. *)
Theorem C49_characters d1 d2 : wf1 d1 -> wf2 d2 ->
  (datum_eq eqb12 xeq d1 d2 = true <->
   datum_rel (fun t1 t2 => exists u, reads_chars k1 x1 t1 u /\ reads_chars k2 x2 t2 u)
     (fun a b => xeq a b = true) d1 d2).
Proof.
  intros H1 H2. rewrite datum_eq_iff. split; intros H; (eapply datum_rel_impl; [| |exact H1|exact H2|exact H]); cbn; auto.
  - intros t u [lt Ht] [lu Hu] E. apply (texts_eqb_spec KC1 XC1 size1 Hsize1 KC2 XC2 Ht Hu) in E.
    exists (chars lt). split; [exists lt|exists lu]; (split; [|auto]).
    + apply (text_reads KC1 XC1 Ht).
    + apply (text_reads KC2 XC2 Hu).
  - intros t u [lt Ht] [lu Hu] (c & (l1 & R1 & <-) & (l2 & R2 & E)).
    rewrite (reads_det R1 (text_reads KC1 XC1 Ht)) in E. rewrite (reads_det R2 (text_reads KC2 XC2 Hu)) in E.
    apply (texts_eqb_spec KC1 XC1 size1 Hsize1 KC2 XC2 Ht Hu). symmetry. exact E.
Qed.

(** Which of the two is on the left does not matter. *)
Theorem C49_symmetric d1 d2 : (forall a b, xeq a b = xeq' b a) -> wf1 d1 -> wf2 d2 ->
  datum_eq eqb12 xeq d1 d2 = datum_eq eqb21 xeq' d2 d1.
Proof.
  intros Hx H1 H2. apply eq_true_iff_eq. rewrite !datum_eq_iff. revert d2 H2.
  induction d1; intros [| | | | |] H2; cbn in *; try tauto.
  - destruct H1 as [l1 Ht], H2 as [l2 Hu].
    rewrite (texts_eqb_spec KC1 XC1 size1 Hsize1 KC2 XC2 Ht Hu), (texts_eqb_spec KC2 XC2 size2 Hsize2 KC1 XC1 Hu Ht).
    split; congruence.
  - destruct H1 as [H1 H1'], H2 as [H2 H2']. rewrite (IHd1_1 H1 _ H2), (IHd1_2 H1' _ H2'). tauto.
  - destruct H1 as [H1 H1'], H2 as [H2 H2']. rewrite (IHd1_1 H1 _ H2), (IHd1_2 H1' _ H2'). tauto.
  - rewrite Hx. tauto.
Qed.

(** Equal datums of different types feed the same words to a hasher. *)
Theorem C49_hash (xh1 : E1 -> list hash_word) (xh2 : E2 -> list hash_word) d1 d2 :
  (forall a b, xeq a b = true -> xh1 a = xh2 b) -> wf1 d1 -> wf2 d2 -> datum_eq eqb12 xeq d1 d2 = true ->
  datum_hash (text_words k1 x1 size1) xh1 d1 = datum_hash (text_words k2 x2 size2) xh2 d2.
Proof.
  intros Hx H1 H2 H. rewrite datum_eq_iff in H.
  eapply datum_hash_consistent with (Rt:=fun t u => text_words k1 x1 size1 t = text_words k2 x2 size2 u)
    (Rx:=fun a b => xh1 a = xh2 b); auto.
  eapply datum_rel_impl; [| |exact H1|exact H2|exact H]; cbn; auto.
  intros t u [lt Ht] [lu Hu] E. apply (texts_eqb_spec KC1 XC1 size1 Hsize1 KC2 XC2 Ht Hu) in E.
  rewrite (text_words_spec KC1 XC1 size1 Hsize1 Ht), (text_words_spec KC2 XC2 size2 Hsize2 Hu), E. reflexivity.
Qed.
End Two.

(** Through datums of a third type. *)
Theorem C49_transitive {T1 C1 S1 A1 P1 W1 T2 C2 S2 A2 P2 W2 T3 C3 S3 A3 P3 W3 E1 E2 E3}
    (k1 : chunk_ops C1 S1 P1) Rc1 Rcs1 (KC1 : chunk_contract k1 Rc1 Rcs1)
    (F1 : Prop) (view1 : A1 -> W1) (x1 : text_ops T1 C1 A1) (XC1 : text_contract F1 view1 x1 Rc1)
    size1 (Hsize1 : forall c l, Rc1 c l -> length l <= size1 c)
    (k2 : chunk_ops C2 S2 P2) Rc2 Rcs2 (KC2 : chunk_contract k2 Rc2 Rcs2)
    (F2 : Prop) (view2 : A2 -> W2) (x2 : text_ops T2 C2 A2) (XC2 : text_contract F2 view2 x2 Rc2)
    size2 (Hsize2 : forall c l, Rc2 c l -> length l <= size2 c)
    (k3 : chunk_ops C3 S3 P3) Rc3 Rcs3 (KC3 : chunk_contract k3 Rc3 Rcs3)
    (F3 : Prop) (view3 : A3 -> W3) (x3 : text_ops T3 C3 A3) (XC3 : text_contract F3 view3 x3 Rc3)
    (xeq12 : E1 -> E2 -> bool) (xeq23 : E2 -> E3 -> bool) (xeq13 : E1 -> E3 -> bool) d1 d2 d3 :
  (forall a b c, xeq12 a b = true -> xeq23 b c = true -> xeq13 a c = true) ->
  datum_all (fun t => exists l, text_items x1 Rc1 t l) (fun _ : E1 => True) d1 ->
  datum_all (fun t => exists l, text_items x2 Rc2 t l) (fun _ : E2 => True) d2 ->
  datum_all (fun t => exists l, text_items x3 Rc3 t l) (fun _ : E3 => True) d3 ->
  datum_eq (texts_eqb k1 x1 size1 k2 x2) xeq12 d1 d2 = true ->
  datum_eq (texts_eqb k2 x2 size2 k3 x3) xeq23 d2 d3 = true ->
  datum_eq (texts_eqb k1 x1 size1 k3 x3) xeq13 d1 d3 = true.
Proof.
  intros Hx. rewrite !datum_eq_iff. revert d2 d3.
  induction d1; intros [| | | | |] [| | | | |] H1 H2 H3; cbn in *; try tauto; eauto.
  - destruct H1 as [l1 Ht], H2 as [l2 Hu], H3 as [l3 Hv].
    rewrite (texts_eqb_spec KC1 XC1 size1 Hsize1 KC2 XC2 Ht Hu), (texts_eqb_spec KC2 XC2 size2 Hsize2 KC3 XC3 Hu Hv),
      (texts_eqb_spec KC1 XC1 size1 Hsize1 KC3 XC3 Ht Hv). congruence.
  - destruct H1, H2, H3. intros [] []. eauto.
  - destruct H1, H2, H3. intros [] []. eauto.
Qed.

(** ** Results of parsing *)
Section Results.
Context {W ET CE : Type} (ET_eq : ET -> ET -> bool) (ET_hash : ET -> list hash_word) (CE_eq : CE -> CE -> bool)
        (XH : forall a b, ET_eq a b = true -> ET_hash a = ET_hash b)
        (Xrefl : forall a, ET_eq a a = true) (Crefl : forall c, CE_eq c c = true).
Local Notation imx := (im_ops (W:=W)).
Local Notation stx := (st_ops (W:=W)).
Local Notation nhx := (nh_ops (W:=W) (ET:=ET)).
Local Notation st_results_eq := (results_eq (texts_eqb posstrish_ops stx posstrish_size posstrish_ops stx) ET_eq charpos_eqb CE_eq).
(** Positions of a string against positions in a stream: by characters. *)
Local Notation im_st_results_eq := (results_eq (texts_eqb posstr_ops imx posstr_size posstrish_ops stx) ET_eq
  (fun p c => charpos_eqb (sp_char p) c) CE_eq).
Local Notation nh_im_results_eq := (results_eq (texts_eqb posstr_ops nhx posstr_size posstr_ops imx) ET_eq strpos_eqb CE_eq).

Lemma st_same_eqb t1 t2 : st_same (W:=W) t1 t2 -> texts_eqb posstrish_ops stx posstrish_size posstrish_ops stx t1 t2 = true.
Proof.
  apply (texts_eqb_rel posstrish_any_contract stxc posstrish_size (@posstrish_size_ok _)
    posstrish_any_contract stxc).
Qed.
Lemma im_st_same_eqb t1 t2 : im_st_same (W:=W) t1 t2 -> texts_eqb posstr_ops imx posstr_size posstrish_ops stx t1 t2 = true.
Proof.
  apply (texts_eqb_rel posstr_any_contract imxc posstr_size (fun c l H => Nat.eq_le_incl _ _ (posstr_size_eq H))
    posstrish_any_contract stxc).
Qed.

(** The same characters cut into strings in two ways, and one by one: what is
    returned is equal, the errors included. *)
Theorem C49_streams hasher strs1 strs2 m1 m2 w : st_alike (W:=W) (ET:=ET) (CE:=CE) m1 m2 ->
  List.concat strs1 = List.concat strs2 -> (N_len (List.concat strs1) <= usize_max)%N ->
  exists items1 st1 items2 st2,
    parse_stream_with ET_eq ET_hash hasher strs1 m1 w = (Ok items1, Some st1) /\
    parse_stream_with ET_eq ET_hash hasher strs2 m2 w = (Ok items2, Some st2) /\
    st_results_eq items1 items2 = true.
Proof.
  intros Hm Ec Hu. destruct (streams_agree ET_eq ET_hash XH hasher hasher _ _ w Hm Ec Hu) as (i1 & s1 & i2 & s2 & E1 & E2 & Hi & _).
  exists i1, s1, i2, s2. split; [exact E1|]. split; [exact E2|].
  eapply results_eq_rel; [| | | |exact Hi]; [apply st_same_eqb| | |]; intros a b ->; auto. apply N.eqb_refl.
Qed.

Theorem C49_chars hasher strs m1 m2 w : st_alike (W:=W) (ET:=ET) (CE:=CE) m1 m2 ->
  (N_len (List.concat strs) <= usize_max)%N ->
  exists items1 st1 items2 st2,
    parse_stream_with ET_eq ET_hash hasher strs m1 w = (Ok items1, Some st1) /\
    parse_chars_with ET_eq ET_hash hasher (List.concat strs) m2 w = (Ok items2, st2) /\
    st_results_eq items1 items2 = true.
Proof.
  intros Hm Hu. destruct (chars_agree ET_eq ET_hash XH hasher hasher strs w Hm eq_refl Hu) as (i1 & s1 & i2 & s2 & E1 & E2 & Hi & _).
  exists i1, s1, i2, s2. split; [exact E1|]. split; [exact E2|].
  eapply results_eq_rel; [| | | |exact Hi]; [apply st_same_eqb| | |]; intros a b ->; auto. apply N.eqb_refl.
Qed.

(** A string in memory and the same characters in a stream of strings. *)
Theorem C49_str_stream hasher strs m1 m2 w : im_st_alike (W:=W) (ET:=ET) (CE:=CE) m1 m2 ->
  (N_len (List.concat strs) <= usize_max)%N ->
  exists items1 st1 items2 st2,
    parse_str_with ET_eq ET_hash hasher (List.concat strs) m1 w = (Ok items1, Some st1) /\
    parse_stream_with ET_eq ET_hash hasher strs m2 w = (Ok items2, Some st2) /\
    im_st_results_eq items1 items2 = true.
Proof.
  intros Hm Hu. destruct (str_agrees ET_eq ET_hash XH hasher hasher strs w Hm eq_refl Hu) as (i1 & s1 & i2 & s2 & E1 & E2 & Hi & _).
  exists i1, s1, i2, s2. split; [exact E1|]. split; [exact E2|].
  eapply results_eq_rel; [| | | |exact Hi]; [apply im_st_same_eqb| | |].
  - intros a b ->. auto.
  - intros a b <-. apply N.eqb_refl.
  - intros a b ->. auto.
Qed.

(** In memory without a heap and with one: equal, or cut off by an allocation
    error after equal datums. *)
Theorem C49_slots hasher (m1 : nh_bindings (W:=W) (ET:=ET) (CE:=CE)) m2 am t input slots w :
  nh_related eq eq posstr_any m1 am -> str_bindings m2 am ->
  text_items nhx posstr_any t (str_source input) -> (N_len input <= usize_max)%N ->
  exists items1 st1 items2 st2,
    parse_text_with ET_eq t m1 (nh_parser slots w) = (Ok items1, Some st1) /\
    parse_str_with ET_eq ET_hash hasher input m2 w = (Ok items2, Some st2) /\
    (nh_im_results_eq items1 items2 = true \/
     exists ds1 e ds2 more, items1 = map inl ds1 ++ [inr (FailedAlloc e)] /\ items2 = map inl ds2 ++ more /\
       nh_im_results_eq (map inl ds1) (map inl ds2) = true).
Proof.
  intros H1 H2 Ht Hu.
  assert (XC : text_contract True snd nhx posstr_any)
    by exact (tdl_contract posstr_any_contract (@slice_alloc_contract W (nh_text (ET:=ET)) ET)).
  assert (T : forall (t1 : nh_text (ET:=ET)) (t2 : im_text) l, text_items nhx posstr_any t1 l -> text_items imx posstr_any t2 l ->
    texts_eqb posstr_ops nhx posstr_size posstr_ops imx t1 t2 = true).
  { intros t1 t2 l G1 G2. apply (texts_eqb_spec posstr_any_contract XC posstr_size
      (fun c l H => Nat.eq_le_incl _ _ (posstr_size_eq H)) posstr_any_contract imxc G1 G2). reflexivity. }
  assert (D : forall (d1 : datum nh_text ET) (d2 : datum im_text ET) (d : datum (list (item strpos)) ET),
    datum_rel (text_items nhx posstr_any) eq d1 d -> datum_rel (text_items imx posstr_any) eq d2 d ->
    datum_eq (texts_eqb posstr_ops nhx posstr_size posstr_ops imx) ET_eq d1 d2 = true).
  { intros d1 d2 d. rewrite datum_eq_iff. revert d1 d2.
    induction d as [l|a IHa b IHb| |a IHa b IHb| |z]; intros [u1|a1 b1| |a1 b1| |z1] [u2|a2 b2| |a2 b2| |z2] G1 G2; cbn in *; try contradiction; auto.
    - eauto.
    - destruct G1, G2; auto.
    - destruct G1, G2; auto.
    - subst. auto. }
  assert (AL : forall l1 l2, Forall2 (slots_alike (W:=W) (CE:=CE)) l1 l2 -> nh_im_results_eq l1 l2 = true).
  { intros l1 l2 G. apply results_eq_iff. eapply Forall2_mono; [|exact G].
    intros [d1|e1] [d2|e2] ([d|e] & G1 & G2); cbn in *; try contradiction; [eauto|].
    destruct e as [p| |[]| |c], e1 as [p1| |[]| |c1], e2 as [p2| |[]| |c2]; cbn in *; try contradiction; subst; auto.
    apply strpos_eqb_iff. reflexivity. }
  destruct (slots_agree ET_eq ET_hash hasher XH _ slots w H1 H2 Ht Hu) as (i1 & s1 & i2 & s2 & R1 & R2 & G).
  exists i1, s1, i2, s2. split; [exact R1|]. split; [exact R2|].
  destruct G as [G|(ds1 & e & ds2 & more & -> & -> & G)]; [left; auto|]. right. exists ds1, e, ds2, more. auto.
Qed.
End Results.

Print Assumptions C49_error.
Print Assumptions C49_error_equivalence.
Print Assumptions C49_characters.
Print Assumptions C49_symmetric.
Print Assumptions C49_hash.
Print Assumptions C49_transitive.
Print Assumptions C49_streams.
Print Assumptions C49_chars.
Print Assumptions C49_str_stream.
Print Assumptions C49_slots.

(** ** Cases *)
From Verif.Properties Require Streams Alloc.

(** Errors differ by variant and by contents. *)
Example C49_error_case :
  error_eq charpos_eqb num_eq (UnbalancedEndChar 3%N) (UnbalancedEndChar 3%N) = true /\
  error_eq charpos_eqb num_eq (UnbalancedEndChar 3%N) (UnbalancedEndChar 4%N) = false /\
  error_eq charpos_eqb num_eq MissingEndChar (UnbalancedEndChar 3%N) = false /\
  error_eq strpos_eqb num_eq (UnbalancedEndChar (StrPos (lit "a}") 1 1)) (UnbalancedEndChar (StrPos (lit "b}") 1 1)) = false /\
  error_eq strpos_eqb num_eq (FailedCombiner 1%N) (FailedCombiner 2%N) = false /\
  error_eq (fun p c => charpos_eqb (sp_char p) c) num_eq (FailedCombiner 2%N) (FailedCombiner 2%N) = true.
Proof. vm_compute. repeat split. Qed.

(** A text as a list of chunks, cut inside a word, and as a vector of chunks in
    strings of their own. *)
Definition list_ab : datum (nh_text (ET:=N)) N :=
  DList (DText (TDL (PosStr (lit "a") (StrPos (lit "xab") 1 1)) (Some (DText (TDL (posstr_from (lit "b")) None))))) (DExtra 7%N).
Definition vec_ab : datum st_text N := DList (DText (Multi [posstrish_from []; posstrish_from (lit "ab")])) (DExtra 7%N).
Local Notation nhN := (nh_ops (W:=N) (ET:=N)).
Local Notation stN := (st_ops (W:=N)).
Local Notation imN := (im_ops (W:=N)).
Example C49_characters_case :
  datum_all (fun t => exists l, text_items nhN posstr_any t l) (fun _ : N => True) list_ab /\
  datum_all (fun t => exists l, text_items stN posstrish_any t l) (fun _ : N => True) vec_ab /\
  datum_eq (texts_eqb posstr_ops nhN posstr_size posstrish_ops stN) num_eq list_ab vec_ab = true /\
  datum_eq (texts_eqb posstrish_ops stN posstrish_size posstr_ops nhN) num_eq vec_ab list_ab = true /\
  datum_hash (text_words posstr_ops nhN posstr_size) num_hash list_ab =
    datum_hash (text_words posstrish_ops stN posstrish_size) num_hash vec_ab /\
  datum_eq (texts_eqb posstr_ops nhN posstr_size posstrish_ops stN) num_eq list_ab
    (DList (DText (Single (posstrish_from (lit "abc")))) (DExtra 7%N)) = false.
Proof.
  split; [|split; [|vm_compute; repeat split]]; cbn [datum_all list_ab vec_ab]; (split; [|exact I]).
  - eexists _, [_; _], [_; _]. split; [reflexivity|]. split; [|reflexivity]. repeat apply Forall2_cons; try apply Forall2_nil.
    + exists (lit "xab"). right. exists (lit "x"), (lit "a"), (lit "b"). repeat split.
    + apply posstr_from_any.
  - eexists _, [_; _], [_; _]. split; [reflexivity|]. split; [|reflexivity].
    repeat apply Forall2_cons; try apply Forall2_nil; apply posstrish_new_rep; exact I.
Qed.

Definition both {X Y S1 S2} (f : X -> Y -> bool) (r1 : res Empty_set X * S1) (r2 : res Empty_set Y * S2) : bool :=
  match fst r1, fst r2 with Ok x, Ok y => f x y | _, _ => false end.
Local Notation stN_eq := (results_eq (texts_eqb posstrish_ops stN posstrish_size posstrish_ops stN) num_eq charpos_eqb num_eq).
Local Notation im_stN_eq := (results_eq (texts_eqb posstr_ops imN posstr_size posstrish_ops stN) num_eq
  (fun p c => charpos_eqb (sp_char p) c) num_eq).
Local Notation nh_imN_eq := (results_eq (texts_eqb posstr_ops nhN posstr_size posstr_ops imN) num_eq strpos_eqb num_eq).
Local Notation st_run strs := (parse_stream_with num_eq num_hash sum_hasher strs Streams.st_map 0%N).
Local Notation im_run s m := (parse_str_with num_eq num_hash sum_hasher s m 0%N).

(** Combiners, escapes, and an error at the end; another error position makes a
    difference. *)
Example C49_streams_case :
  st_alike Streams.st_map Streams.st_map /\ im_st_alike Streams.im_map2 Streams.st_map /\
  (let strs1 := [lit "ab{"; lit "q {"; lit "x\"; lit "}y}"; []; lit "}"; lit "}z"] in
   let strs2 := [lit "ab{q {x\}y}"; lit "}}z"] in
   both stN_eq (st_run strs1) (st_run strs2) = true /\
   both stN_eq (st_run strs1) (parse_chars_with num_eq num_hash sum_hasher (List.concat strs1) Streams.st_map 0%N) = true /\
   both im_stN_eq (im_run (List.concat strs1) Streams.im_map2) (st_run strs1) = true) /\
  both stN_eq (st_run [lit "a}"]) (st_run [lit "a{}}"]) = false /\
  both stN_eq (st_run [lit "{l a}}"]) (st_run [lit "{l b}}"]) = false.
Proof.
  split; [exact Streams.C17_bindings|]. split; [exact Streams.C18_bindings|]. vm_compute. repeat split.
Qed.

(** With enough slots all is equal, with fewer the first datum. *)
Example C49_slots_case :
  nh_related eq eq posstr_any Alloc.nh_q (firstn 1 abs_map) /\
  str_bindings (firstn 1 im_map) (firstn 1 abs_map) /\
  (let run n := parse_text_with num_eq (Alloc.nh_from "{q a}{b c}") Alloc.nh_q (nh_parser (Alloc.nh_slots n) 0%N) in
   let items := im_run (lit "{q a}{b c}") (firstn 1 im_map) in
   both nh_imN_eq (run 5) items = true /\ both nh_imN_eq (run 4) items = false /\
   both (fun l m => nh_imN_eq (firstn 1 l) (firstn 1 m)) (run 4) items = true).
Proof.
  destruct Alloc.C28_case as (H1 & H2 & _). split; [exact H1|]. split; [exact H2|]. vm_compute. repeat split.
Qed.
