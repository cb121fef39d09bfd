(** C55: operatives that parse the operands text they are given. *)
From Coq Require Import List NArith Bool Lia.
From Verif.Model Require Import Prelude Parser Iter Chunk TextIter PosStr TextVec Alloc DefaultClassifier DatumMethods TextMethods
  Bindings Premade Reparse.
From Verif.Spec Require Import Contract ChunkContract Grammar Balance AbsStream Lawful Run.
From Verif.Proofs Require Import Sim Refine Transfer AbsIter Instances PremadeFacts RunFacts ClassifierFacts ReparseFacts.
From Verif.Tests Require Import Str AbsCases.
Import ListNotations.
Local Notation N_len r := (N.of_nat (length r)).
Local Notation cc := default_classifier.

Section Reparse.
Context {W ET CE : Type} (ET_eq : ET -> ET -> bool) (ET_hash : ET -> list hash_word)
        (hasher : list hash_word -> N)
        (XH : forall a b, ET_eq a b = true -> ET_hash a = ET_hash b).
Local Notation im_bindings := (im_bindings (W:=W) (ET:=ET) (CE:=CE)).
Local Notation Rt := (text_items (im_ops (W:=W)) posstr_any).
Local Notation Rd := (datum_rel Rt (@eq ET)).
Local Notation Ri := (pitem_rel Rt (@eq ET) (@eq strpos) (@eq CE)).

(** On any text, however it is cut into chunks, the operative gives the combination
    of its operator with the datums that the characters of the text stand for as a source,
    if they stand for any, and an error if they do not. *)
Theorem C55_operative (m : im_bindings) am d t l w : str_bindings m am -> im_named (W:=W) d -> Rt t l -> (N_len l <= usize_max)%N ->
  (exists ds ads w', im_reparse ET_eq ET_hash hasher m d t w = (inl (Some (DComb d (fold_right DList DEmptyList ds))), w') /\
     input cc (abs_lookup ET_eq am) w l ads w' /\ Forall2 Rd ds ads) \/
  (exists e w', im_reparse ET_eq ET_hash hasher m d t w = (inr e, w') /\
     forall ads w'', ~ input cc (abs_lookup ET_eq am) w l ads w'').
Proof.
  intros Hm (ad & Hd) Ht Hl.
  pose proof (im_reparse_rel ET_eq ET_hash hasher XH Hm d ad Hd (t1:=t) (t2:=l) Ht (a1:=w) (a2:=w) eq_refl) as R. unfold cres_rel in R.
  destruct (abs_reparse_cases default_disjoint (abs_lookup ET_eq am) ad l w Hl) as [(ads & w' & E & Hi)|(e & w' & E & Hi)];
    rewrite E in R; cbn [fst snd] in R;
    destruct (im_reparse_shape ET_eq ET_hash hasher m d t w) as [(ds & w1 & E1)|[(e1 & w1 & E1)|(w1 & E1)]];
    rewrite E1 in R; cbn [fst snd option_rel] in R; try tauto.
  - left. exists ds, ads, w1. destruct R as [[_ R] Hw]. unfold Ra_view in Hw. subst w1. split; [exact E1|]. split; [exact Hi|].
    eapply dlist_rel_inv. exact R.
  - right. exists e1, w1. auto.
Qed.

(** Bind operators that are not bound to such operatives.  On sources without
    escape characters whose braces are balanced, this changes nothing up to the first error: the
    same datums, of the same characters at the same positions, the same error, and, if there is
    none, the same final state of the combiners. *)
Theorem C55_transparent (m m' : im_bindings) am source w : str_bindings m am ->
  reparsing ET_eq ET_hash hasher (im_named (W:=W)) m m' ->
  (N_len source <= usize_max)%N ->
  (forall c, In c source -> is_nest_escape cc c = false) ->
  balance cc (str_source source) = Balanced ->
  exists items st items' st',
    parse_str_with ET_eq ET_hash hasher source m w = (Ok items, Some st) /\
    parse_str_with ET_eq ET_hash hasher source m' w = (Ok items', Some st') /\
    (exists same, Forall2 Ri items same /\ Forall2 Ri items' same) /\
    (forall ds, items = map inl ds -> ps_alloc st = ps_alloc st').
Proof.
  intros Hm Hr Hu Hesc Hb. destruct (reparsing_overrides XH default_disjoint Hm Hr) as (am' & Hm' & OV).
  destruct (str_starts source w) as (s & Es & Hs).
  destruct (parse_str_iterates ET_eq ET_hash hasher m w Hu Es) as ((all & st1 & Ha & st & Ep) & G & _).
  destruct (parse_str_iterates ET_eq ET_hash hasher m' w Hu Es) as ((all' & st1' & Ha' & st' & Ep') & G' & _).
  pose proof (str_lawful ET_eq ET_hash hasher XH Hm) as LW. pose proof (str_lawful ET_eq ET_hash hasher XH Hm') as LW'.
  destruct (iterates_abstract LW Hs Ha) as (aall & a1 & Hab & Hrel & (_ & _ & V)).
  destruct (iterates_abstract LW' Hs Ha') as (aall' & a1' & Hab' & Hrel' & (_ & _ & V')).
  assert (Hp : plain cc (str_source source)).
  { apply Forall_forall. intros x Hx He. assert (In (it_ch x) source).
    { rewrite <- (str_source_ch source). apply in_map. exact Hx. }
    unfold escapes in He. rewrite Hesc in He by auto. discriminate. }
  rewrite <- str_source_length in Hu.
  destruct (override_items default_disjoint OV Hp Hu Hb Hab Hab') as [E K].
  exists (upto_err all), st, (upto_err all'), st'. split; [exact Ep|]. split; [exact Ep'|]. split.
  - exists (upto_err aall). split; [|rewrite E]; apply upto_err_rel; auto; intros ? ? [].
  - intros ds Eds. assert (Ed : exists ads, aall = map inl ads).
    { destruct (upto_err_cases aall) as [(ads & ->)|(ads & e & rest & ->)]; [eauto|exfalso].
      assert (F : Forall2 Ri (upto_err all) (upto_err (map inl ads ++ inr e :: rest)))
        by (apply upto_err_rel; auto; intros ? ? []).
      rewrite Eds, upto_err_err in F. apply Forall2_app_inv_r in F as (l1 & l2 & _ & F2 & Ee).
      inversion F2 as [|x ? ? ? Hx]; subst. assert (In x (map inl ds)) as Hin by (rewrite Ee; apply in_or_app; right; left; reflexivity).
      apply in_map_iff in Hin as (? & <- & _). exact Hx. }
    destruct Ed as (ads & ->). rewrite upto_err_ok in E.
    assert (Ed : exists ds', upto_err all' = map inl ds').
    { destruct (upto_err_cases all') as [(ds' & ->)|(ds' & e & rest & ->)]; [exists ds'; apply upto_err_ok|exfalso].
      assert (F : Forall2 Ri (upto_err (map inl ds' ++ inr e :: rest)) (upto_err aall'))
        by (apply upto_err_rel; auto; intros ? ? []).
      rewrite <- E, upto_err_err in F. apply Forall2_app_inv_l in F as (l1 & l2 & _ & F2 & Ee).
      inversion F2 as [|? x ? ? Hx]; subst. assert (In x (map inl ads)) as Hin by (rewrite Ee; apply in_or_app; right; left; reflexivity).
      apply in_map_iff in Hin as (? & <- & _). exact Hx. }
    destruct Ed as (ds' & Eds'). rewrite Eds in Ep. rewrite Eds' in Ep'. apply G in Ep. apply G' in Ep'.
    destruct (iterates_abstract LW Hs Ep) as (b & b1 & Hb1 & _ & (_ & _ & U)).
    destruct (iterates_abstract LW' Hs Ep') as (b' & b1' & Hb1' & _ & (_ & _ & U')).
    destruct (iterates_det Hb1 Hab) as [-> ->]. destruct (iterates_det Hb1' Hab') as [-> ->].
    unfold Ra_view in U, U'. rewrite U, U'. destruct K as [K|(e & K)]; [exact K|].
    apply in_map_iff in K as (? & [=] & _).
Qed.
End Reparse.

(** ** Cases *)
Definition key (s : literal) : datum im_text N := DText (im_from s).
Arguments key _%lit.
Definition bind (s : literal) (m2 m1 : im_bindings (W:=N) (ET:=N) (CE:=N)) : im_bindings (W:=N) (ET:=N) (CE:=N) :=
  hm_insert (im_datum_eq (W:=N) num_eq) (im_datum_hash (W:=N) num_hash) sum_hasher (key s)
    (Operative (im_reparse num_eq num_hash sum_hasher m2)) m1.
Arguments bind _%lit _ _.

(** [k] and [j] in one another, to the depth of two. *)
Definition one : im_bindings (W:=N) (ET:=N) (CE:=N) := bind "j" im_map (bind "k" im_map im_map).
Definition two : im_bindings (W:=N) (ET:=N) (CE:=N) := bind "j" one (bind "k" one im_map).
Local Notation run s m := (parse_str_with num_eq num_hash sum_hasher (lit s) m 0%N).

Lemma key_named s : im_named (W:=N) (key s).
Proof. exists (DText (str_source (lit s))). apply im_from_items. Qed.
Lemma one_reparsing : reparsing num_eq num_hash sum_hasher (im_named (W:=N)) im_map one.
Proof. repeat constructor; apply key_named. Qed.
Lemma two_reparsing : reparsing num_eq num_hash sum_hasher (im_named (W:=N)) im_map two.
Proof.
  pose proof one_reparsing as H1. unfold two, bind. repeat (apply rp_bind; auto using key_named); try reflexivity. constructor.
Qed.

(** The theorems' hypotheses hold of these, and not for lack of anything to do. *)
Example C55_transparent_case :
  (exists items st items' st',
    run "{k a {j {n} {k b}} {rm x} {n}} {j} c" im_map = (Ok items, Some st) /\
    run "{k a {j {n} {k b}} {rm x} {n}} {j} c" two = (Ok items', Some st') /\
    (exists same, Forall2 (pitem_rel (text_items (im_ops (W:=N)) posstr_any) eq eq eq) items same /\
       Forall2 (pitem_rel (text_items (im_ops (W:=N)) posstr_any) eq eq eq) items' same) /\
    (forall ds, items = map inl ds -> ps_alloc st = ps_alloc st')) /\
  im_items_show (fst (run "{k a {j {n} {k b}} {rm x} {n}} {j} c" two)) = Ok [
    inl (DComb (DText (lit "k")) (DList (DText (lit "a "))
      (DList (DComb (DText (lit "j")) (DList (DExtra 0%N) (DList (DText (lit " "))
        (DList (DComb (DText (lit "k")) (DList (DText (lit "b")) DEmptyList)) DEmptyList))))
      (DList (DText (lit " ")) (DList (DText (lit " ")) (DList (DExtra 1%N) DEmptyList))))));
    inl (DText (lit " ")); inl (DComb (DText (lit "j")) DEmptyList); inl (DText (lit " c"))] /\
  (match im_lookup num_eq num_hash sum_hasher two (key "k") with Some (Operative _) => true | _ => false end) = true.
Proof.
  split; [|split; [vm_compute; reflexivity|vm_compute; reflexivity]].
  apply (C55_transparent num_eq num_hash sum_hasher num_eq_hash im_map two abs_map); auto using abs_map_related, two_reparsing.
  - vm_compute. discriminate.
  - intros c Hc. vm_compute in Hc. repeat (destruct Hc as [<-|Hc]; [reflexivity|]). destruct Hc.
Qed.
(** An error inside the operands. *)
Example C55_error_case :
  im_items_show (fst (run "a {k {n} {j {n} {err x} {n}} b} c" two)) = Ok [inl (DText (lit "a ")); inr (FailedCombiner 7%N)] /\
  im_items_show (fst (run "a {k {n} {j {n} {err x} {n}} b} c" im_map)) = Ok [inl (DText (lit "a ")); inr (FailedCombiner 7%N)].
Proof. vm_compute. auto. Qed.

Example C55_operative_case :
  im_named (W:=N) (key "k") /\
  text_items (im_ops (W:=N)) posstr_any (im_from "a {n}") (str_source (lit "a {n}")) /\
  (N_len (str_source (lit "a {n}")) <= usize_max)%N /\
  (let (r, w) := im_reparse num_eq num_hash sum_hasher im_map (key "k") (im_from "a {n}") 4%N in
   match r with
   | inl (Some d) => im_datum_show d = DComb (DText (lit "k")) (DList (DText (lit "a ")) (DList (DExtra 4%N) DEmptyList)) /\ w = 5%N
   | _ => False
   end) /\
  fst (im_reparse num_eq num_hash sum_hasher im_map (key "k") (im_from "a {n") 4%N) = inr MissingEndChar.
Proof.
  split; [apply key_named|]. split; [apply im_from_items|]. split; [vm_compute; discriminate|].
  vm_compute. auto.
Qed.

(** ** Without the conditions *)
(** Escape characters: an operative is given its operands without them, so that what
    was escaped is not when it parses them.  A text of an escaped brace becomes an error, or a nest
    form. *)
Theorem C55_escapes_refuted : exists (m : im_bindings (W:=N) (ET:=N) (CE:=N)) am m' source w d,
  str_bindings m am /\ reparsing num_eq num_hash sum_hasher (im_named (W:=N)) m m' /\
  (N_len source <= usize_max)%N /\ balance cc (str_source source) = Balanced /\
  esc_after cc false (str_source source) = false /\
  fst (parse_str_with num_eq num_hash sum_hasher source m w) = Ok [inl d] /\
  fst (parse_str_with num_eq num_hash sum_hasher source m' w) = Ok [inr MissingEndChar].
Proof.
  exists [], [], (bind "k" [] []), (lit "{k \{}"), 0%N. eexists.
  split; [constructor|]. split; [repeat constructor; apply key_named|].
  split; [vm_compute; discriminate|]. vm_compute. repeat split.
Qed.
Example C55_escapes_form :
  im_items_show (fst (run "{k \{a\}}" (bind "k" [] []))) =
    Ok [inl (DComb (DText (lit "k")) (DList (DComb (DText (lit "a")) DEmptyList) DEmptyList))] /\
  im_items_show (fst (parse_str_with (CE:=N) num_eq num_hash sum_hasher (lit "{k \{a\}}") [] 0%N)) = Ok [inl (DComb (DText (lit "k")) (DList (DText (lit "{a}")) DEmptyList))].
Proof. vm_compute. auto. Qed.

(** Braces that are not balanced: the error of a combiner in operands that are never
    closed comes first, but the operative is not called. *)
Theorem C55_unbalanced_refuted : exists (m : im_bindings (W:=N) (ET:=N) (CE:=N)) am m' source w e,
  str_bindings m am /\ reparsing num_eq num_hash sum_hasher (im_named (W:=N)) m m' /\
  (N_len source <= usize_max)%N /\ (forall c, In c source -> is_nest_escape cc c = false) /\
  balance cc (str_source source) = Unclosed /\
  fst (parse_str_with num_eq num_hash sum_hasher source m w) = Ok [inr (FailedCombiner e)] /\
  fst (parse_str_with num_eq num_hash sum_hasher source m' w) = Ok [inr MissingEndChar].
Proof.
  exists im_map, abs_map, two, (lit "{k {err}"), 0%N, 7%N.
  split; [apply abs_map_related|]. split; [apply two_reparsing|]. split; [vm_compute; discriminate|].
  split; [|vm_compute; auto].
  intros c Hc. vm_compute in Hc. repeat (destruct Hc as [<-|Hc]; [reflexivity|]). destruct Hc.
Qed.

Print Assumptions C55_operative.
Print Assumptions C55_transparent.
Print Assumptions C55_escapes_refuted.
Print Assumptions C55_unbalanced_refuted.
