(** The extended notation of the examples. *)
From Coq Require Import List NArith ZArith Bool Lia.
From Verif.Model Require Import Prelude Parser Iter Utf8 Chunk TextIter PosStr TextVec TextDatumList Alloc
  DefaultClassifier DatumMethods TextMethods Bindings Premade Numeral ExampleLang.
From Verif.Spec Require Import Contract ChunkContract AbsStream Grammar Balance Lawful Run Numeral Extended.
From Verif.Proofs Require Import Sim Refine ChunkFacts TextFacts AllocFacts MethodFacts Instances RunFacts Transfer PremadeFacts
  Compose AbsIter FormFacts ClassifierFacts AppendFacts NumeralFacts.
Import ListNotations.
Set Implicit Arguments.
Local Notation N_len r := (N.of_nat (length r)).

(** ** The notation as bindings over characters with their positions *)
Section Ext.
Context {W X : Type} (name_other : str) (now : W -> X * W).
Local Notation text := (list (item strpos)).
Local Notation dat := (datum text (variants X)).
Context (to_str : text -> str + my_error dat).

Definition ext : list (dat * combiner W text (variants X) strpos (my_error dat)) := [
  (DText (str_source name_comment), Operative comment);
  (DText (str_source name_other), Applicative (current now));
  (DText (str_source name_int), Operative (int to_str));
  (DComb (DText (str_source name_compound)) DEmptyList, Applicative pass_thru)].

Context (x_eq : X -> X -> bool).
Local Notation abnd := (abs_lookup (variants_eq x_eq) ext).
Local Notation bound := (fun o => abnd o <> None).

Lemma chars_eqb_true t1 t2 : chars_eqb (Pos:=strpos) t1 t2 = true -> map it_ch t1 = map it_ch t2.
Proof. unfold chars_eqb. destruct (list_eq_dec _ _ _); congruence. Qed.
Lemma chars_eqb_same (t1 t2 : text) : map it_ch t1 = map it_ch t2 -> chars_eqb t1 t2 = true.
Proof. unfold chars_eqb. destruct (list_eq_dec _ _ _); congruence. Qed.
Lemma chars_eqb_diff (t1 t2 : text) : map it_ch t1 <> map it_ch t2 -> chars_eqb t1 t2 = false.
Proof. unfold chars_eqb. destruct (list_eq_dec _ _ _); congruence. Qed.

(** A bound operator is one of the four. *)
Lemma bound_cases o c : abnd o = Some c ->
  (exists t, o = DText t /\ map it_ch t = name_comment /\ c = Operative comment) \/
  (exists t, o = DText t /\ map it_ch t = name_other /\ c = Applicative (current now)) \/
  (exists t, o = DText t /\ map it_ch t = name_int /\ c = Operative (int to_str)) \/
  (exists t, o = DComb (DText t) DEmptyList /\ map it_ch t = name_compound /\ c = Applicative pass_thru).
Proof.
  unfold abs_lookup, ext, datum_eq. cbn [pair_lookup].
  assert (G : forall t s, chars_eqb t (str_source s) = true -> map it_ch t = s)
    by (intros t s E; apply chars_eqb_true in E; rewrite str_source_ch in E; exact E).
  destruct o as [t|a b| | | |]; cbn [datum_eq_run fst]; try discriminate.
  - destruct (chars_eqb t (str_source name_comment)) eqn:E1; [intros [= <-]; eauto 10|].
    destruct (chars_eqb t (str_source name_other)) eqn:E2; [intros [= <-]; eauto 10|].
    destruct (chars_eqb t (str_source name_int)) eqn:E3; [intros [= <-]; eauto 10|discriminate].
  - destruct b; cbn [datum_eq_run fst]; try discriminate.
    destruct a as [t| | | | |]; cbn [datum_eq_run fst]; try discriminate.
    destruct (chars_eqb t (str_source name_compound)) eqn:E; [intros [= <-]; eauto 10|discriminate].
Qed.
Lemma named_bound o : named (fun t s => map it_ch t = s) name_other o -> abnd o <> None.
Proof.
  unfold named, abs_lookup, ext, datum_eq. cbn [pair_lookup].
  intros [(t & s & -> & E & H)|(t & -> & E)]; cbn [datum_eq_run fst].
  - destruct (chars_eqb t (str_source name_comment)) eqn:E1; [discriminate|].
    destruct (chars_eqb t (str_source name_other)) eqn:E2; [discriminate|].
    destruct (chars_eqb t (str_source name_int)) eqn:E3; [discriminate|].
    exfalso. destruct H as [H|[H|[H|[]]]]; rewrite <- E in H;
      [rewrite chars_eqb_same in E1|rewrite chars_eqb_same in E2|rewrite chars_eqb_same in E3]; try discriminate;
      rewrite str_source_ch; auto.
  - rewrite chars_eqb_same by (rewrite str_source_ch; exact E). discriminate.
Qed.
Lemma bound_extras o c : abnd o = Some c -> extras o = [].
Proof. intros H. apply bound_cases in H. destruct H as [(? & -> & _)|[(? & -> & _)|[(? & -> & _)|(? & -> & _)]]]; reflexivity. Qed.

Lemma readings_app w xs w1 ys w' : readings now w xs w1 -> readings now w1 ys w' -> readings now w (xs ++ ys) w'.
Proof. induction 1; cbn; intros; [assumption|]. econstructor; eauto. Qed.
Lemma others_app (a b : list (variants X)) : others (a ++ b) = others a ++ others b.
Proof. apply flat_map_app. Qed.
Lemma integers_app (a b : list (variants X)) : integers (a ++ b) = integers a ++ integers b.
Proof. apply flat_map_app. Qed.
Lemma extras_dlist {TT ET} (ds : list (datum TT ET)) : extras (fold_right DList DEmptyList ds) = flat_map extras ds.
Proof. induction ds as [|d ds IH]; cbn; congruence. Qed.

(** What holds of the datums of this notation: no bound operator is left, and
    all integers are of some range. *)
Context (ok : Z -> Prop).
Definition clean (d : dat) : Prop := all_operators (fun o => abnd o = None) d /\ Forall ok (integers (extras d)).
Lemma clean_dlist ds : clean (dlist ds) <-> Forall clean ds.
Proof.
  unfold clean, dlist. induction ds as [|d ds IH]; cbn [fold_right].
  - cbn. split; [constructor|]. auto.
  - cbn [all_operators extras]. rewrite integers_app, Forall_app, Forall_cons_iff, <- IH. tauto.
Qed.

Definition good_result (w : W) (r : option dat + error strpos (my_error dat)) (w' : W) : Prop :=
  match r with
  | inl (Some d) => clean d /\ readings now w (others (extras d)) w'
  | inl None => w' = w
  | inr _ => True
  end.

Context (cc : classifier).
Lemma ext_grammar : (forall t u z, to_str t = inl u -> i128_from_str u = Some z -> ok z) ->
  (forall eof b w s ds w' b', forms cc abnd eof b w s ds w' b' ->
     Forall clean ds /\ readings now w (others (flat_map extras ds)) w') /\
  (forall w s r w', nest cc abnd w s r w' -> good_result w r w') /\
  (forall w s w', lead cc abnd w s w' -> w' = w) /\
  (forall w s d tx w', head cc abnd w s d tx w' -> clean d /\ readings now w (others (extras d)) w').
Proof.
  intros Hok. apply grammar_mind.
  - intros. split; constructor.
  - intros eof w s t s' ds w' b' _ _ _ [H1 H2]. split; [constructor; [|exact H1]; repeat constructor|exact H2].
  - intros. split; repeat constructor.
  - intros eof b w s d w1 s' ds w' b' _ [H1 H2] _ [H3 H4]. cbn [flat_map]. rewrite others_app. split; [auto|]. eapply readings_app; eauto.
  - intros eof b w s w1 s' ds w' b' _ -> _ H. exact H.
  - intros w x l y w' _ _ -> _. cbn. split; [repeat constructor|constructor].
  - intros w x l w1 h d tx w2 sp body ds w' b' y _ _ -> _ [H1 H2] Hb _ _ [H3 H4] _. cbn [good_result].
    apply clean_dlist in H3. split.
    + destruct H1 as [A1 A2], H3 as [B1 B2]. split; [cbn; auto|]. cbn [extras]. rewrite integers_app. apply Forall_app. auto.
    + cbn [extras]. unfold dlist. rewrite others_app, extras_dlist. eapply readings_app; eauto.
  - intros w x l w1 h d tx w2 f sp body ds w3 b' y r w' _ _ -> _ [H1 H2] Hb _ _ [H3 H4] _ Hf.
    pose proof (bound_extras _ Hb) as He. rewrite He in H2. inversion H2; subst.
    apply bound_cases in Hb. destruct Hb as [(t & Ho & _ & E)|[(t & Ho & _ & E)|[(t & Ho & _ & E)|(t & Ho & _ & E)]]]; try discriminate E; injection E as ->; clear Ho.
    + unfold current in Hf. destruct ds as [|d0 ds]; cbn in Hf.
      * cbn in H4. inversion H4; subst. match type of Hf with context [now ?v] => destruct (now v) as [x0 w0] eqn:En end. injection Hf as <- <-. cbn. split; [repeat constructor|].
        econstructor; [exact En|constructor].
      * inversion Hf; subst. exact I.
    + injection Hf as <- <-. cbn [good_result]. rewrite clean_dlist. unfold dlist. rewrite extras_dlist. auto.
  - intros w x l w1 h d tx w2 f sp body t y r w' _ _ -> _ [H1 H2] Hb _ _ _ Hf.
    pose proof (bound_extras _ Hb) as He. rewrite He in H2. inversion H2; subst.
    apply bound_cases in Hb. destruct Hb as [(u & Ho & _ & E)|[(u & Ho & _ & E)|[(u & Ho & _ & E)|(u & Ho & _ & E)]]]; try discriminate E; injection E as ->; clear Ho.
    + injection Hf as <- <-. reflexivity.
    + unfold int in Hf. destruct (to_str t) as [q|e] eqn:Eq; [|injection Hf as <- <-; exact I].
      destruct (i128_from_str q) as [z|] eqn:Ez; injection Hf as <- <-; [|exact I]. cbn. split; [|constructor].
      split; [exact I|]. cbn. constructor; [eauto|constructor].
  - reflexivity.
  - intros w x s w' _ _ ->. reflexivity.
  - intros w s w1 s' w' _ -> _ ->. reflexivity.
  - intros. split; repeat constructor.
  - intros w s d w' _ H. exact H.
Qed.
End Ext.

(** Only the characters matter for these. *)
Section Chars.
Context {P Q : Type} (cc : classifier).
Lemma scan_chars : forall (u : list (item P)) (v : list (item Q)) e d, map it_ch u = map it_ch v ->
  scan cc e d u = Balanced -> scan cc e d v = Balanced.
Proof.
  induction u as [|x u IH]; intros [|y v] e d E; try discriminate; cbn [scan].
  { destruct (d =? 0)%N; [reflexivity|discriminate]. }
  cbn [map] in E. injection E as E1 E2. rewrite <- E1. destruct e; [apply IH; exact E2|].
  destruct (is_nest_escape cc (it_ch x)); [apply IH; exact E2|]. destruct (is_nest_start cc (it_ch x)); [apply IH; exact E2|].
  destruct (is_nest_end cc (it_ch x)); [|apply IH; exact E2]. destruct (d =? 0)%N; [discriminate|apply IH; exact E2].
Qed.
Lemma unescape_chars : forall (u : list (item P)) (v : list (item Q)) e, map it_ch u = map it_ch v ->
  map it_ch (unescape cc e u) = map it_ch (unescape cc e v).
Proof.
  induction u as [|x u IH]; intros [|y v] e E; try discriminate; cbn [unescape]; auto.
  cbn [map] in E. injection E as E1 E2. rewrite <- E1. destruct (negb e && is_nest_escape cc (it_ch x)); [apply IH; exact E2|].
  cbn [map]. rewrite E1. f_equal. apply IH; exact E2.
Qed.
End Chars.

(** ** An [int] form *)
Section Int.
Context {W X : Type} (name_other : str) (now : W -> X * W) (limit : option nat) (x_eq : X -> X -> bool).
Local Notation text := (list (item strpos)).
Local Notation dat := (datum text (variants X)).
Definition bounded_str (t : text) : str + my_error dat :=
  match limit with
  | Some n => if (length (encode (map it_ch t)) <=? n)%nat then inl (map it_ch t) else inr TooLong
  | None => inl (map it_ch t)
  end.
Local Notation abnd := (abs_lookup (variants_eq x_eq) (ext name_other now bounded_str)).
Local Notation cc := default_classifier.

Lemma int_bound t : name_other <> name_int -> map it_ch t = name_int -> abnd (DText t) = Some (Operative (int bounded_str)).
Proof.
  intros Hne E. unfold abs_lookup, ext, datum_eq. cbn [pair_lookup datum_eq_run fst].
  rewrite (chars_eqb_diff t), (chars_eqb_diff t), (chars_eqb_same t); rewrite ?E, ?str_source_ch; auto. discriminate.
Qed.

Lemma int_result t w : let (r, w') := int (Pos:=strpos) (A:=W) bounded_str (DText []) t w in w' = w /\
  match r with
  | inl (Some d) => int_means limit (map it_ch t) (inl d : _ + error strpos (my_error dat))
  | inl None => False
  | inr e => int_means limit (map it_ch t) (inr e : dat + _)
  end.
Proof.
  unfold int, bounded_str, int_means. set (u := map it_ch t).
  assert (G : let (r, w') := match i128_from_str u with
      | Some i => (inl (Some (DExtra (Integer i))), w) | None => (inr (FailedCombiner Oops), w) end
      : (option dat + error strpos (my_error dat)) * W in w' = w /\
      match r with
      | inl (Some d) => exists z, decimal u z /\ in_i128 z /\ d = DExtra (Integer z)
      | inl None => False
      | inr e => (forall z, decimal u z -> ~ in_i128 z) /\ e = FailedCombiner Oops
      end).
  { destruct (i128_from_str u) as [z|] eqn:E.
    - apply i128_from_str_iff in E. split; [reflexivity|]. exists z. tauto.
    - split; [reflexivity|]. split; [|reflexivity]. intros z H1 H2.
      assert (i128_from_str u = Some z) by (apply i128_from_str_iff; auto). congruence. }
  destruct limit as [n|].
  - destruct (length (encode u) <=? n)%nat eqn:L.
    + apply Nat.leb_le in L. destruct (i128_from_str u) as [z|]; destruct G as [_ G]; (split; [reflexivity|]); right;
        (split; [intros m [= <-]; exact L|]).
      * left. destruct G as (z' & H1 & H2 & [= <-]). eauto.
      * right. tauto.
    + apply Nat.leb_gt in L. split; [reflexivity|]. left. eauto.
  - destruct (i128_from_str u) as [z|]; destruct G as [_ G]; (split; [reflexivity|]); right;
        (split; [discriminate|]).
    + left. destruct G as (z' & H1 & H2 & [= <-]). eauto.
    + right. tauto.
Qed.

(** A source of these characters is an [int] form. *)
Definition int_chars (l : str) (c : char) (body : str) : str := (123 :: l ++ name_int ++ c :: body ++ [125])%N.
Lemma int_nest s l c body w : name_other <> name_int ->
  Forall (fun c => is_whitespace cc c = true) l -> is_whitespace cc c = true ->
  balance cc (str_source body) = Balanced -> esc_after cc false (str_source body) = false ->
  map it_ch s = int_chars l c body ->
  exists r, nest cc abnd w s r w /\
  match r with
  | inl (Some d) => int_means limit (map it_ch (unescape cc false (str_source body))) (inl d : _ + error strpos (my_error dat))
  | inl None => False
  | inr e => int_means limit (map it_ch (unescape cc false (str_source body))) (inr e : dat + _)
  end.
Proof.
  intros Hne Hl Hc Hb He Es. unfold int_chars in Es.
  destruct s as [|x s]; [discriminate|]. cbn [map] in Es. injection Es as Ex Es.
  apply map_eq_app in Es. destruct Es as (sl & s1 & -> & El & Es).
  apply (map_eq_app it_ch s1 name_int (c :: body ++ [125%N])) in Es. destruct Es as (sh & s2 & -> & Eh & Es).
  destruct s2 as [|sc s2]; [discriminate|]. cbn [map] in Es. injection Es as Ec Es.
  apply map_eq_app in Es. destruct Es as (sb & s3 & -> & Eb & Es).
  destruct s3 as [|y [|]]; try discriminate. injection Es as Ey.
  assert (Hsb : map it_ch (str_source body) = map it_ch sb) by (rewrite str_source_ch; auto).
  pose proof (int_result (unescape cc false sb) w) as R. rewrite <- (unescape_chars cc _ _ false Hsb) in R.
  destruct (int bounded_str (DText []) (unescape cc false sb) w) as [r w'] eqn:Er. destruct R as [-> R].
  exists r. split; [|exact R].
  change (x :: sl ++ sh ++ sc :: sb ++ [y]) with (x :: sl ++ sh ++ [sc] ++ sb ++ [y]).
  eapply n_operative with (w1:=w) (w2:=w) (d:=DText sh) (is_text:=true) (f:=int bounded_str) (t:=unescape cc false sb).
  - unfold starts. rewrite Ex. reflexivity.
  - clear - Hl El. revert l El Hl. induction sl as [|z sl IH]; intros l El Hl; [constructor|].
    destruct l as [|z' l]; [discriminate|]. injection El as Ez El. inversion Hl; subst.
    constructor; [exact H1|]. eapply IH; eauto.
  - constructor.
    + intros ->. discriminate.
    + clear - Eh. unfold name_int in Eh. destruct sh as [|a [|b [|c [|]]]]; try discriminate. injection Eh as Ea Eb Ec.
      repeat (constructor; [unfold operator_delimiter, delimiter; rewrite ?Ea, ?Eb, ?Ec; reflexivity|unfold escapes; rewrite ?Ea, ?Eb, ?Ec; discriminate|]).
      constructor.
  - apply int_bound; auto.
  - left. exists sc. split; [reflexivity|]. unfold white. rewrite Ec. exact Hc.
  - apply (quoted_iff default_disjoint). split; [|split; [|reflexivity]].
    + unfold balance in *. eapply scan_chars; [|exact Hb]. exact Hsb.
    + rewrite <- (esc_after_chars cc _ _ Hsb false). exact He.
  - unfold ends. rewrite Ey. reflexivity.
  - exact Er.
Qed.
End Int.
