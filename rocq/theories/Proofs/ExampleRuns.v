(** Running the examples' parsers. *)
From Coq Require Import List NArith ZArith Bool Lia.
From Verif.Model Require Import Prelude Parser Iter Utf8 Chunk TextIter PosStr TextVec TextDatumList Alloc
  DefaultClassifier DatumMethods TextMethods Bindings Premade Numeral ExampleLang.
From Verif.Spec Require Import Contract ChunkContract AbsStream Grammar Balance Lawful Run Outcome Numeral Extended.
From Verif.Proofs Require Import Sim Refine ChunkFacts TextFacts AllocFacts MethodFacts Instances RunFacts NextFacts Transfer PremadeFacts
  Compose AbsIter FormFacts FormRuns ClassifierFacts Memory MemoryFacts Concrete NumeralFacts ExampleFacts.
Import ListNotations.
Set Implicit Arguments.
Local Notation N_len r := (N.of_nat (length r)).

(** ** Related combiners *)
Section Related.
Context {F : Prop} {A1 A2 T1 T2 X Pos : Type} (Ra : A1 -> A2 -> Prop) (Rt : T1 -> T2 -> Prop).
Local Notation Rd := (datum_rel Rt (@eq (variants X))).
Local Notation crel := (combiner_rel (P1:=Pos) (P2:=Pos) F Ra Rt eq eq (my_error_rel Rd)).
Lemma comment_rel : crel (Operative comment) (Operative comment).
Proof. intros d1 d2 t1 t2 a1 a2 _ _ Ha. cbn. auto. Qed.
Lemma pass_thru_rel : crel (Applicative pass_thru) (Applicative pass_thru).
Proof. intros d1 d2 b1 b2 a1 a2 _ Hb Ha. cbn. auto. Qed.
Lemma current_rel n1 n2 : (forall a1 a2, Ra a1 a2 -> fst (n1 a1) = fst (n2 a2) /\ Ra (snd (n1 a1)) (snd (n2 a2))) ->
  crel (Applicative (current n1)) (Applicative (current n2)).
Proof.
  intros Hn d1 d2 b1 b2 a1 a2 _ Hb Ha. unfold current.
  destruct b1, b2; cbn in Hb; try contradiction; try (cbn; auto; fail).
  specialize (Hn _ _ Ha). destruct (n1 a1) as [x1 c1], (n2 a2) as [x2 c2]. cbn in *. destruct Hn as [-> Hn]. auto.
Qed.
Lemma int_rel s1 s2 : (forall t1 t2, Rt t1 t2 -> match s1 t1, s2 t2 with
      | inl u1, inl u2 => u1 = u2 | inr e1, inr e2 => my_error_rel Rd e1 e2 | _, _ => False end) ->
  crel (Operative (int s1)) (Operative (int s2)).
Proof.
  intros Hs d1 d2 t1 t2 a1 a2 _ Ht Ha. unfold int. specialize (Hs _ _ Ht).
  destruct (s1 t1) as [u1|e1], (s2 t2) as [u2|e2]; try contradiction.
  - subst u2. destruct (i128_from_str u1); cbn; auto.
  - cbn. auto.
Qed.
End Related.

(** ** The first form of a source *)
Section First.
Context {S A TT ET Pos CE W AE AC : Type} (umax : N) (cc : classifier) (so : stream_ops S A TT Pos) (co : concat_ops A TT)
        (ao : alloc_ops A TT ET) (bnd : bindings A TT ET Pos CE).
Local Notation text := (list (item Pos)).
Context (view : A -> W) (abnd : bindings W text AE Pos AC)
        (Rs : S -> text -> text -> Prop) (Rt : TT -> text -> Prop) (Rx : ET -> AE -> Prop) (Rc : CE -> AC -> Prop)
        (LW : lawful False view so co ao bnd abnd Rs Rt Rx Rc) (DC : disjoint_classes cc).
Lemma first_item st s rest w r w' : starts_on Rs view st (s ++ rest) w -> (N_len (s ++ rest) <= umax)%N ->
  nest cc abnd w s r w' -> r <> inl None ->
  exists i items st', iterates umax cc so co ao bnd st (i :: items) st' /\
    match r, i with
    | inl (Some ad), inl d => datum_rel Rt Rx d ad
    | inr ae, inr e => error_rel eq Rc e ae
    | _, _ => False
    end.
Proof.
  intros H Hu Hn Hr. rewrite app_length in Hu.
  assert (O : outcome umax cc so co ao bnd view Rs Rt Rx Rc st r rest w') by (eapply nest_outcome; eauto; lia).
  assert (G : forall i st1, nexts umax cc so co ao bnd st [Some i] st1 -> starts_on Rs view st1 rest w' ->
    exists items st', iterates umax cc so co ao bnd st (i :: items) st').
  { intros i st1 E1 H1. destruct (iterates_total (umax:=umax) cc LW H1 ltac:(lia)) as (items & st' & E2).
    exists items, st'. apply (iterates_app [i] E1 E2). }
  destruct r as [[ad|]|ae]; [|congruence|]; cbn in O.
  - destruct O as (d & st1 & E1 & Hd & H1). destruct (G _ _ E1 H1) as (items & st' & E). exists (inl d), items, st'. auto.
  - destruct O as (e & st1 & E1 & He & H1). destruct (G _ _ E1 H1) as (items & st' & E). exists (inr e), items, st'. auto.
Qed.
End First.

(** The meanings of [int] forms are the same for all texts. *)
Lemma int_means_rel {T1 T2 X Pos D1 D2} (Rt : T1 -> T2 -> Prop) (R : D1 -> D2 -> Prop) limit u
    (r : option (datum T2 (variants X)) + error Pos (my_error D2)) (i : datum T1 (variants X) + error Pos (my_error D1)) :
  match r with
  | inl (Some d) => int_means limit u (inl d : _ + error Pos (my_error D2))
  | inl None => False
  | inr e => int_means limit u (inr e : datum T2 (variants X) + _)
  end ->
  match r, i with
  | inl (Some ad), inl d => datum_rel Rt eq d ad
  | inr ae, inr e => error_rel eq (my_error_rel R) e ae
  | _, _ => False
  end ->
  int_means limit u i.
Proof.
  unfold int_means. destruct r as [[ad|]|ae], i as [d|e]; try contradiction; intros H Hi.
  - destruct H as [(n & H1 & H2 & H3)|(H1 & [(z & H2 & H3 & H4)|(H2 & H4)])]; try discriminate.
    injection H4 as ->. destruct d; cbn in Hi; try contradiction. subst. right. split; [exact H1|left; exists z; auto].
  - destruct H as [(n & H1 & H2 & H3)|(H1 & [(z & H2 & H3 & H4)|(H2 & H4)])]; try discriminate.
    + injection H3 as ->. destruct e as [| | | |c]; cbn in Hi; try contradiction; destruct c; cbn in Hi; try contradiction. left. exists n. auto.
    + injection H4 as ->. destruct e as [| | | |c]; cbn in Hi; try contradiction; destruct c; cbn in Hi; try contradiction. right. split; [exact H1|right; auto].
Qed.

(** ** From datums over characters to datums of texts *)
Lemma datum_rel_extras {T1 T2 ET} (Rt : T1 -> T2 -> Prop) : forall d1 d2, datum_rel Rt (@eq ET) d1 d2 -> extras d1 = extras d2.
Proof.
  induction d1; destruct d2; cbn; try contradiction; auto; try (intros ->; reflexivity);
    intros [H1 H2]; f_equal; auto.
Qed.
Lemma extras_rel {T1 T2 ET} (Rt : T1 -> T2 -> Prop) l1 l2 : Forall2 (datum_rel Rt (@eq ET)) l1 l2 ->
  flat_map extras l1 = flat_map extras l2.
Proof. induction 1; cbn; [reflexivity|]. f_equal; eauto using datum_rel_extras. Qed.
Lemma all_operators_rel {T1 T2 ET} (Rt : T1 -> T2 -> Prop) (P1 : datum T1 ET -> Prop) (P2 : datum T2 ET -> Prop) :
  (forall d1 d2, datum_rel Rt (@eq ET) d1 d2 -> P2 d2 -> P1 d1) ->
  forall d1 d2, datum_rel Rt (@eq ET) d1 d2 -> all_operators P2 d2 -> all_operators P1 d1.
Proof.
  intros HP. induction d1; destruct d2; cbn; try contradiction; auto.
  - intros [H1 H2] (G1 & G2 & G3). repeat split; eauto.
  - intros [H1 H2] (G1 & G2). split; eauto.
Qed.

Lemma clean_tidy {TT W X} (reads : TT -> str -> Prop) (Rt : TT -> list (item strpos) -> Prop) other (now : W -> X * W) to_str x_eq range d ad :
  (forall t l u, Rt t l -> reads t u -> map it_ch l = u) ->
  datum_rel Rt eq d ad -> clean other now to_str x_eq range ad -> tidy reads other range d.
Proof.
  intros HR Hd [H1 H2]. split; [|rewrite (datum_rel_extras Rt _ _ Hd); exact H2].
  eapply all_operators_rel; [|exact Hd|exact H1]. intros o ao Ho Hn [(t & s & -> & Hs & Hi)|(t & -> & Hs)].
  - destruct ao; cbn in Ho; try contradiction.
    refine (@named_bound W X other now to_str x_eq _ _ Hn). left. do 2 eexists. split; [reflexivity|]. split; [|exact Hi]. eauto.
  - destruct ao as [|a b| | | |]; cbn in Ho; try contradiction. destruct Ho as [Ha Hb].
    destruct a; cbn in Ha; try contradiction. destruct b; cbn in Hb; try contradiction.
    refine (@named_bound W X other now to_str x_eq _ _ Hn). right. eexists. split; [reflexivity|]. eauto.
Qed.

(** The items up to the first error. *)
Lemma upto_in {T1 T2 E1 E2 Pos C1 C2} (Rt : T1 -> T2 -> Prop) (Rx : E1 -> E2 -> Prop) (Rc : C1 -> C2 -> Prop) l1 l2 :
  Forall2 (pitem_rel Rt Rx (@eq Pos) Rc) l1 l2 -> forall d, In (inl d) (upto_err l1) ->
  exists ad ds rest, l2 = map inl ds ++ inl ad :: rest /\ datum_rel Rt Rx d ad.
Proof.
  induction 1 as [|[x|x] [y|y] l1 l2 H _ IH]; cbn; intros d Hd; try contradiction.
  - destruct Hd as [[= ->]|Hd]; [exists y, [], l2; auto|].
    destruct (IH _ Hd) as (ad & ds & rest & -> & Hr). exists ad, (y :: ds), rest. auto.
  - destruct Hd as [[=]|[]].
Qed.
Lemma inl_prefix {D E} : forall (ds : list D) (x : D) rest ds' (e : E) rest',
  map inl ds ++ inl x :: rest = map inl ds' ++ inr e :: rest' -> In x ds'.
Proof.
  induction ds as [|d ds IH]; intros x rest [|d' ds'] e rest'; cbn; intros [= ]; subst; auto.
  right. eapply IH. eassumption.
Qed.

(** The integers that there can be. *)
Lemma in_range {X} limit (t : list (item strpos)) u z : bounded_str (X:=X) limit t = inl u -> i128_from_str u = Some z -> in_i128 z.
Proof. intros _ E. apply i128_from_str_iff in E. apply E. Qed.
Lemma encode_long s : length s <= length (encode s).
Proof.
  induction s as [|c s IH]; [apply Nat.le_refl|]. change (encode (c :: s)) with (encode_char c ++ encode s).
  rewrite app_length. cbn [length]. assert (1 <= length (encode_char c)); [|lia].
  unfold encode_char. repeat match goal with |- context [if ?b then _ else _] => destruct b end; cbn; lia.
Qed.
Definition in_39 (z : Z) : Prop := in_i128 z /\ (- 10 ^ 38 < z)%Z.
Lemma in_range_39 {X} (t : list (item strpos)) u z : bounded_str (X:=X) (Some 39) t = inl u -> i128_from_str u = Some z -> in_39 z.
Proof.
  intros Eb E. apply i128_from_str_iff in E. destruct E as [Ed Er]. split; [exact Er|].
  destruct (Z.lt_ge_cases (- 10 ^ 38) z) as [H|H]; [exact H|exfalso].
  pose proof (decimal_long Ed H) as Hl. unfold bounded_str in Eb.
  destruct (length (encode (map it_ch t)) <=? 39) eqn:E39; [|discriminate]. injection Eb as <-.
  apply Nat.leb_le in E39. pose proof (encode_long (map it_ch t)). lia.
Qed.

(** ** examples/common_basic.rs *)
Section CommonBasic.
Context {W : Type} (now : W -> N * W) (hasher : list hash_word -> N).
Local Notation ops := (im_ops (W:=W)).
Local Notation Rt := (text_items ops posstr_any).
Local Notation Rd := (datum_rel Rt (@eq (variants N))).
Local Notation name s := (DText (tx_from ops (posstr_from s))).
Local Notation cc := default_classifier.
Local Notation abnd := (abs_lookup (variants_eq N.eqb) (ext name_time now (bounded_str None))).

Lemma cb_bindings_eq : cb_bindings now hasher = [
  (name name_comment, Operative comment);
  (name name_time, Applicative (current now));
  (name name_int, Operative (int (cb_to_str (W:=W))));
  (DComb (name name_compound) DEmptyList, Applicative pass_thru)].
Proof.
  unfold cb_bindings.
  assert (G : forall a b, im_datum_eq (W:=W) (variants_eq N.eqb) a b = false ->
    same_key (im_datum_eq (W:=W) (variants_eq N.eqb)) (im_datum_hash (W:=W) variants_hash) hasher a b = false)
    by (intros a b E; unfold same_key; rewrite E; apply andb_false_r).
  repeat (cbn [hm_insert]; rewrite ?G by (vm_compute; reflexivity)). reflexivity.
Qed.

Lemma cb_to_str_rep t l : Rt t l -> cb_to_str (W:=W) t = inl (map it_ch l).
Proof.
  intros H. unfold cb_to_str. pose proof posstr_any_contract as KC.
  destruct (titer_new_rep (A:=W) (Rcs:=posstr_any_state) KC H) as (s & E & Hs). rewrite E. cbn [res_bind].
  assert (G : titer_collect posstr_ops (text_fuel ops posstr_size t) s = Ok l)
    by exact (titer_collect_rep KC (tvec_contract KC False (fun w : W => w)) Hs (text_fuel_enough posstr_size posstr_size_ok H)).
  rewrite G. reflexivity.
Qed.
Lemma name_rep s : Rd (name s) (DText (str_source s)).
Proof. cbn. apply (xc_from (tvec_contract posstr_any_contract False (fun w : W => w))). apply posstr_from_any. Qed.

Lemma cb_related : im_related (W:=W) eq (my_error_rel Rd) posstr_any (cb_bindings now hasher) (ext name_time now (bounded_str None)).
Proof.
  rewrite cb_bindings_eq. unfold im_related, pairs_rel, ext.
  repeat (apply Forall2_cons; [split; cbn [fst snd]|]); [..|apply Forall2_nil];
    try apply name_rep; try (split; [apply name_rep|exact I]).
  - apply comment_rel.
  - apply current_rel. intros a1 a2 ->. unfold Ra_view. auto.
  - apply int_rel. intros t1 t2 H. rewrite (cb_to_str_rep H). reflexivity.
  - apply pass_thru_rel.
Qed.

Lemma cb_lawful : lawful False (fun w : W => w) im_stream (text_concat_ops ops) box_alloc
  (im_lookup (variants_eq N.eqb) variants_hash hasher (cb_bindings now hasher))
  abnd (titer_rep posstr_any posstr_any_state ops) Rt eq (my_error_rel Rd).
Proof.
  apply im_lawful; auto using posstr_any_contract, posstr_size_ok, cb_related.
  - intros [x|x] [y|y]; cbn; try discriminate.
    + intros E. apply N.eqb_eq in E. subst. reflexivity.
    + intros E. apply Z.eqb_eq in E. subst. reflexivity.
  - intros; subst; reflexivity.
Qed.

Lemma cb_first l c body rest w :
  Forall (fun c => is_whitespace cc c = true) l -> is_whitespace cc c = true ->
  balance cc (str_source body) = Balanced -> esc_after cc false (str_source body) = false ->
  (N_len (int_chars l c body ++ rest) <= usize_max)%N ->
  exists i items st, cb_parse now hasher (int_chars l c body ++ rest) w = (Ok (i :: items), Some st) /\
    int_means None (map it_ch (unescape cc false (str_source body))) i.
Proof.
  intros Hl Hc Hb He Hu. set (inp := int_chars l c body ++ rest) in *.
  destruct (str_starts inp w) as (s & Es & Hs).
  destruct (map_eq_app it_ch (str_source inp) (int_chars l c body) rest) as (s1 & s2 & E & E1 & E2); [apply str_source_ch|].
  destruct (@int_nest W N name_time now None N.eqb s1 l c body w) as (r & Hn & Hr); auto; [discriminate|].
  rewrite E in Hs. rewrite <- str_source_length, E in Hu.
  pose proof (fun st s rest w r w' => @first_item _ _ _ _ _ _ _ _ _ usize_max _ _ _ _ _ _ _ _ _ _ _ cb_lawful default_disjoint st s rest w r w') as F1.
  destruct (F1 _ _ _ _ _ _ Hs Hu Hn) as (i & items & st' & Hi & Hri);
    [destruct r as [[?|]|?]; [discriminate|contradiction|discriminate]|].
  assert (Hu' : (N_len inp <= usize_max)%N) by (rewrite <- str_source_length, E; exact Hu).
  destruct (parse_str_iterates (variants_eq N.eqb) variants_hash hasher (cb_bindings now hasher) w Hu' Es)
    as ((all & st1 & Ha & st & Ep) & _).
  destruct (iterates_det Ha Hi) as [-> _].
  pose proof (int_means_rel Rt Rd None _ _ _ Hr Hri) as Hm.
  exists i. destruct i as [d|e]; cbn [upto_err] in Ep; do 2 eexists; (split; [exact Ep|exact Hm]).
Qed.

Lemma cb_tidy input w : (N_len input <= usize_max)%N ->
  exists items st, cb_parse now hasher input w = (Ok items, Some st) /\
    (forall d, In (inl d) items -> tidy (reads_chars posstr_ops ops) name_time in_i128 d) /\
    (forall ds, items = map inl ds -> readings now w (others (flat_map extras ds)) (ps_alloc st)).
Proof.
  intros Hu. destruct (str_starts input w) as (s & Es & Hs).
  destruct (parse_str_iterates (variants_eq N.eqb) variants_hash hasher (cb_bindings now hasher) w Hu Es)
    as ((all & st1 & Ha & st & Ep) & Hok & _).
  exists (upto_err all), st. split; [exact Ep|]. split.
  - destruct (iterates_abstract cb_lawful Hs Ha) as (aitems & ast' & (n & f & Ea) & Hrel & _).
    pose proof (proj1 (ext_grammar name_time now (bounded_str None) N.eqb _ cc (in_range None))) as EG.
    intros d Hd. destruct (upto_in Hrel _ Hd) as (ad & ds0 & rest0 & E0 & Hr).
    refine (@clean_tidy _ W N _ Rt name_time now (bounded_str None) N.eqb in_i128 d ad _ Hr _).
    { intros t l u Ht (l' & Hl & <-). rewrite (reads_det Hl (im_text_reads posstr_any_contract Ht)). reflexivity. }
    destruct (items_mean _ _ default_disjoint _ _ _ _ Ea) as [(ds & w' & b & E1 & _ & Hf)|
      (ds & e & u & r & w1 & b & rest & r1 & p1 & w2 & n' & E1 & _ & Hf & _)];
      apply EG in Hf; destruct Hf as [Hf _]; rewrite Forall_forall in Hf; apply Hf; rewrite E1 in E0.
    + assert (Hin : In (inl ad) (map (inl (B:=error strpos (my_error (datum (list (item strpos)) (variants N))))) ds))
        by (rewrite E0; apply in_or_app; right; left; reflexivity).
      apply in_map_iff in Hin. destruct Hin as (x & [= ->] & ?). assumption.
    + symmetry in E0. eapply inl_prefix. exact E0.
  - intros ds E. rewrite E in Ep. pose proof (Hok _ _ Ep) as Hit.
    destruct (iterates_sound cb_lawful _ default_disjoint Hs Hit) as (ads & (b & Hin) & Hds).
    apply (proj1 (ext_grammar name_time now (bounded_str None) N.eqb _ cc (in_range None))) in Hin. destruct Hin as [_ Hin].
    rewrite (extras_rel Rt Hds). exact Hin.
Qed.
End CommonBasic.
