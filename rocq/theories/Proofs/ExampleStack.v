(** Running core/examples/stack_only.rs. *)
From Coq Require Import List NArith ZArith Bool Lia.
From Verif.Model Require Import Prelude Parser Iter Utf8 Chunk TextIter PosStr TextVec TextDatumList Alloc
  DefaultClassifier DatumMethods TextMethods Bindings Premade Numeral ExampleLang.
From Verif.Spec Require Import Contract ChunkContract AbsStream Grammar Balance Lawful Run Outcome Numeral Extended.
From Verif.Proofs Require Import Sim Refine Utf8Facts ChunkFacts TextFacts AllocFacts MethodFacts Instances RunFacts NextFacts Transfer PremadeFacts
  Compose AbsIter FormFacts FormRuns ClassifierFacts Memory MemoryFacts Concrete NumeralFacts ExampleFacts ExampleRuns.
Import ListNotations.
Set Implicit Arguments.
Local Notation N_len r := (N.of_nat (length r)).

(** ** Chunks all of whose items have some property *)
Section Only.
Context {C CS Pos : Type} (k : chunk_ops C CS Pos) (Rc : C -> list (item Pos) -> Prop)
        (Rcs : CS -> list (item Pos) -> list (item Pos) -> Prop) (KC : chunk_contract k Rc Rcs) (P : item Pos -> Prop).
Definition only (c : C) (l : list (item Pos)) : Prop := Rc c l /\ Forall P l.
Definition only_state (s : CS) (r p : list (item Pos)) : Prop := Rcs s r p /\ Forall P r /\ Forall P p.
Lemma only_contract : chunk_contract k only only_state.
Proof.
  assert (T : forall r, Forall P r -> Forall P (tl r)) by (intros [|i r] H; [exact H|inversion H; assumption]).
  split.
  - split; [apply KC|constructor].
  - intros c l [H _]. apply (kc_is_empty KC). exact H.
  - intros c l [H HP]. repeat split; auto. apply (kc_src_strm KC). exact H.
  - intros s r p (H & Hr & Hp). destruct (kc_peek KC _ _ _ H) as (s' & E & H'). exists s'. repeat split; auto.
  - intros s r p (H & Hr & Hp). destruct (kc_next KC _ _ _ H) as (s' & E & H'). exists s'. repeat split; auto.
  - intros s r p (H & Hr & Hp). destruct (kc_next_accum KC _ _ _ H) as (s' & E & H'). exists s'. repeat split; auto.
    apply Forall_app. split; [exact Hp|]. destruct Hr; cbn; auto.
  - intros s r p (H & Hr & Hp). destruct (kc_accum_done KC _ _ _ H) as (s' & c & E & Hc & H'). exists s', c. repeat split; auto.
Qed.
Lemma only_text {TT A} (x : text_ops TT C A) t l : text_items x only t l -> text_items x Rc t l /\ Forall P l.
Proof.
  intros (cs & ls & E & H & ->). split.
  - exists cs, ls. split; [exact E|]. split; [|reflexivity]. clear E. induction H as [|? ? ? ? []]; auto.
  - clear E. induction H as [|? ? ? ? []]; cbn; [constructor|]. apply Forall_app. auto.
Qed.
End Only.

(** Items up to the first error, of a run that was cut off. *)
Lemma upto_cut {T X P C} : forall (p : list (datum T X + error P C)) e q1 q2,
  upto_err (p ++ inr (FailedAlloc e) :: q1) = upto_err (p ++ q2) \/
  exists ds rest, upto_err (p ++ inr (FailedAlloc e) :: q1) = map inl ds ++ [inr (FailedAlloc e)] /\
    upto_err (p ++ q2) = map inl ds ++ rest.
Proof.
  induction p as [|[d|x] p IH]; intros e q1 q2; cbn.
  - right. exists [], (upto_err q2). auto.
  - destruct (IH e q1 q2) as [->|(ds & rest & -> & ->)]; [auto|]. right. exists (d :: ds), rest. auto.
  - auto.
Qed.

(** ** The example *)
Section StackOnly.
Context {W : Type}.
Local Notation so_text := (nh_text (ET:=variants unit)).
Local Notation so_datum := (nh_datum (ET:=variants unit)).
Local Notation ops := (nh_ops (W:=W) (ET:=variants unit)).
Local Notation scalar := (fun i : item strpos => is_scalar (it_ch i) = true).
Local Notation Rk := (only posstr_any scalar).
Local Notation Rks := (only_state posstr_any_state scalar).
Local Notation Rt := (text_items ops Rk).
Local Notation Rd := (datum_rel Rt (@eq (variants unit))).
Local Notation now A := (fun a : A => (tt, a)).
Local Notation cc := default_classifier.
Local Notation abnd := (abs_lookup (variants_eq unit_eq) (ext name_thing (now W) (bounded_str (Some 39)))).
Local Notation calloc := (@count_alloc W so_text (variants unit)).
Local Notation cops := (tdl_ops posstr_ops calloc).
Local Notation clookup := (pair_lookup (nh_datum_eq (W:=W) (variants_eq unit_eq)) (so_pairs (W:=W) (A:=nat * W))).

Let KC : chunk_contract posstr_ops Rk Rks := only_contract posstr_any_contract scalar.
Lemma so_size c l : Rk c l -> length l = posstr_size c.
Proof. intros [H _]. apply posstr_size_eq. exact H. Qed.

Lemma so_to_str_rep t l : Rt t l ->
  match so_to_str (W:=W) t, bounded_str (X:=unit) (Some 39) l with
  | inl u1, inl u2 => u1 = u2 | inr e1, inr e2 => my_error_rel Rd e1 e2 | _, _ => False end.
Proof.
  intros H. destruct (only_text H) as [_ HP].
  assert (Hs : forall c l, Rk c l -> length l <= posstr_size c) by (intros c k Hc; rewrite (so_size Hc); lia).
  destruct (encode_utf8_spec KC (tdl_contract KC (@slice_alloc_contract W so_text (variants unit))) (repeat 0%N 39) H (text_fuel_enough posstr_size Hs H)) as (r & u & v & buf & E & El & _ & Hu & _ & _ & Hr).
  { apply (Forall_map it_ch (fun c => is_scalar c = true)). exact HP. }
  assert (E' : encode_utf8 posstr_ops ops (text_fuel ops posstr_size t) t (repeat 0%N 39) = (Ok (r, length (encode u)), buf)) by exact E.
  unfold so_to_str. rewrite E'. unfold bounded_str. fold (chars l). rewrite repeat_length in Hu, Hr. rewrite El.
  destruct v as [|c v].
  - rewrite app_nil_r. subst r. apply Nat.leb_le in Hu. rewrite Hu. reflexivity.
  - destruct Hr as [-> Hr]. replace (_ <=? 39) with false; [exact I|]. symmetry. apply Nat.leb_gt.
    change (u ++ c :: v) with (u ++ [c] ++ v). rewrite app_assoc, encode_app, app_length. lia.
Qed.
Lemma so_name_rep s : Forall (fun c => is_scalar c = true) s -> Rd (DText (tx_from ops (posstr_from s))) (DText (str_source s)).
Proof.
  intros Hs. cbn. exists [posstr_from s], [str_source s]. cbn. rewrite app_nil_r. repeat split; auto.
  constructor; [|constructor]. split; [apply posstr_from_any|].
  apply (Forall_map it_ch (fun c => is_scalar c = true)). rewrite str_source_ch. exact Hs.
Qed.

Lemma so_related {F : Prop} {A} (view : A -> W) :
  pairs_rel Rd (combiner_rel F (Ra_view view) Rt eq eq (my_error_rel Rd)) (so_pairs (W:=W) (A:=A)) (ext name_thing (now W) (bounded_str (Some 39))).
Proof.
  unfold so_pairs, pairs_rel, ext.
  assert (N1 : forall s, Forall (fun c => is_scalar c = true) s -> Rd (DText (tx_from ops (posstr_from s))) (DText (str_source s)))
    by exact so_name_rep.
  repeat (apply Forall2_cons; [split; cbn [fst snd]|]); [..|apply Forall2_nil];
    try (apply N1; repeat constructor); try (split; [apply N1; repeat constructor|exact I]).
  - apply comment_rel.
  - apply current_rel. cbn. auto.
  - apply int_rel. exact so_to_str_rep.
  - apply pass_thru_rel.
Qed.

Lemma so_lawful : lawful False snd (titer_stream posstr_ops cops) (text_concat_ops cops) calloc clookup abnd
  (titer_rep Rk Rks cops) (text_items cops Rk) eq (my_error_rel Rd).
Proof.
  pose proof (tdl_contract KC (@count_contract W so_text (variants unit))) as XC. split.
  - apply (titer_contract KC XC).
  - apply XC.
  - apply count_contract.
  - reflexivity.
  - change clookup with (pair_lookup (datum_eq (text_eqb posstr_ops cops posstr_size) (variants_eq unit_eq)) (so_pairs (W:=W) (A:=nat * W))).
    unfold abs_lookup. eapply pair_bindings_sim with (Rt2:=eq); eauto.
    all: try (intros c l Hc; rewrite (so_size Hc); lia); try exact chars_eqb_spec; try (intros t1 t2 Ht; exists t2, t2; auto).
    + intros; subst; reflexivity.
    + exact (so_related (F:=False) snd).
Qed.

Lemma so_two cap : bindings_two (fits cap) (over cap) (nh_lookup (variants_eq unit_eq) (so_bindings (W:=W))) clookup.
Proof.
  intros d. unfold nh_lookup, so_bindings, so_pairs. cbn [pair_lookup].
  repeat match goal with |- context [if ?b then _ else _] => destruct b end; cbn; auto.
  - split; [intros t a1 a2 Ha; left|]; auto.
  - split; [intros t a1 a2 Ha; left|intros t a Ha]; unfold current; destruct t; cbn; auto.
  - split; [intros t a1 a2 Ha; left|intros t a Ha]; unfold int; destruct (so_to_str t) as [u|e]; cbn; auto;
      destruct (i128_from_str u); cbn; auto.
  - split; [intros t a1 a2 Ha; left|]; auto.
Qed.

(** The run with any number of slots, from the one with an unlimited number. *)
Lemma so_run input (w : W) : Forall (fun c => is_scalar c = true) input -> (N_len input <= usize_max)%N ->
  exists s all st' k, titer_new posstr_ops cops (tx_from cops (posstr_from input)) = Ok s /\
    iterates usize_max cc (titer_stream posstr_ops cops) (text_concat_ops cops) calloc clookup (parse_iter_new s (0, w)) all st' /\
    starts_on (titer_rep Rk Rks cops) snd (parse_iter_new s (0, w)) (str_source input) w /\
    forall slots, exists items st, so_parse input slots w = (Ok items, Some st) /\
      (k <= length slots -> items = upto_err all) /\
      (items = upto_err all \/ exists ds e rest, items = map inl ds ++ [inr (FailedAlloc e)] /\ upto_err all = map inl ds ++ rest).
Proof.
  intros Hsc Hu.
  pose proof (so_name_rep Hsc) as Hi. cbn in Hi.
  destruct (titer_new_rep (A:=nat * W) KC (x:=cops) Hi) as (s & Es & Hs).
  assert (Hst : starts_on (titer_rep Rk Rks cops) snd (parse_iter_new s (0, w)) (str_source input) w)
    by (split; [reflexivity|]; split; [exact Hs|reflexivity]).
  assert (Hu' : (N_len (str_source input) <= usize_max)%N) by (rewrite str_source_length; exact Hu).
  destruct (lw_collect cc so_lawful Hst Hu' eq_refl) as (all & st' & E2 & _).
  exists s, all, st', (fst (ps_alloc st')). split; [exact Es|]. split; [do 2 eexists; exact E2|]. split; [exact Hst|].
  intros slots. unfold so_parse.
  destruct (parse_text_with_safe (variants_eq unit_eq) (so_bindings (W:=W)) (nh_parser slots w) (proj1 (only_text Hi)) Hu')
    as (s' & all1 & st & st1 & Es' & C1 & E1 & _).
  assert (s' = s) as -> by (pose proof (eq_trans (eq_sym Es) Es') as Q; injection Q as Q; congruence).
  exists (upto_err all1), st. split; [exact E1|].
  pose proof (@slice_count_two W so_text (variants unit) (length slots)) as HA.
  pose proof (@slice_tdl_two (variants unit) W posstr posstr_iter strpos posstr_ops (length slots)) as HX.
  destruct (two_collect usize_max cc (titer_two posstr_ops HX) (proj2 HX) HA (so_two (length slots)) _ _
    (st1:=parse_iter_new s (nh_parser slots w)) (st2:=parse_iter_new s (0, w))
    ltac:(split; [reflexivity|]; split; [reflexivity|]; split; [reflexivity|]; cbn; rewrite room_new; apply Nat.add_0_r) C1 E2)
    as [[-> _]|(HL & p & e & q1 & q2 & -> & ->)]; [auto|].
  split; [intros Hk; exfalso; unfold LS, over in HL; lia|].
  destruct (upto_cut p e q1 q2) as [U|(ds & rest & U1 & U2)]; [left; exact U|].
  right. exists ds, e, rest. split; [exact U1|exact U2].
Qed.

Lemma so_first l c body rest (w : W) : Forall (fun c => is_scalar c = true) (int_chars l c body ++ rest) ->
  Forall (fun c => is_whitespace cc c = true) l -> is_whitespace cc c = true ->
  balance cc (str_source body) = Balanced -> esc_after cc false (str_source body) = false ->
  (N_len (int_chars l c body ++ rest) <= usize_max)%N ->
  exists k, forall slots, exists i items st, so_parse (int_chars l c body ++ rest) slots w = (Ok (i :: items), Some st) /\
    (int_means (Some 39) (map it_ch (unescape cc false (str_source body))) i \/
     length slots < k /\ exists e, i = inr (FailedAlloc e)).
Proof.
  intros Hsc Hl Hc Hb He Hu. set (inp := int_chars l c body ++ rest) in *.
  destruct (so_run w Hsc Hu) as (s & all & st' & k & Es & Ha & Hs & Hrun).
  destruct (map_eq_app it_ch (str_source inp) (int_chars l c body) rest) as (s1 & s2 & E & E1 & E2); [apply str_source_ch|].
  destruct (@int_nest W unit name_thing (now W) (Some 39) unit_eq s1 l c body w) as (r & Hn & Hr); auto; [discriminate|].
  rewrite E in Hs. rewrite <- str_source_length, E in Hu.
  pose proof (fun st s rest w r w' => @first_item _ _ _ _ _ _ _ _ _ usize_max _ _ _ _ _ _ _ _ _ _ _ so_lawful default_disjoint st s rest w r w') as F1.
  destruct (F1 _ _ _ _ _ _ Hs Hu Hn) as (i & items & st1 & Hi & Hri);
    [destruct r as [[?|]|?]; [discriminate|contradiction|discriminate]|].
  destruct (iterates_det Ha Hi) as [-> _].
  pose proof (int_means_rel _ _ (Some 39) _ _ _ Hr Hri) as Hm.
  exists k. intros slots. destruct (Hrun slots) as (its & st & Ep & Hk & Hor).
  assert (U : exists us, upto_err (i :: items) = i :: us) by (destruct i; cbn; eauto). destruct U as (us & U). rewrite U in *.
  destruct (Nat.le_gt_cases k (length slots)) as [Hle|Hgt].
  - rewrite (Hk Hle) in Ep. exists i, us, st. auto.
  - destruct Hor as [->|(ds & e & rst & -> & Hds)]; [exists i, us, st; auto|].
    destruct ds as [|d ds]; cbn [map app] in *.
    + do 3 eexists. split; [exact Ep|]. right. eauto.
    + injection Hds as -> Hds. do 3 eexists. split; [exact Ep|]. left. exact Hm.
Qed.

Lemma so_tidy input (w : W) slots : Forall (fun c => is_scalar c = true) input -> (N_len input <= usize_max)%N ->
  exists items st, so_parse input slots w = (Ok items, Some st) /\
    forall d, In (inl d) items -> tidy (reads_chars posstr_ops ops) name_thing in_39 d.
Proof.
  intros Hsc Hu. destruct (so_run w Hsc Hu) as (s & all & st' & k & Es & Ha & Hs & Hrun).
  destruct (Hrun slots) as (items & st & Ep & _ & Hor). exists items, st. split; [exact Ep|].
  assert (Hin : forall d, In (inl d) items -> In (inl d) (upto_err all)).
  { intros d Hd. destruct Hor as [->|(ds & e & rest & -> & ->)]; [exact Hd|].
    apply in_app_iff in Hd. apply in_or_app. destruct Hd as [Hd|[[=]|[]]]. auto. }
  intros d Hd. apply Hin in Hd. clear Hin Hor Ep Hrun.
  destruct (iterates_abstract so_lawful Hs Ha) as (aitems & ast' & (n & f & Ea) & Hrel & _).
  destruct (upto_in Hrel _ Hd) as (ad & ds0 & rest0 & E0 & Hr).
  pose proof (proj1 (ext_grammar name_thing (now W) (bounded_str (Some 39)) unit_eq _ cc in_range_39)) as EG.
  refine (@clean_tidy _ W unit _ Rt name_thing (now W) (bounded_str (Some 39)) unit_eq in_39 d ad _ Hr _).
  { intros t l u Ht (l' & Hl & <-).
    rewrite (reads_det Hl (text_reads KC (tdl_contract KC (@slice_alloc_contract W so_text (variants unit))) Ht)). reflexivity. }
  destruct (items_mean _ _ default_disjoint _ _ _ _ Ea) as [(ds & w' & b & E1 & _ & Hf)|
    (ds & e & u & r & w1 & b & rest & r1 & p1 & w2 & n' & E1 & _ & Hf & _)];
    apply EG in Hf; destruct Hf as [Hf _]; rewrite Forall_forall in Hf; apply Hf; rewrite E1 in E0.
  + assert (Hin : In (inl ad) (map (inl (B:=error strpos (my_error (datum (list (item strpos)) (variants unit))))) ds))
      by (rewrite E0; apply in_or_app; right; left; reflexivity).
    apply in_map_iff in Hin. destruct Hin as (x & [= ->] & ?). assumption.
  + symmetry in E0. eapply inl_prefix. exact E0.
Qed.
End StackOnly.
