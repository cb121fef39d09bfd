(** C54: the extended notation of the examples. *)
From Coq Require Import List NArith ZArith Bool Lia.
From Verif.Model Require Import Prelude Parser Iter Utf8 Chunk TextIter PosStr TextVec TextDatumList Alloc
  DefaultClassifier DatumMethods TextMethods Bindings Premade Numeral ExampleLang.
From Verif.Spec Require Import Contract ChunkContract Balance Run Numeral Extended.
From Verif.Proofs Require Import Utf8Facts RunFacts NumeralFacts ExampleFacts ExampleRuns ExampleStack.
From Verif.Tests Require Import Str.
Import ListNotations.
Local Notation N_len r := (N.of_nat (length r)).
Local Notation cc := default_classifier.

(** An [int] form: an opening brace, whitespace [l], "int", a whitespace
    character [c], the operands [body], a closing brace. *)
Definition int_form (l : str) (c : char) (body : str) : str := ([123] ++ l ++ name_int ++ [c] ++ body ++ [125])%N.

(** What is required of the parts: the operands' braces are balanced and no escape
    character at their end escapes the closing brace. *)
Definition int_parts (l : str) (c : char) (body : str) : Prop :=
  Forall (fun x => is_whitespace cc x = true) l /\ is_whitespace cc c = true /\
  balance cc (str_source body) = Balanced /\ esc_after cc false (str_source body) = false.

(** The characters of operands without the escape characters. *)
Definition unescaped (body : str) : str := map it_ch (unescape cc false (str_source body)).

(** ** Numerals as operands *)
Lemma plain_chars body : Forall (fun c => 43 <= c <= 57)%N body ->
  balance cc (str_source body) = Balanced /\ esc_after cc false (str_source body) = false /\ unescaped body = body.
Proof.
  intros H. unfold balance, unescaped. rewrite <- (str_source_ch body) in H. rewrite <- (str_source_ch body) at 4.
  revert H. generalize (str_source body) as s. induction s as [|x s IH]; cbn [map]; intros H; [repeat split|].
  inversion H as [|? ? Hx Hs]; subst. destruct (IH Hs) as (I1 & I2 & I3).
  assert (E1 : is_nest_escape cc (it_ch x) = false) by (cbn [is_nest_escape default_classifier]; apply N.eqb_neq; lia).
  assert (E2 : is_nest_start cc (it_ch x) = false) by (cbn [is_nest_start default_classifier]; apply N.eqb_neq; lia).
  assert (E3 : is_nest_end cc (it_ch x) = false) by (cbn [is_nest_end default_classifier]; apply N.eqb_neq; lia).
  cbn [scan esc_after unescape negb andb]. rewrite E1, E2, E3. cbn [map]. rewrite I3. auto.
Qed.
Lemma decimal_plain u z : decimal u z -> Forall (fun c => 43 <= c <= 57)%N u.
Proof.
  assert (G : forall ds, Forall digit ds -> Forall (fun c => 43 <= c <= 57)%N ds)
    by (intros ds; apply Forall_impl; unfold digit; intros; lia).
  intros []; auto; constructor; auto; lia.
Qed.
Lemma plain_ascii u : Forall (fun c => 43 <= c <= 57)%N u -> length (encode u) = length u.
Proof.
  induction 1 as [|c u Hc _ IH]; [reflexivity|]. change (encode (c :: u)) with (encode_char c ++ encode u).
  rewrite app_length, IH. unfold encode_char. replace (c <? 128)%N with true by (symmetry; apply N.ltb_lt; lia). reflexivity.
Qed.

(** All integers of 128 bits have numerals of at most 40 characters, and those
    greater than [- 10 ^ 38] have numerals of at most 39. *)
Lemma numeral_short z : in_i128 z -> exists u, decimal u z /\ length u <= 40 /\ ((- 10 ^ 38 < z)%Z -> length u <= 39).
Proof.
  unfold in_i128. intros Hz.
  assert (P : (2 ^ 127 < 10 ^ 39)%Z) by reflexivity.
  destruct (Z.lt_ge_cases z 0) as [Hn|Hn].
  - destruct (Z.lt_ge_cases (- 10 ^ 38) z) as [H38|H38].
    + destruct (@numeral_exists 38 (- z)) as (ds & Hl & Hd & Hv); [change (Z.of_nat 38) with 38%Z; lia|].
      exists (45%N :: ds). split; [|cbn [length]; lia]. replace z with (- place_value ds)%Z by lia. constructor; auto.
      intros ->. discriminate.
    + destruct (@numeral_exists 39 (- z)) as (ds & Hl & Hd & Hv); [change (Z.of_nat 39) with 39%Z; lia|].
      exists (45%N :: ds). split; [|cbn [length]; lia]. replace z with (- place_value ds)%Z by lia. constructor; auto.
      intros ->. discriminate.
  - destruct (@numeral_exists 39 z) as (ds & Hl & Hd & Hv); [change (Z.of_nat 39) with 39%Z; lia|].
    exists ds. split; [|lia]. rewrite <- Hv. constructor; auto. intros ->. discriminate.
Qed.

(** ** examples/common_basic.rs *)
(** The first form of a source is an [int] form: the first item is the integer that its
    operands, without their escape characters, stand for as a decimal numeral, if they are one and it
    is of 128 bits, or else the error [Oops].  Its value does not depend on the positions, the
    whitespace before, the rest of the source, the clock or the hasher. *)
Theorem C54_int {W} (now : W -> N * W) hasher l c body rest w : int_parts l c body ->
  (N_len (int_form l c body ++ rest) <= usize_max)%N ->
  exists i items st, cb_parse now hasher (int_form l c body ++ rest) w = (Ok (i :: items), Some st) /\
    int_means None (unescaped body) i.
Proof. intros (Hl & Hc & Hb & He) Hu. exact (@cb_first W now hasher l c body rest w Hl Hc Hb He Hu). Qed.

(** All integers of 128 bits can be written. *)
Theorem C54_every_int z : in_i128 z -> exists u, decimal u z /\ length u <= 40 /\
  forall W (now : W -> N * W) hasher rest w, (N_len (int_form [] 32%N u ++ rest) <= usize_max)%N ->
  exists items st, cb_parse now hasher (int_form [] 32%N u ++ rest) w = (Ok (inl (DExtra (Integer z)) :: items), Some st).
Proof.
  intros Hz. destruct (numeral_short _ Hz) as (u & Hu & Hl & _). exists u. split; [exact Hu|]. split; [exact Hl|].
  intros W now hasher rest w Hlen. destruct (plain_chars _ (decimal_plain _ _ Hu)) as (H1 & H2 & H3).
  assert (Hp : int_parts [] 32%N u) by (split; [constructor|]; split; [reflexivity|]; auto).
  destruct (@C54_int W now hasher _ _ _ rest w Hp Hlen) as (i & items & st & E & [(n & [=] & _)|(_ & [(z' & G1 & G2 & ->)|(G & _)])]).
  - rewrite H3 in G1. rewrite <- (decimal_unique G1 Hu). eauto.
  - rewrite H3 in G. exfalso. exact (G _ Hu Hz).
Qed.

(** Any source: in the datums that are returned, also before an error, no operator
    of the notation is left in a combination, however deeply nested, and all integers are of 128
    bits.  If there is no error, the times in the result, from left to right, are the successive
    readings of the clock, and it was not read more often. *)
Theorem C54_datums {W} (now : W -> N * W) hasher input w : (N_len input <= usize_max)%N ->
  exists items st, cb_parse now hasher input w = (Ok items, Some st) /\
    (forall d, In (inl d) items -> tidy (reads_chars posstr_ops (im_ops (W:=W))) name_time in_i128 d) /\
    (forall ds, items = map inl ds -> readings now w (others (flat_map extras ds)) (ps_alloc st)).
Proof. apply cb_tidy. Qed.

(** ** core/examples/stack_only.rs *)
(** The same with at most 39 bytes, or else [TooLong], unless there are too few slots. *)
Theorem C54_stack_int {W} l c body rest (w : W) : Forall (fun x => is_scalar x = true) (int_form l c body ++ rest) ->
  int_parts l c body -> (N_len (int_form l c body ++ rest) <= usize_max)%N ->
  exists k, forall slots, exists i items st, so_parse (int_form l c body ++ rest) slots w = (Ok (i :: items), Some st) /\
    (int_means (Some 39) (unescaped body) i \/ length slots < k /\ exists e, i = inr (FailedAlloc e)).
Proof. intros Hs (Hl & Hc & Hb & He) Hu. exact (@so_first W l c body rest w Hs Hl Hc Hb He Hu). Qed.

(** Any source, any number of slots, also before an error: no operator of the
    notation is left, and the integers are greater than [- 10 ^ 38]. *)
Theorem C54_stack_datums {W} input (w : W) slots : Forall (fun x => is_scalar x = true) input -> (N_len input <= usize_max)%N ->
  exists items st, so_parse input slots w = (Ok items, Some st) /\
    forall d, In (inl d) items ->
      tidy (reads_chars posstr_ops (nh_ops (W:=W) (ET:=variants unit))) name_thing (fun z => in_i128 z /\ (- 10 ^ 38 < z)%Z) d.
Proof. apply so_tidy. Qed.

(** All these integers can be written, *)
Theorem C54_stack_every_int z : in_i128 z -> (- 10 ^ 38 < z)%Z -> exists u, decimal u z /\
  forall W rest (w : W), Forall (fun x => is_scalar x = true) rest -> (N_len (int_form [] 32%N u ++ rest) <= usize_max)%N ->
  exists k, forall slots, k <= length slots ->
    exists items st, so_parse (int_form [] 32%N u ++ rest) slots w = (Ok (inl (DExtra (Integer z)) :: items), Some st).
Proof.
  intros Hz H38. destruct (numeral_short _ Hz) as (u & Hu & _ & Hl). exists u. split; [exact Hu|].
  intros W rest w Hr Hlen. pose proof (decimal_plain _ _ Hu) as Hpl. destruct (plain_chars _ Hpl) as (H1 & H2 & H3).
  assert (Hp : int_parts [] 32%N u) by (split; [constructor|]; split; [reflexivity|]; auto).
  assert (Hs : Forall (fun x => is_scalar x = true) (int_form [] 32%N u ++ rest)).
  { unfold int_form. rewrite !Forall_app. repeat split; auto; try (repeat constructor; fail).
    eapply Forall_impl; [|exact Hpl]. cbn. intros a Ha. unfold is_scalar.
    apply orb_true_intro. left. apply N.ltb_lt. lia. }
  destruct (@C54_stack_int W _ _ _ rest w Hs Hp Hlen) as (k & Hk). exists k. intros slots Hsl.
  destruct (Hk slots) as (i & items & st & E & [Hm|[Hlt _]]);
    [|exfalso; exact (proj1 (Nat.le_ngt _ _) Hsl Hlt)]. rewrite H3 in Hm.
  destruct Hm as [(n & [= <-] & Hn & _)|(_ & [(z' & G1 & G2 & ->)|(G & _)])].
  - rewrite (plain_ascii _ Hpl) in Hn. exfalso. exact (proj1 (Nat.le_ngt _ _) (Hl H38) Hn).
  - rewrite <- (decimal_unique G1 Hu). eauto.
  - exfalso. exact (G _ Hu Hz).
Qed.

(** but the others, although of 128 bits, cannot: no source gives such an integer.  Its
    shortest numeral has 40 characters, one more than the example's buffer. *)
Theorem C54_stack_refuted : exists z, in_i128 z /\
  (forall W input (w : W) slots items st d, Forall (fun x => is_scalar x = true) input -> (N_len input <= usize_max)%N ->
     so_parse input slots w = (Ok items, st) -> In (inl d) items -> ~ In z (integers (extras d))) /\
  exists input, forall W (now : W -> N * W) hasher w,
    exists items st, cb_parse now hasher input w = (Ok (inl (DExtra (Integer z)) :: items), Some st).
Proof.
  exists (- 2 ^ 127)%Z. split; [split; [apply Z.le_refl|reflexivity]|]. split.
  - intros W input w slots items st d Hs Hu E Hd Hin.
    destruct (C54_stack_datums input w slots Hs Hu) as (items' & st' & E' & H). rewrite E in E'. injection E' as -> _.
    destruct (H _ Hd) as [_ Hi]. rewrite Forall_forall in Hi. destruct (Hi _ Hin) as [_ Hlt]. vm_compute in Hlt. discriminate Hlt.
  - exists (int_form [] 32%N (lit "-170141183460469231731687303715884105728")). intros W now hasher w.
    assert (Hd : decimal (lit "-170141183460469231731687303715884105728") (- 2 ^ 127))
      by (apply (i128_from_str_iff (lit "-170141183460469231731687303715884105728")); vm_compute; reflexivity).
    destruct (plain_chars _ (decimal_plain _ _ Hd)) as (H1 & H2 & H3).
    assert (Hp : int_parts [] 32%N (lit "-170141183460469231731687303715884105728"))
      by (split; [constructor|]; split; [reflexivity|]; split; assumption).
    destruct (@C54_int W now hasher _ _ _ [] w Hp) as (i & items & st & E & [(n & [=] & _)|(_ & [(z' & G1 & G2 & ->)|(G & _)])]).
    + vm_compute. discriminate.
    + rewrite H3 in G1. rewrite <- (decimal_unique G1 Hd). rewrite app_nil_r in E. eauto.
    + rewrite H3 in G. exfalso. refine (G _ Hd _). split; [apply Z.le_refl|reflexivity].
Qed.

(** ** Cases *)
Fixpoint cb_show (d : datum im_text (variants N)) : datum str (variants N) :=
  match d with
  | DText t => DText (match cb_to_str (W:=N) t with inl u => u | inr _ => [] end)
  | DComb a b => DComb (cb_show a) (cb_show b)
  | DList a b => DList (cb_show a) (cb_show b)
  | DExtra x => DExtra x
  | DEmptyNest => DEmptyNest
  | DEmptyList => DEmptyList
  end.
Definition cb_run (input : str) :=
  match cb_parse (fun t : N => (t, t + 1)%N) (fun _ => 0%N) input 7%N with
  | (Ok items, Some st) => Some (map (fun i => match i with inl d => inl (cb_show d) | inr e => inr e end) items, ps_alloc st)
  | _ => None
  end.
Fixpoint so_show (d : datum (nh_text (ET:=variants unit)) (variants unit)) : datum str (variants unit) :=
  match d with
  | DText t => DText (match so_to_str (W:=N) t with inl u => u | inr _ => [] end)
  | DComb a b => DComb (so_show a) (so_show b)
  | DList a b => DList (so_show a) (so_show b)
  | DExtra x => DExtra x
  | DEmptyNest => DEmptyNest
  | DEmptyList => DEmptyList
  end.
Definition so_case (input : str) (slots : nat) :=
  match so_parse input (repeat DEmptyNest slots) 0%N with
  | (Ok items, Some st) => Some (map (fun i => match i with inl d => inl (so_show d) | inr e => inr e end) items)
  | _ => None
  end.

(** The examples' own inputs; the 18 slots are exactly enough. *)
Example C54_case :
  cb_run (lit "{{compound} {current-time} {# removed} {unbound form} {int -42}}") =
    Some ([inl (DList (DExtra (Other 7%N)) (DList (DText (lit " ")) (DList (DText (lit " "))
      (DList (DComb (DText (lit "unbound")) (DList (DText (lit "form")) DEmptyList)) (DList (DText (lit " "))
        (DList (DExtra (Integer (-42))) DEmptyList))))))], 8%N) /\
  so_case (lit "{{compound} {thing} {# removed} {unbound form} {int -42}}") 18 =
    Some [inl (DList (DExtra (Other tt)) (DList (DText (lit " ")) (DList (DText (lit " "))
      (DList (DComb (DText (lit "unbound")) (DList (DText (lit "form")) DEmptyList)) (DList (DText (lit " "))
        (DList (DExtra (Integer (-42))) DEmptyList))))))] /\
  so_case (lit "{{compound} {thing} {# removed} {unbound form} {int -42}}") 17 = Some [inr (FailedAlloc AllocExhausted)].
Proof. vm_compute. repeat split. Qed.

(** Parts of an [int] form with balanced braces and escape characters. *)
Example C54_int_case :
  int_parts (lit "  ") 32%N (lit "\+4\2") /\ unescaped (lit "\+4\2") = lit "+42" /\ decimal (lit "+42") 42 /\
  cb_run (int_form (lit "  ") 32%N (lit "\+4\2") ++ lit "x}") =
    Some ([inl (DExtra (Integer 42)); inr (UnbalancedEndChar (StrPos (int_form (lit "  ") 32%N (lit "\+4\2") ++ lit "x}") 14 14))], 7%N) /\
  int_parts [] 10%N (lit "1{2}\}") /\ (forall z, ~ decimal (unescaped (lit "1{2}\}")) z) /\
  cb_run (int_form [] 10%N (lit "1{2}\}")) = Some ([inr (FailedCombiner Oops)], 7%N).
Proof.
  split; [repeat constructor|]. split; [reflexivity|]. split; [apply (i128_from_str_iff (lit "+42")); reflexivity|].
  split; [vm_compute; reflexivity|]. split; [repeat constructor|]. split; [|vm_compute; reflexivity].
  intros z Hz. apply decimal_plain in Hz. vm_compute in Hz. inversion Hz as [|? ? _ H1]. inversion H1 as [|? ? [_ H2] _]. apply H2. reflexivity.
Qed.

Example C54_every_int_case : in_i128 (- 2 ^ 127) /\ in_i128 (2 ^ 127 - 1) /\
  cb_run (lit "{int -170141183460469231731687303715884105728}") = Some ([inl (DExtra (Integer (- 2 ^ 127)))], 7%N) /\
  cb_run (lit "{int 170141183460469231731687303715884105727}") = Some ([inl (DExtra (Integer (2 ^ 127 - 1)))], 7%N) /\
  cb_run (lit "{int 170141183460469231731687303715884105728}") = Some ([inr (FailedCombiner Oops)], 7%N).
Proof. unfold in_i128. split; [lia|]. split; [lia|]. vm_compute. repeat split. Qed.

(** Times in order, also within combinations of which nothing else is left, and
    an operand that is not allowed. *)
Example C54_datums_case :
  cb_run (lit "{current-time}{a {{compound} {current-time}{# {current-time}}{int 5}}}{{current-time} b}") =
    Some ([inl (DExtra (Other 7%N));
      inl (DComb (DText (lit "a")) (DList (DList (DExtra (Other 8%N)) (DList (DExtra (Integer 5)) DEmptyList)) DEmptyList));
      inl (DComb (DExtra (Other 9%N)) (DList (DText (lit "b")) DEmptyList))], 10%N) /\
  fst (cb_parse (fun t : N => (t, t + 1)%N) (fun _ => 0%N) (lit "{int 1}{current-time x}{int 2}") 7%N) =
    Ok [inl (DExtra (Integer 1)); inr (FailedCombiner (Darnit (DList (DText (tx_from (im_ops (W:=N))
      (PosStr (lit "x") (StrPos (lit "{int 1}{current-time x}{int 2}") 21 21)))) DEmptyList)))].
Proof. vm_compute. repeat split. Qed.

Example C54_stack_case :
  Forall (fun x => is_scalar x = true) (lit "{int -99999999999999999999999999999999999999}") /\
  so_case (lit "{int -99999999999999999999999999999999999999}") 0 = Some [inl (DExtra (Integer (1 - 10 ^ 38)))] /\
  so_case (lit "{int -100000000000000000000000000000000000000}") 18 = Some [inr (FailedCombiner TooLong)] /\
  so_case (lit "{int 170141183460469231731687303715884105727}") 0 = Some [inl (DExtra (Integer (2 ^ 127 - 1)))] /\
  so_case (lit "{int 170141183460469231731687303715884105728}") 0 = Some [inr (FailedCombiner Oops)] /\
  so_case (int_form [] 32%N (lit "4\2")) 0 = Some [inr (FailedAlloc AllocExhausted)] /\
  so_case (int_form [] 32%N (lit "4\2")) 1 = Some [inl (DExtra (Integer 42))].
Proof. split; [repeat constructor|]. vm_compute. repeat split. Qed.

Print Assumptions C54_int.
Print Assumptions C54_every_int.
Print Assumptions C54_datums.
Print Assumptions C54_stack_int.
Print Assumptions C54_stack_datums.
Print Assumptions C54_stack_every_int.
Print Assumptions C54_stack_refuted.
