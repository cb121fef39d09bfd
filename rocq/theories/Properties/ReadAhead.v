(** C43: the parser does not read ahead. *)
From Coq Require Import List NArith Arith Bool Lia.
From Verif.Model Require Import Prelude Parser Iter Utf8 Chunk TextIter PosStr PosStrish
  TextVec TextDatumList CharIter StrishIter Alloc DefaultClassifier TextMethods DatumMethods Bindings Premade.
From Verif.Spec Require Import Contract ChunkContract Grammar Run Lawful Outcome ReadAhead.
From Verif.Proofs Require Import Sim Refine ChunkFacts TextFacts Instances PremadeFacts NextFacts FormRuns ClassifierFacts
  RunFacts ReadAheadFacts ReadAheadForms.
From Verif.Tests Require Import Str Cases AbsCases.
Import ListNotations.
Local Notation N_len r := (N.of_nat (length r)).
Local Notation oks ds := (map (fun d => Some (inl d)) ds).

(** ** For every source stream that itself does not read ahead *)

(** Whatever the collaborators do, and whatever the calls of [next] returned, at most
    the next item has been asked for. *)
Theorem C43_ahead {S A TT ET Pos CE} umax cc (so : stream_ops S A TT Pos) co ao (bnd : bindings A TT ET Pos CE)
    (Rd : S -> bool -> Prop) st b os st' : reads_ahead so Rd ->
  Rd (ps_strm st) b -> nexts umax cc so co ao bnd st os st' -> Rd (ps_strm st') true.
Proof. intros RA H N. eapply ra_nexts_true; eauto. Qed.

(** When an error about an unmatched end character or of a combiner is returned, not
    even the next item has been asked for. *)
Theorem C43_error {S A TT ET Pos CE} umax cc (so : stream_ops S A TT Pos) co ao (bnd : bindings A TT ET Pos CE)
    (Rd : S -> bool -> Prop) st b os e st' : reads_ahead so Rd ->
  Rd (ps_strm st) b -> nexts umax cc so co ao bnd st (os ++ [Some (inr e)]) st' ->
  at_a_character e -> Rd (ps_strm st') false.
Proof. intros RA H N He. eapply ra_nexts_error; eauto. Qed.

Section Lawful.
Context {S A TT ET Pos CE W AE AC : Type}.
Context (umax : N) (cc : classifier) (so : stream_ops S A TT Pos) (co : concat_ops A TT)
        (ao : alloc_ops A TT ET) (bnd : bindings A TT ET Pos CE).
Local Notation text := (list (item Pos)).
Context (view : A -> W) (abnd : bindings W text AE Pos AC).
Context (Rs : S -> text -> text -> Prop) (Rt : TT -> text -> Prop)
        (Rx : ET -> AE -> Prop) (Rc : CE -> AC -> Prop).
Context (LW : lawful False view so co ao bnd abnd Rs Rt Rx Rc) (DC : disjoint_classes cc).

(** The datum of a nest form is returned when its end character has been read and
    nothing after it has been asked for, whatever forms come before. *)
Theorem C43_form (Rd : S -> bool -> Prop) st b w u ds w1 b1 s ad w2 rest os st' : reads_ahead so Rd ->
  Rd (ps_strm st) b -> starts_on Rs view st (u ++ s ++ rest) w -> (N_len (u ++ s) <= umax)%N ->
  forms cc abnd false false w u ds w1 b1 -> nest cc abnd w1 s (inl (Some ad)) w2 ->
  nexts umax cc so co ao bnd st os st' -> length os = length ds + 1 ->
  Rd (ps_strm st') false /\ starts_on Rs view st' rest w2.
Proof. intros RA H Hs Hl Hf Hn N L. rewrite Nat.add_1_r in L. eapply ra_forms; eauto. Qed.
End Lawful.

Lemma index_of u : forall n s (y : item charpos) r, enumerate n s = u ++ y :: r -> it_pos y = (n + N_len u)%N.
Proof.
  induction u as [|z u IH]; intros n s y r E; destruct s as [|c s]; try discriminate; cbn in E.
  - injection E as <- _. cbn. lia.
  - injection E as _ E. rewrite (IH _ _ _ _ E). cbn [length]. lia.
Qed.

(** ** An iterator of characters *)
Section Chars.
Context {A TT ET CE W AE AC : Type}.
Context (umax : N) (cc : classifier) (x : text_ops TT posstrish A) (co : concat_ops A TT)
        (ao : alloc_ops A TT ET) (bnd : bindings A TT ET charpos CE).
Local Notation text := (list (item charpos)).
Context (view : A -> W) (abnd : bindings W text AE charpos AC).
Context (input : str) (Rt : TT -> text -> Prop) (Rx : ET -> AE -> Prop) (Rc : CE -> AC -> Prop).
Context (LW : lawful False view (chariter_stream x) co ao bnd abnd (chariter_rep input) Rt Rx Rc) (DC : disjoint_classes cc).
Local Notation nexts := (nexts umax cc (chariter_stream x) co ao bnd).
Local Notation start a := (parse_iter_new (chariter_new input) a).
(** What the user's iterator of characters will still yield. *)
Local Notation unasked st := (map it_ch (pk_iter (ch_iter (ps_strm st)))).

Lemma enumerate_map_ch n s : map it_ch (enumerate n s) = s.
Proof. revert n. induction s as [|c s IH]; intros n; cbn; [reflexivity|]. rewrite IH. reflexivity. Qed.
Lemma skipn_enumerate k : forall n s, map it_ch (skipn k (enumerate n s)) = skipn k s.
Proof.
  induction k as [|k IH]; intros n s; [apply enumerate_map_ch|]. destruct s; [reflexivity|]. cbn. apply IH.
Qed.
Lemma start_chars a : starts_on (chariter_rep input) view (start a) (enumerate 0 input) (view a).
Proof. repeat split; auto. apply chariter_new_rep. Qed.
Lemma unasked_rest (s : chariter) rest pend : chariter_rep input s rest pend -> chariter_ahead s false ->
  pk_iter (ch_iter s) = rest.
Proof.
  intros (? & ? & ? & _ & _ & _ & H & _) [|Hp]; [discriminate|]. unfold pk_items in H. rewrite Hp in H. exact H.
Qed.

(** The first nest form [s], after the forms [u], has been returned: the user's iterator has
    been asked for no more than the characters of [u] and [s]. *)
Theorem C43_chars a u ds w1 b1 s ad w2 rest os st' : enumerate 0 input = u ++ s ++ rest -> (N_len (u ++ s) <= umax)%N ->
  forms cc abnd false false (view a) u ds w1 b1 -> nest cc abnd w1 s (inl (Some ad)) w2 ->
  nexts (start a) os st' -> length os = length ds + 1 ->
  unasked st' = skipn (length (u ++ s)) input.
Proof.
  intros E Hl Hf Hn N L. pose proof (start_chars a) as Hs. rewrite E in Hs.
  destruct (C43_form umax cc _ _ _ _ _ _ _ _ _ _ LW DC chariter_ahead _ true _ _ _ _ _ _ _ _ _ _ _ (chariter_reads_ahead x)
    (or_introl eq_refl) Hs Hl Hf Hn N L) as (Hd & _ & Hr & _).
  rewrite (unasked_rest _ _ _ Hr Hd).
  rewrite <- (skipn_enumerate _ 0), E, app_assoc, skipn_app, skipn_all, Nat.sub_diag. reflexivity.
Qed.

(** An unmatched end character at index [p] is reported, as the first error: the user's iterator has
    not been asked for the characters after it. *)
Theorem C43_chars_unmatched a ds p st' : no_combiner_returns abnd (UnbalancedEndChar p) ->
  nexts (start a) (oks ds ++ [Some (inr (UnbalancedEndChar p))]) st' ->
  unasked st' = skipn (N.to_nat (p + 1)) input.
Proof.
  intros NC N. pose proof (start_chars a) as Hs.
  destruct (unmatched_run LW DC ds NC Hs N) as (u & y & rest & ads & ads0 & w' & b & E & _ & Hp & _ & _ & _ & _ & Hr & _).
  assert (Hd : chariter_ahead (ps_strm st') false).
  { eapply (C43_error umax cc (chariter_stream x) co ao bnd chariter_ahead (start a) true); [apply chariter_reads_ahead|left; reflexivity|exact N|exact I]. }
  rewrite (unasked_rest _ _ _ Hr Hd).
  assert (Ep : N.to_nat (p + 1) = length (u ++ [y])).
  { subst p. rewrite (index_of _ _ _ _ _ E), app_length. cbn. lia. }
  rewrite Ep, <- (skipn_enumerate _ 0), E. change (y :: rest) with ([y] ++ rest).
  rewrite app_assoc, skipn_app, skipn_all, Nat.sub_diag. reflexivity.
Qed.

(** A text form has been returned: of the characters after it at most the first, which ends
    it, has been asked for. *)
Theorem C43_chars_text a u ds w1 s t rest os st' : enumerate 0 input = u ++ s ++ rest -> (N_len (u ++ s) <= umax)%N ->
  forms cc abnd false false (view a) u ds w1 false -> s <> [] -> raw cc (delimiter cc) s t ->
  match rest with [] => True | y :: _ => starts cc y end ->
  nexts (start a) os st' -> length os = length ds + 1 ->
  unasked st' = skipn (length (u ++ s)) input \/ unasked st' = skipn (length (u ++ s) + 1) input.
Proof.
  intros E Hl Hf Hn Hr Hst N L. pose proof (start_chars a) as Hs. rewrite E in Hs.
  assert (Hr' : starts_on (chariter_rep input) view st' rest w1).
  { eapply (text_after_forms LW DC); eauto. rewrite app_length in Hl. lia. }
  destruct Hr' as (_ & (? & ? & ? & _ & _ & _ & H & _) & _). unfold pk_items in H.
  assert (K : forall k, skipn (length (u ++ s) + k) input = map it_ch (skipn k rest)).
  { intros k. rewrite <- (skipn_enumerate _ 0), E, app_assoc, skipn_app, skipn_all2 by lia.
    replace (length (u ++ s) + k - length (u ++ s)) with k by lia. reflexivity. }
  pose proof (K 0) as K0. rewrite Nat.add_0_r in K0. rewrite K0, K.
  destruct (pk_peeked _) as [o|]; [right; destruct H as [_ ->]; destruct rest|left; rewrite H]; reflexivity.
Qed.
End Chars.

(** ** An iterator of strings *)
Section Strings.
Context {A TT ET CE W AE AC : Type}.
Context (umax : N) (cc : classifier) (x : text_ops TT posstrish A) (co : concat_ops A TT)
        (ao : alloc_ops A TT ET) (bnd : bindings A TT ET charpos CE).
Local Notation text := (list (item charpos)).
Context (view : A -> W) (abnd : bindings W text AE charpos AC).
Context (strs : list str) (ok : str -> N -> Prop)
        (Hok : forall l1 s l2, strs = l1 ++ s :: l2 -> ok s (N_len (List.concat l1))).
Context (Rt : TT -> text -> Prop) (Rx : ET -> AE -> Prop) (Rc : CE -> AC -> Prop).
Context (LW : lawful False view (strishiter_stream x) co ao bnd abnd (strishiter_rep ok x strs) Rt Rx Rc) (DC : disjoint_classes cc).
Local Notation nexts := (nexts umax cc (strishiter_stream x) co ao bnd).
Local Notation ahead := (strish_ahead ok strs).

Lemma start_strings s0 a : strishiter_new strs = Ok s0 ->
  starts_on (strishiter_rep ok x strs) view (parse_iter_new s0 a) (enumerate 0 (List.concat strs)) (view a).
Proof.
  intros E. destruct (strishiter_new_rep ok x Hok) as (s' & E' & H). rewrite E in E'. injection E' as <-.
  repeat split; auto.
Qed.
(** The strings taken, and the number of characters used. *)
Lemma taken_strings (s : strishiter TT) b rest pend : strishiter_rep ok x strs s rest pend -> ahead s b ->
  exists taken, strs = taken ++ si_iter s /\ enough b taken (N_len (List.concat strs) - N_len rest) /\
    (N_len (List.concat strs) - N_len rest <= N_len (List.concat taken))%N.
Proof.
  intros (pa & _ & H) (taken & E & En & H'). exists taken. split; [exact E|].
  assert (Ec : si_char s = (N_len (List.concat strs) - N_len rest)%N); [|rewrite <- Ec; split; [exact En|]].
  destruct (si_cur s) as [cs|].
  - destruct H as (r1 & p1 & r2 & _ & _ & _ & (l1 & E1 & E2) & ->). rewrite E1, concat_app, !app_length.
    rewrite enumerate_length. rewrite app_length in E2. lia.
  - destruct H as [-> _]. destruct H' as [E1 E2]. rewrite E, E1, app_nil_r. cbn. lia.
  - destruct (si_cur s) as [cs|]; [|lia]. destruct H' as (r1 & p1 & _ & H').
    destruct (si_peeked s); [destruct H' as (_ & r2 & _ & _ & H')|]; lia.
Qed.
Lemma enough_last b taken n : enough b taken n -> taken = [] \/
  exists p l, taken = p ++ [l] /\ if b then (N_len (List.concat p) <= n)%N else (N_len (List.concat p) < n)%N.
Proof.
  intros H. destruct taken as [|y l] using rev_ind; [auto|]. right. exists l, y. split; [reflexivity|].
  unfold enough in H. rewrite removelast_last in H. exact H.
Qed.

(** A nest form [s], after the forms [u], has been returned: the last string [l] taken from the user's
    iterator begins before the end of [s]. *)
Theorem C43_strings s0 a u ds w1 b1 s ad w2 rest os st' : strishiter_new strs = Ok s0 ->
  enumerate 0 (List.concat strs) = u ++ s ++ rest -> (N_len (u ++ s) <= umax)%N ->
  forms cc abnd false false (view a) u ds w1 b1 -> nest cc abnd w1 s (inl (Some ad)) w2 ->
  nexts (parse_iter_new s0 a) os st' -> length os = length ds + 1 ->
  exists p l, strs = p ++ l :: si_iter (ps_strm st') /\ length (List.concat p) < length (u ++ s).
Proof.
  intros E0 E Hl Hf Hn N L. pose proof (start_strings s0 a E0) as Hs. rewrite E in Hs.
  destruct (C43_form umax cc _ _ _ _ _ _ _ _ _ _ LW DC ahead _ true _ _ _ _ _ _ _ _ _ _ _ (strish_reads_ahead ok x Hok)
    (strishiter_new_ahead ok Hok E0 : ahead (ps_strm (parse_iter_new s0 a)) true) Hs Hl Hf Hn N L) as (Hd & _ & Hr & _).
  destruct (taken_strings _ _ _ _ Hr Hd) as (taken & Et & Hen & Hlt).
  assert (Len : length (List.concat strs) = length (u ++ s) + length rest).
  { rewrite <- (enumerate_length 0), E, app_assoc, app_length. reflexivity. }
  destruct (enough_last _ _ _ Hen) as [->|(p & l & -> & Hp)].
  - cbn in Hen, Hlt. lia.
  - exists p, l. rewrite <- app_assoc in Et. split; [exact Et|]. lia.
Qed.

(** An unmatched end character at index [n] is reported, as the first error: no string that begins after it
    has been taken. *)
Theorem C43_strings_unmatched s0 a ds n st' : strishiter_new strs = Ok s0 ->
  no_combiner_returns abnd (UnbalancedEndChar n) ->
  nexts (parse_iter_new s0 a) (oks ds ++ [Some (inr (UnbalancedEndChar n))]) st' ->
  exists p l, strs = p ++ l :: si_iter (ps_strm st') /\ (N_len (List.concat p) <= n)%N.
Proof.
  intros E0 NC N. pose proof (start_strings s0 a E0) as Hs.
  destruct (unmatched_run LW DC ds NC Hs N) as (u & y & rest & ads & ads0 & w' & b & E & _ & Hp & _ & _ & _ & _ & Hr & _).
  assert (Hd : ahead (ps_strm st') false).
  { eapply (C43_error umax cc (strishiter_stream x) co ao bnd ahead (parse_iter_new s0 a) true);
      [exact (strish_reads_ahead ok x Hok)|exact (strishiter_new_ahead ok Hok E0)|exact N|exact I]. }
  destruct (taken_strings _ _ _ _ Hr Hd) as (taken & Et & Hen & Hlt).
  pose proof (index_of _ _ _ _ _ E) as Ei. rewrite N.add_0_l in Ei.
  assert (Len : length (List.concat strs) = length u + 1 + length rest).
  { rewrite <- (enumerate_length 0), E, app_length. cbn. lia. }
  destruct (enough_last _ _ _ Hen) as [->|(p & l & -> & Hl)].
  - cbn in Hen, Hlt. lia.
  - exists p, l. rewrite <- app_assoc in Et. split; [exact Et|]. subst n. rewrite Ei. lia.
Qed.

(** A text form has been returned: no string that begins after the end of the text has been taken. *)
Theorem C43_strings_text s0 a u ds w1 s t rest os st' : strishiter_new strs = Ok s0 ->
  enumerate 0 (List.concat strs) = u ++ s ++ rest -> (N_len (u ++ s) <= umax)%N ->
  forms cc abnd false false (view a) u ds w1 false -> s <> [] -> raw cc (delimiter cc) s t ->
  match rest with [] => True | y :: _ => starts cc y end ->
  nexts (parse_iter_new s0 a) os st' -> length os = length ds + 1 ->
  exists p l, strs = p ++ l :: si_iter (ps_strm st') /\ length (List.concat p) <= length (u ++ s).
Proof.
  intros E0 E Hl Hf Hn Hr Hst N L. pose proof (start_strings s0 a E0) as Hs. rewrite E in Hs.
  assert (Hr' : starts_on (strishiter_rep ok x strs) view st' rest w1).
  { eapply (text_after_forms LW DC); eauto. rewrite app_length in Hl. lia. }
  destruct Hr' as (_ & Hr' & _).
  pose proof (C43_ahead umax cc _ _ _ _ _ _ _ _ _ (strish_reads_ahead ok x Hok) (strishiter_new_ahead ok Hok E0 : ahead (ps_strm (parse_iter_new s0 a)) true) N) as Hd.
  destruct (taken_strings _ _ _ _ Hr' Hd) as (taken & Et & Hen & Hlt).
  assert (Len : length (List.concat strs) = length (u ++ s) + length rest).
  { rewrite <- (enumerate_length 0), E, app_assoc, app_length. reflexivity. }
  assert (0 < length s) by (destruct s; [congruence|cbn; lia]). rewrite app_length in Len.
  destruct (enough_last _ _ _ Hen) as [->|(p & l & -> & Hp)].
  - cbn in Hlt. lia.
  - exists p, l. rewrite <- app_assoc in Et. split; [exact Et|]. rewrite app_length. lia.
Qed.
End Strings.

Print Assumptions C43_ahead.
Print Assumptions C43_error.
Print Assumptions C43_form.
Print Assumptions C43_chars.
Print Assumptions C43_chars_unmatched.
Print Assumptions C43_chars_text.
Print Assumptions C43_strings.
Print Assumptions C43_strings_unmatched.
Print Assumptions C43_strings_text.

(** ** Cases *)
Definition st_key (s : literal) : st_text := tx_from (st_ops (W:=N)) (posstrish_from (lit s)).
Arguments st_key _%lit.
Definition st_map : st_bindings (W:=N) (ET:=N) (CE:=N) := [
  (DText (st_key "q"), Operative (fun _ t w => (inl (Some (DText t)), w)));
  (DText (st_key "l"), Applicative (fun _ l w => (inl (Some l), w)));
  (DText (st_key "rm"), Operative (fun _ _ w => (inl None, w)));
  (DText (st_key "err"), Applicative (fun _ _ w => (inr (FailedCombiner 7), w)));
  (DText (st_key "n"), Applicative (fun _ _ w => (inl (Some (DExtra w)), w + 1)))]%N.
Lemma st_key_items s : text_items (st_ops (W:=N)) (posstrish_rep (fun _ _ => True)) (st_key s) (char_source (lit s)).
Proof.
  rewrite char_source_eq.
  apply (xc_from (tvec_contract (posstrish_contract (fun _ _ => True)) False (fun w : N => w))).
  apply posstrish_new_rep. exact I.
Qed.
Lemma st_map_related : st_related eq eq (fun _ _ => True) st_map ch_map.
Proof.
  unfold st_related, st_map, ch_map. repeat constructor; cbn [fst snd datum_rel];
    try apply st_key_items; unfold combiner_rel; intros; unfold Ra_view in *; subst; cbn; auto.
Qed.

(** A text, a removed form, a form [{q b{c}}], and an unmatched end character. *)
Definition line := lit "a{rm x}{q b{c}}}d".
Definition lsrc := char_source line.
Notation piece i n := (firstn n (skipn i lsrc)).
Notation chr i := (nth i lsrc (Item 0 0)%N).
Lemma line_forms : forms default_classifier (abs_lookup num_eq ch_map) false false 0%N (piece 0 7) [DText (piece 0 1)] 0%N false.
Proof.
  change (piece 0 7) with (piece 0 1 ++ piece 1 6 ++ []). eapply f_text; [discriminate| |].
  { vm_compute. repeat (apply raw_plain; [reflexivity|intros H; discriminate H|]). apply raw_nil. }
  eapply f_removed; [|apply f_nil].
  change (piece 1 6) with (chr 1 :: [] ++ piece 2 2 ++ piece 4 1 ++ piece 5 1 ++ [chr 6]).
  eapply n_operative with (d := DText (piece 2 2)) (t := piece 5 1) (w2 := 0%N) (is_text := true).
  - vm_compute. reflexivity.
  - apply l_nil.
  - apply h_text; [vm_compute; discriminate|]. vm_compute.
    repeat (apply raw_plain; [reflexivity|intros H; discriminate H|]). apply raw_nil.
  - vm_compute. reflexivity.
  - left. exists (chr 4). split; vm_compute; reflexivity.
  - vm_compute. repeat (apply q_plain; [reflexivity|intros H; discriminate H|]). apply q_nil.
  - vm_compute. reflexivity.
  - reflexivity.
Qed.
Lemma line_nest : nest default_classifier (abs_lookup num_eq ch_map) 0%N (piece 7 8) (inl (Some (DText (piece 10 4)))) 0%N.
Proof.
  change (piece 7 8) with (chr 7 :: [] ++ piece 8 1 ++ piece 9 1 ++ piece 10 4 ++ [chr 14]).
  eapply n_operative with (d := DText (piece 8 1)) (t := piece 10 4) (w2 := 0%N) (is_text := true).
  - vm_compute. reflexivity.
  - apply l_nil.
  - apply h_text; [vm_compute; discriminate|]. vm_compute.
    repeat (apply raw_plain; [reflexivity|intros H; discriminate H|]). apply raw_nil.
  - vm_compute. reflexivity.
  - left. exists (chr 9). split; vm_compute; reflexivity.
  - change (piece 10 4) with (chr 10 :: chr 11 :: [chr 12] ++ chr 13 :: []).
    apply q_plain; [reflexivity|intros H; discriminate H|].
    apply q_nest; [vm_compute; reflexivity| |vm_compute; reflexivity|apply q_nil].
    apply q_plain; [reflexivity|intros H; discriminate H|]. apply q_nil.
  - vm_compute. reflexivity.
  - reflexivity.
Qed.

Local Notation cs_next := (iter_next usize_max default_classifier cs_stream (text_concat_ops (st_ops (W:=N))) box_alloc
  (st_lookup num_eq num_hash sum_hasher st_map) 200).
Local Notation st_next := (iter_next usize_max default_classifier st_stream (text_concat_ops (st_ops (W:=N))) box_alloc
  (st_lookup num_eq num_hash sum_hasher st_map) 200).

(** Characters: after the text the [{] that ends it has been asked for; after the form, and after
    the error, nothing more than they consist of. *)
Example C43_chars_case :
  lawful False (fun w => w) cs_stream (text_concat_ops st_ops) box_alloc (st_lookup num_eq num_hash sum_hasher st_map)
    (abs_lookup num_eq ch_map) (chariter_rep line) (text_items (st_ops (W:=N)) (posstrish_rep (fun _ _ => True))) eq eq /\
  enumerate 0 line = piece 0 7 ++ piece 7 8 ++ piece 15 2 /\
  let unasked st := map it_ch (pk_iter (ch_iter (ps_strm st))) in
  let st0 := parse_iter_new (chariter_new line) 0%N in
  let r1 := cs_next st0 in let r2 := cs_next (snd r1) in let r3 := cs_next (snd r2) in
  (exists d, fst r1 = Ok (Some (inl d))) /\ unasked (snd r1) = lit "rm x}{q b{c}}}d" /\
  (exists d, fst r2 = Ok (Some (inl d))) /\ unasked (snd r2) = lit "}d" /\
  fst r3 = Ok (Some (inr (UnbalancedEndChar 15%N))) /\ unasked (snd r3) = lit "d".
Proof.
  split; [apply (cs_lawful num_eq num_hash sum_hasher num_eq); auto using num_eq_hash, st_map_related; congruence|].
  split; [vm_compute; reflexivity|]. cbv zeta.
  split; [eexists; vm_compute; reflexivity|]. split; [vm_compute; reflexivity|].
  split; [eexists; vm_compute; reflexivity|]. split; [vm_compute; reflexivity|].
  split; vm_compute; reflexivity.
Qed.

(** Strings, cut right after the form, and one of them empty. *)
Definition lines : list str := [lit "a{rm x}{q "; []; lit "b{c}}"; []; lit "}"; lit "d"].
Example C43_strings_case :
  lawful False (fun w => w) st_stream (text_concat_ops st_ops) box_alloc (st_lookup num_eq num_hash sum_hasher st_map)
    (abs_lookup num_eq ch_map) (strishiter_rep (fun _ _ => True) (st_ops (W:=N)) lines) (text_items (st_ops (W:=N)) (posstrish_rep (fun _ _ => True))) eq eq /\
  List.concat lines = line /\
  exists s0, strishiter_new lines = Ok s0 /\
  let st0 := parse_iter_new s0 0%N in
  let r1 := st_next st0 in let r2 := st_next (snd r1) in let r3 := st_next (snd r2) in let r4 := st_next (snd r3) in
  (exists d, fst r1 = Ok (Some (inl d))) /\ si_iter (ps_strm (snd r1)) = skipn 1 lines /\
  (exists d, fst r2 = Ok (Some (inl d))) /\ si_iter (ps_strm (snd r2)) = [[]; lit "}"; lit "d"] /\
  fst r3 = Ok (Some (inr (UnbalancedEndChar 15%N))) /\ si_iter (ps_strm (snd r3)) = [lit "d"] /\
  (exists d, fst r4 = Ok (Some (inl d))) /\ si_iter (ps_strm (snd r4)) = [].
Proof.
  split; [apply (st_lawful num_eq num_hash sum_hasher num_eq); auto using num_eq_hash, st_map_related; congruence|].
  split; [vm_compute; reflexivity|]. eexists. split; [vm_compute; reflexivity|]. cbv zeta.
  split; [eexists; vm_compute; reflexivity|]. split; [vm_compute; reflexivity|].
  split; [eexists; vm_compute; reflexivity|]. split; [vm_compute; reflexivity|].
  split; [vm_compute; reflexivity|]. split; [vm_compute; reflexivity|].
  split; [eexists; vm_compute; reflexivity|]. vm_compute; reflexivity.
Qed.
