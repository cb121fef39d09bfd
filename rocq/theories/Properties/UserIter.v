(** C48: sources that are arbitrary iterators, also endless ones. *)
From Coq Require Import List NArith Arith Lia.
From Verif.Model Require Import Prelude Parser Iter Utf8 Chunk TextIter PosStr PosStrish
  TextVec CharIter StrishIter Alloc DefaultClassifier TextMethods DatumMethods Bindings Premade UserIter.
From Verif.Spec Require Import Contract ChunkContract Grammar Run Lawful Outcome UserIter.
From Verif.Proofs Require Import Sim Refine ChunkFacts TextFacts Instances PremadeFacts ClassifierFacts UserIterFacts UserIterForms.
From Verif.Properties Require Import ReadAhead.
From Verif.Tests Require Import Str Cases AbsCases.
Import ListNotations.
Local Notation N_len r := (N.of_nat (length r)).
Local Notation oks ds := (map (fun d => Some (inl d)) ds).

Section UserIter.
Context {TT A ET CE : Type} (umax : N) (cc : classifier) (x : text_ops TT posstrish A)
        (co : concat_ops A TT) (ao : alloc_ops A TT ET) (bnd : bindings A TT ET charpos CE).
Local Notation chars_next step := (nexts umax cc (uchars_stream x step) co ao bnd).
Local Notation strs_next step lf := (nexts umax cc (ustrs_stream x step lf) co ao bnd).
Local Notation start s a := (PState s 0%N a).

(** ** Iterators of characters *)

(** What calls of the parser's [next] return is determined by what the user's iterator
    has returned to the [n] calls made of it so far: every iterator that returns the
    same to its first [n] calls gives the same datums, errors and state. *)
Theorem C48_chars_any I1 (step1 : I1 -> option char * I1) i1 a os st' : chars_next step1 (start (uchars_new i1) a) os st' ->
  exists n, fst (uk_iter (uc_iter (ps_strm st'))) = after step1 n i1 /\ forall I2 (step2 : I2 -> option char * I2) i2,
    agree_upto step1 step2 n i1 i2 ->
    exists s', chars_next step2 (start (uchars_new i2) a) os (PState s' (ps_depth st') (ps_alloc st')) /\
      fst (uk_iter (uc_iter s')) = after step2 n i2.
Proof. apply chars_nexts. Qed.

(** In particular every finite source that begins with what has been returned so far
    (and ends if the iterator has ended) gives the same. *)
Theorem C48_chars_finite I1 (step1 : I1 -> option char * I1) i1 a os st' : chars_next step1 (start (uchars_new i1) a) os st' ->
  exists n, fst (uk_iter (uc_iter (ps_strm st'))) = after step1 n i1 /\ forall l : list char,
    (forall k, k < n -> result step1 i1 k = nth_error l k) ->
    exists s', nexts umax cc (chariter_stream x) co ao bnd (start (chariter_new l) a) os (PState s' (ps_depth st') (ps_alloc st')).
Proof.
  intros N. destruct (chars_nexts N) as (n & HA & HB). exists n. split; [exact HA|]. intros l H. apply chars_list.
  destruct (HB _ list_step l) as (s' & N' & _); [intros k Hk; rewrite list_result; exact (H k Hk)|eauto].
Qed.

(** And what has been shown of finite sources holds of every iterator that begins with
    what the parser has taken from them. *)
Theorem C48_chars_from l a os d' a' s' : nexts umax cc (chariter_stream x) co ao bnd (start (chariter_new l) a) os (PState s' d' a') ->
  exists n, length (pk_iter (ch_iter s')) = length l - n /\ forall I2 (step2 : I2 -> option char * I2) i2,
    (forall k, k < n -> result step2 i2 k = nth_error l k) ->
    exists s2, chars_next step2 (start (uchars_new i2) a) os (PState s2 d' a') /\ fst (uk_iter (uc_iter s2)) = after step2 n i2.
Proof. apply chars_from. Qed.

(** Once [next] has returned [None] it always will, and the iterator is not asked again, also
    if it would return more. *)
Theorem C48_chars_ended I1 (step1 : I1 -> option char * I1) i1 a os st' : chars_next step1 (start (uchars_new i1) a) (os ++ [None]) st' ->
  forall fuel, iter_next umax cc (uchars_stream x step1) co ao bnd (S fuel) st' = (Ok None, st').
Proof.
  intros N fuel. destruct (nexts_end (st:=start (uchars_new i1) a) _ eq_refl N) as (D & s & E). apply end_again; [exact D|].
  destruct s as [[it pk] ac], (ps_strm st') as [[it' pk'] ac']. cbn in *. unfold uchars_peek, uk_peek in *. cbn in *.
  destruct pk as [o|]; [injection E as -> <- <- <-; reflexivity|]. destruct (uenum_next step1 it) as [o i']. injection E as -> <- <- <-. reflexivity.
Qed.

(** ** Iterators of strings *)
Theorem C48_strings_any I1 (step1 : I1 -> option str * I1) lf i1 s1 a os st' : ustrs_new step1 lf i1 = Ok s1 -> strs_next step1 lf (start s1 a) os st' ->
  exists n, us_iter (ps_strm st') = after step1 n i1 /\ forall I2 (step2 : I2 -> option str * I2) lf2 i2,
    agree_upto step1 step2 n i1 i2 -> lf <= lf2 ->
    exists s2 s', ustrs_new step2 lf2 i2 = Ok s2 /\ strs_next step2 lf2 (start s2 a) os (PState s' (ps_depth st') (ps_alloc st')) /\
      us_iter s' = after step2 n i2.
Proof. apply strs_nexts. Qed.

Theorem C48_strings_finite I1 (step1 : I1 -> option str * I1) lf i1 s1 a os st' : ustrs_new step1 lf i1 = Ok s1 -> strs_next step1 lf (start s1 a) os st' ->
  exists n, us_iter (ps_strm st') = after step1 n i1 /\ forall l : list str,
    (forall k, k < n -> result step1 i1 k = nth_error l k) ->
    exists s s', strishiter_new l = Ok s /\ nexts umax cc (strishiter_stream x) co ao bnd (start s a) os (PState s' (ps_depth st') (ps_alloc st')).
Proof.
  intros E N. destruct (strs_nexts _ E N) as (n & HA & HB). exists n. split; [exact HA|]. intros l H.
  apply (strs_list umax cc x co ao bnd _ _ _ _ _ _ (Nat.le_max_r lf (3 + length l))).
  destruct (HB _ list_step (Nat.max lf (3 + length l)) l) as (s2 & s' & E2 & N' & _); [|apply Nat.le_max_l|eauto].
  intros k Hk. rewrite list_result. exact (H k Hk).
Qed.

Theorem C48_strings_from l s a os d' a' s' : strishiter_new l = Ok s -> nexts umax cc (strishiter_stream x) co ao bnd (start s a) os (PState s' d' a') ->
  forall lf, 3 + length l <= lf -> exists n, length (si_iter s') = length l - n /\ forall I2 (step2 : I2 -> option str * I2) i2,
    (forall k, k < n -> result step2 i2 k = nth_error l k) ->
    exists s1 s2, ustrs_new step2 lf i2 = Ok s1 /\ strs_next step2 lf (start s1 a) os (PState s2 d' a') /\ us_iter s2 = after step2 n i2.
Proof. apply strs_from. Qed.
End UserIter.

(** ** Forms of sources that go on without end *)
Section Forms.
Context {A TT ET CE W AE AC : Type}.
Context (umax : N) (cc : classifier) (x : text_ops TT posstrish A) (co : concat_ops A TT)
        (ao : alloc_ops A TT ET) (bnd : bindings A TT ET charpos CE).
Local Notation text := (list (item charpos)).
Context (view : A -> W) (abnd : bindings W text AE charpos AC).
Context (Rt : TT -> text -> Prop) (Rx : ET -> AE -> Prop) (Rc : CE -> AC -> Prop) (DC : disjoint_classes cc).
Local Notation start s a := (PState s 0%N a).
Local Notation Rd := (datum_rel Rt Rx).

Lemma Forall2_len {X Y} (R : X -> Y -> Prop) l1 l2 : Forall2 R l1 l2 -> length l1 = length l2.
Proof. induction 1; cbn; auto. Qed.

(** An iterator of characters first returns [input], which consists of forms [u] and a nest
    form [s], and then goes on in any way: the datums of [u] and the datum of [s] are
    returned, and nothing after [s] has been asked for. *)
Theorem C48_chars_forms input I (step : I -> option char * I) i a u ads w1 b s ad w2 :
  (forall c, lawful False view (chariter_stream x) co ao bnd abnd (chariter_rep (input ++ [c])) Rt Rx Rc) ->
  enumerate 0 input = u ++ s -> (N_len input <= umax)%N ->
  forms cc abnd false false (view a) u ads w1 b -> nest cc abnd w1 s (inl (Some ad)) w2 ->
  (forall k, k < length input -> result step i k = nth_error input k) ->
  exists ds st', nexts umax cc (uchars_stream x step) co ao bnd (start (uchars_new i) a) (oks ds) st' /\
    Forall2 Rd ds (ads ++ [ad]) /\ view (ps_alloc st') = w2 /\ fst (uk_iter (uc_iter (ps_strm st'))) = after step (length input) i.
Proof.
  intros LW E Hl Hf Hn HI. specialize (LW 0%N).
  assert (EL : length (u ++ s) = length input) by (rewrite <- E; apply enum_length).
  set (rest := enumerate (0 + N_len input) [0%N]).
  assert (E' : enumerate 0 (input ++ [0%N]) = u ++ s ++ rest) by (rewrite app_assoc, <- E; apply enumerate_app).
  assert (Hs : starts_on (chariter_rep (input ++ [0%N])) view (start (chariter_new (input ++ [0%N])) a) (u ++ s ++ rest) (view a)).
  { rewrite <- E'. repeat split; auto. apply chariter_new_rep. }
  assert (Hu : (N_len (u ++ s) <= umax)%N) by (rewrite EL; exact Hl).
  destruct (forms_nest_run (umax:=umax) LW DC _ Hs Hu Hf Hn) as (ds & st' & N & Hd & (D' & Hr & V')).
  assert (L : length (oks ds : list (option (datum TT ET + error charpos CE))) = length ads + 1) by (rewrite map_length, (Forall2_len _ _ _ Hd), app_length; reflexivity).
  pose proof (C43_chars umax cc x co ao bnd view abnd _ Rt Rx Rc LW DC a _ _ _ _ _ _ _ _ _ _ E' Hu Hf Hn N L) as EP.
  destruct st' as [s' d' a']. cbn [ps_strm ps_depth ps_alloc] in *. destruct (C48_chars_from _ _ _ _ _ _ _ _ _ _ _ _ N) as (n & HN & HF).
  assert (n = length input).
  { rewrite EL, skipn_app, skipn_all, Nat.sub_diag in EP. cbn in EP. apply (f_equal (@length _)) in EP. rewrite map_length, HN, app_length in EP. cbn in EP. lia. }
  subst n. destruct (HF _ step i) as (s2 & N2 & E2). { intros k Hk. rewrite nth_error_app1 by exact Hk. apply HI. exact Hk. }
  exists ds, (PState s2 d' a'). auto.
Qed.

(** An iterator of strings first returns [strs], in which there are forms [u] and then a nest form
    [s], and goes on in any way: the datums are returned and no string after [strs] has been asked
    for. *)
Theorem C48_strings_forms strs I (step : I -> option str * I) i a u ads w1 b s ad w2 rest lf :
  lawful False view (strishiter_stream x) co ao bnd abnd (strishiter_rep (fun _ _ => True) x (strs ++ [[]])) Rt Rx Rc ->
  enumerate 0 (List.concat strs) = u ++ s ++ rest -> (N_len (u ++ s) <= umax)%N ->
  forms cc abnd false false (view a) u ads w1 b -> nest cc abnd w1 s (inl (Some ad)) w2 ->
  (forall k, k < length strs -> result step i k = nth_error strs k) -> 4 + length strs <= lf ->
  exists s0 ds st' n, ustrs_new step lf i = Ok s0 /\ nexts umax cc (ustrs_stream x step lf) co ao bnd (start s0 a) (oks ds) st' /\
    Forall2 Rd ds (ads ++ [ad]) /\ view (ps_alloc st') = w2 /\ us_iter (ps_strm st') = after step n i /\ n <= length strs.
Proof.
  intros LW E Hu Hf Hn HI HL. set (ok := fun (_ : str) (_ : N) => True) in *.
  assert (Hok : forall l1 s l2, strs ++ [[]] = l1 ++ s :: l2 -> ok s (N_len (List.concat l1))) by (intros; exact Logic.I).
  assert (EC : List.concat (strs ++ [[]]) = List.concat strs) by (rewrite concat_app; cbn; apply app_nil_r).
  rewrite <- EC in E. destruct (strishiter_new_rep ok x Hok) as (s0 & E0 & HR). rewrite E in HR.
  assert (Hs : starts_on (strishiter_rep ok x (strs ++ [[]])) view (start s0 a) (u ++ s ++ rest) (view a)) by (repeat split; auto).
  destruct (forms_nest_run (umax:=umax) LW DC _ Hs Hu Hf Hn) as (ds & st' & N & Hd & (D' & Hr & V')).
  assert (L : length (oks ds : list (option (datum TT ET + error charpos CE))) = length ads + 1) by (rewrite map_length, (Forall2_len _ _ _ Hd), app_length; reflexivity).
  destruct (C43_strings umax cc x co ao bnd view abnd _ ok Hok Rt Rx Rc LW DC s0 a _ _ _ _ _ _ _ _ _ _ E0 E Hu Hf Hn N L) as (p & l & EP & HP).
  destruct st' as [s' d' a']. cbn [ps_strm ps_depth ps_alloc] in *.
  assert (HL' : 3 + length (strs ++ [[]]) <= lf) by (rewrite app_length; cbn; lia).
  destruct (C48_strings_from _ _ _ _ _ _ _ _ _ _ _ _ _ E0 N lf HL') as (n & HN & HF).
  assert (Hn' : n <= length strs).
  { destruct (le_lt_dec n (length strs)) as [|Hlt]; [assumption|exfalso].
    assert (E1 : si_iter s' = []) by (apply length_zero_iff_nil; rewrite HN, app_length; cbn; lia).
    rewrite E1 in EP. apply app_inj_tail in EP. destruct EP as [EP _]. subst p.
    apply (f_equal (@length _)) in E. rewrite enum_length, EC, !app_length in E. rewrite app_length in HP. lia. }
  destruct (HF _ step i) as (s1 & s2 & E1 & N2 & E2). { intros k Hk. rewrite nth_error_app1 by lia. apply HI. lia. }
  exists s1, ds, (PState s2 d' a'), n. auto 10.
Qed.
End Forms.
Print Assumptions C48_chars_any.
Print Assumptions C48_chars_finite.
Print Assumptions C48_chars_from.
Print Assumptions C48_chars_ended.
Print Assumptions C48_strings_any.
Print Assumptions C48_strings_finite.
Print Assumptions C48_strings_from.
Print Assumptions C48_chars_forms.
Print Assumptions C48_strings_forms.

(** ** Cases *)
Local Notation u_stream step := (uchars_stream (st_ops (W:=N)) step).
Local Notation u_next step := (iter_next usize_max default_classifier (u_stream step) (text_concat_ops (st_ops (W:=N))) box_alloc
  (st_lookup num_eq num_hash sum_hasher st_map) 200).
Local Notation v_stream step lf := (ustrs_stream (st_ops (W:=N)) step lf).
Local Notation v_next step lf := (iter_next usize_max default_classifier (v_stream step lf) (text_concat_ops (st_ops (W:=N))) box_alloc
  (st_lookup num_eq num_hash sum_hasher st_map) 200).
Local Notation u_nexts step := (nexts usize_max default_classifier (u_stream step) (text_concat_ops (st_ops (W:=N))) box_alloc
  (st_lookup num_eq num_hash sum_hasher st_map)).
Local Notation v_nexts step lf := (nexts usize_max default_classifier (v_stream step lf) (text_concat_ops (st_ops (W:=N))) box_alloc
  (st_lookup num_eq num_hash sum_hasher st_map)).

(** The forms [a{rm x}] and [{q b{c}}], again and again without end. *)
Definition cycle_input := firstn 15 line.
Definition cycle (k : nat) : option char * nat := (Some (nth (k mod 15) cycle_input 0%N), S k).
Example C48_chars_forms_case :
  (forall c, lawful False (fun w => w) cs_stream (text_concat_ops st_ops) box_alloc (st_lookup num_eq num_hash sum_hasher st_map)
    (abs_lookup num_eq ch_map) (chariter_rep (cycle_input ++ [c])) (text_items (st_ops (W:=N)) (posstrish_rep (fun _ _ => True))) eq eq) /\
  enumerate 0 cycle_input = piece 0 7 ++ piece 7 8 /\ (N_len cycle_input <= usize_max)%N /\
  forms default_classifier (abs_lookup num_eq ch_map) false false 0%N (piece 0 7) [DText (piece 0 1)] 0%N false /\
  nest default_classifier (abs_lookup num_eq ch_map) 0%N (piece 7 8) (inl (Some (DText (piece 10 4)))) 0%N /\
  (forall k, k < length cycle_input -> result cycle 0 k = nth_error cycle_input k) /\
  (forall i, exists c, fst (cycle i) = Some c) /\
  exists ds st', u_nexts cycle (PState (uchars_new 0) 0%N 0%N) (oks ds) st' /\ length ds = 2 /\ fst (uk_iter (uc_iter (ps_strm st'))) = 15.
Proof.
  split; [intros c; apply (cs_lawful num_eq num_hash sum_hasher num_eq); auto using num_eq_hash, st_map_related; congruence|].
  split; [vm_compute; reflexivity|]. split; [vm_compute; discriminate|]. split; [exact line_forms|]. split; [exact line_nest|].
  split. { intros k Hk. change (length cycle_input) with 15 in Hk. do 15 (destruct k as [|k]; [reflexivity|]). lia. }
  split; [intros i; eexists; reflexivity|].
  eexists [_; _], _. split; [do 2 (eapply nexts_cons with (fuel := 200); [vm_compute; reflexivity|]); constructor|]. split; reflexivity.
Qed.

(** Runs of the two theorems about arbitrary and finite iterators: the same calls on the endless
    iterator and on the list of the first fifteen characters and another one. *)
Example C48_chars_case : exists os st' l,
  u_nexts cycle (PState (uchars_new 0) 0%N 0%N) os st' /\ length os = 2 /\
  (forall k, k < 15 -> result cycle 0 k = nth_error l k) /\ length l = 16 /\
  exists s', nexts usize_max default_classifier cs_stream (text_concat_ops (st_ops (W:=N))) box_alloc (st_lookup num_eq num_hash sum_hasher st_map)
    (PState (chariter_new l) 0%N 0%N) os (PState s' (ps_depth st') (ps_alloc st')).
Proof.
  eexists [_; _], _, (cycle_input ++ lit "}"). split; [do 2 (eapply nexts_cons with (fuel := 200); [vm_compute; reflexivity|]); constructor|].
  split; [reflexivity|]. split; [intros k Hk; do 15 (destruct k as [|k]; [reflexivity|]); lia|]. split; [reflexivity|].
  eexists. do 2 (eapply nexts_cons with (fuel := 200); [vm_compute; reflexivity|]). constructor.
Qed.

(** Strings, followed by empty strings without end. *)
Definition some_lines : list str := [lit "a{rm x}{q "; []; lit "b{c}}}"].
Definition then_empty (k : nat) : option str * nat := (Some (nth k some_lines []), S k).
Example C48_strings_forms_case :
  lawful False (fun w => w) st_stream (text_concat_ops st_ops) box_alloc (st_lookup num_eq num_hash sum_hasher st_map)
    (abs_lookup num_eq ch_map) (strishiter_rep (fun _ _ => True) (st_ops (W:=N)) (some_lines ++ [[]])) (text_items (st_ops (W:=N)) (posstrish_rep (fun _ _ => True))) eq eq /\
  enumerate 0 (List.concat some_lines) = piece 0 7 ++ piece 7 8 ++ piece 15 1 /\
  (forall k, k < length some_lines -> result then_empty 0 k = nth_error some_lines k) /\
  exists s0 ds st', ustrs_new then_empty 7 0 = Ok s0 /\ v_nexts then_empty 7 (PState s0 0%N 0%N) (oks ds) st' /\ length ds = 2 /\ us_iter (ps_strm st') = 3.
Proof.
  split; [apply (st_lawful num_eq num_hash sum_hasher num_eq); auto using num_eq_hash, st_map_related; congruence|].
  split; [vm_compute; reflexivity|]. split; [intros k Hk; change (length some_lines) with 3 in Hk; do 3 (destruct k as [|k]; [reflexivity|]); lia|].
  eexists _, [_; _], _. split; [vm_compute; reflexivity|]. split; [do 2 (eapply nexts_cons with (fuel := 200); [vm_compute; reflexivity|]); constructor|]. split; reflexivity.
Qed.
(** The call after the one that reports the unmatched end does not return, however long its loops are
    let run: here for 7 and for 70 steps. *)
Example C48_strings_endless :
  let run lf := match ustrs_new then_empty lf 0 with
    | Ok s0 => let st := snd (v_next then_empty lf (snd (v_next then_empty lf (PState s0 0%N 0%N)))) in
               Some (fst (v_next then_empty lf st), fst (v_next then_empty lf (snd (v_next then_empty lf st))))
    | _ => None
    end in
  run 7 = Some (Ok (Some (inr (UnbalancedEndChar 15%N))), OutOfFuel) /\ run 70 = Some (Ok (Some (inr (UnbalancedEndChar 15%N))), OutOfFuel).
Proof. split; vm_compute; reflexivity. Qed.

(** An iterator that returns [None] and then goes on: [a] and an escape, [None], and [b], and [None].  The
    parser asks again after the escape, and the text is [ab]. *)
Definition not_fused (k : nat) : option char * nat := (nth k [Some 97%N; Some 92%N; None; Some 98%N] None, S k).
Example C48_not_fused : exists st', u_nexts not_fused (PState (uchars_new 0) 0%N 0%N)
  [Some (inl (DText (Multi [posstrish_new (lit "a") 0%N; posstrish_new (lit "b") 2%N]))); None] st'.
Proof. eexists. do 2 (eapply nexts_cons with (fuel := 200); [vm_compute; reflexivity|]). constructor. Qed.
(** An iterator of characters that has more after the [None] at which [next] returned [None]. *)
Definition more_later (k : nat) : option char * nat := (nth k [Some 97%N; None; Some 98%N] None, S k).
Example C48_chars_ended_case : exists t st', u_nexts more_later (PState (uchars_new 0) 0%N 0%N) ([Some (inl (DText t))] ++ [None]) st' /\
  fst (uk_iter (uc_iter (ps_strm st'))) = 2 /\ fst (more_later 2) = Some 98%N.
Proof. eexists _, _. split; [do 2 (eapply nexts_cons with (fuel := 200); [vm_compute; reflexivity|]); constructor|]. split; reflexivity. Qed.

(** With an iterator of strings it is different: after [None] there can be datums. *)
Definition later_strings (k : nat) : option str * nat := (nth k [Some (lit "{a}"); None; Some (lit "b")] None, S k).
Theorem C48_strings_ended_refuted : exists I (step : I -> option str * I) i lf s0 d t st',
  ustrs_new step lf i = Ok s0 /\ v_nexts step lf (PState s0 0%N 0%N) [Some (inl d); None; Some (inl (DText t)); None] st'.
Proof.
  exists nat, later_strings, 0, 9. eexists _, _, _, _. split; [vm_compute; reflexivity|].
  do 4 (eapply nexts_cons with (fuel := 200); [vm_compute; reflexivity|]). constructor.
Qed.
Print Assumptions C48_strings_ended_refuted.
