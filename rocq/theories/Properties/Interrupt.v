(** C61: panics of the user's iterator, inside the source stream, that the caller catches. *)
From Coq Require Import List NArith Arith Lia.
From Verif.Model Require Import Prelude Parser Iter Utf8 Chunk TextIter PosStrish
  TextVec CharIter StrishIter PanicIter Alloc DefaultClassifier TextMethods DatumMethods Bindings Premade.
From Verif.Spec Require Import Contract ChunkContract AbsStream Grammar Lawful Interrupt.
From Verif.Proofs Require Import Sim Refine AbsParse AllocFacts Compose ClassifierFacts ChunkFacts TextFacts PremadeFacts
  PanicIterFacts InterruptFacts.
From Verif.Properties Require Import ReadAhead.
From Verif.Tests Require Import Str AbsCases.
Import ListNotations.
Local Notation N_len r := (N.of_nat (length r)).

(** Any parser whose stream panics now and then and is lawful otherwise; from any state, also one that panics before
    have left. *)
Section Calls.
Context {S A TT ET Pos CE W AE AC : Type}.
Context (umax : N) (cc : classifier) (so : stream_ops S A TT Pos) (co : concat_ops A TT)
        (ao : alloc_ops A TT ET) (bnd : bindings A TT ET Pos CE).
Local Notation text := (list (item Pos)).
Context (view : A -> W) (abnd : bindings W text AE Pos AC).
Context (Rs : S -> list (option (item Pos)) -> text -> Prop) (Rt : TT -> text -> Prop)
        (Rx : ET -> AE -> Prop) (Rc : CE -> AC -> Prop).
Context (PL : panic_lawful view so co ao bnd abnd Rs Rt Rx Rc) (DC : disjoint_classes cc).
Local Notation i_next := (iter_next umax cc so co ao bnd).
Local Notation a_next := (iter_next umax cc abs_stream abs_concat abs_alloc abnd).

(** A call that panics has read up to the panic and no further: nothing is skipped and nothing is read again
    by the calls after it.  The nest forms that it was inside of stay open, the combiners of the complete
    forms before have been called, and what was read of a text since its last escape character stays
    accumulated. *)
Theorem C61_panic fuel st st' evs p0 : Rs (ps_strm st) evs p0 -> (ps_depth st + N_len evs <= umax)%N ->
  i_next fuel st = (Panic, st') ->
  exists s rest n p, evs = map Some s ++ None :: rest /\ Rs (ps_strm st') rest p /\
    ps_depth st' = (ps_depth st + N.of_nat n)%N /\
    cut cc abnd p0 n (view (ps_alloc st)) s (view (ps_alloc st')) p.
Proof. intros. eapply calls_panic; eauto. Qed.

(** In particular, without panics in the source no call panics. *)
Theorem C61_no_panic fuel st s p0 : Rs (ps_strm st) (map Some s) p0 -> (ps_depth st + N_len s <= umax)%N ->
  fst (i_next fuel st) <> Panic.
Proof.
  intros H Hu E. destruct (i_next fuel st) as [r st'] eqn:En. cbn in E. subst r.
  destruct (C61_panic _ _ _ _ _ H ltac:(rewrite map_length; exact Hu) En) as (u & rest & n & p & E & _).
  assert (I : In None (map (@Some (item Pos)) s)) by (rewrite E; apply in_or_app; right; left; reflexivity).
  apply in_map_iff in I. destruct I as (x & I & _). discriminate.
Qed.

(** A call that returns gives what a parser over the source without panics gives there at the same depth, with what
    earlier panics have left accumulated before its text; no panic has been used up, and the source and the
    combiners' state are where that parser's are. *)
Theorem C61_return fuel st st' evs p0 o : Rs (ps_strm st) evs p0 -> i_next fuel st = (Ok o, st') ->
  exists u evs' p p' oa w, evs = map Some u ++ evs' /\ Rs (ps_strm st') evs' p /\
    a_next fuel (PState (values evs, []) (ps_depth st) (view (ps_alloc st))) =
      (Ok oa, PState (values evs', p') (ps_depth st') w) /\
    view (ps_alloc st') = w /\ option_rel (pitem_rel Rt Rx eq Rc) o (resumed cc p0 (values evs) oa) /\
    (p = p' \/ u = [] /\ p = p0 /\ p' = []).
Proof. intros. eapply calls_return; eauto. Qed.

(** Every call returns or panics. *)
Theorem C61_ends fuel st evs p0 : Rs (ps_strm st) evs p0 -> 3 * length (values evs) + 3 <= fuel ->
  (ps_depth st + N_len (values evs) <= umax)%N -> fst (i_next fuel st) <> OutOfFuel.
Proof. intros. eapply calls_fuel; eauto. Qed.

(** A panic at the start of a call does no harm: the call panics, and the next one starts as this one would have
    without it. *)
Theorem C61_harmless fuel st evs p0 : Rs (ps_strm st) (None :: evs) p0 -> 0 < fuel ->
  exists st', i_next fuel st = (Panic, st') /\ Rs (ps_strm st') evs p0 /\
    ps_depth st' = ps_depth st /\ ps_alloc st' = ps_alloc st.
Proof.
  intros H Hf. destruct fuel as [|fuel]; [lia|]. destruct (pc_peek (pl_stream PL) _ _ _ H) as (s' & E & H').
  exists (PState s' (ps_depth st) (ps_alloc st)). split; [|auto].
  unfold iter_next, do_next. cbn [parse_next is_operator_mode]. unfold bind at 1, ret at 1, bind at 1, peek at 1.
  rewrite E. reflexivity.
Qed.
End Calls.
Print Assumptions C61_panic.
Print Assumptions C61_no_panic.
Print Assumptions C61_return.
Print Assumptions C61_ends.
Print Assumptions C61_harmless.

(** The two streams over iterators of the user, with the parser of the crate that uses them. *)
Section Streams.
Context {W ET CE AE AC : Type} (ET_eq : ET -> ET -> bool) (ET_hash : ET -> list hash_word)
        (hasher : list hash_word -> N) (AE_eq : AE -> AE -> bool).
Context (Rx : ET -> AE -> Prop) (Rc : CE -> AC -> Prop).
Context (XH : forall a b, ET_eq a b = true -> ET_hash a = ET_hash b)
        (HX : forall x1 x2 y1 y2, Rx x1 x2 -> Rx y1 y2 -> ET_eq x1 y1 = AE_eq x2 y2).
(** Which whole strings chunks come from, and the position of their begin. *)
Context (ok : str -> N -> Prop).
Local Notation Rt := (text_items (st_ops (W:=W)) (posstrish_rep ok)).

Theorem C61_chars m am evs : st_related Rx Rc ok m am ->
  (forall pre v post, values evs = pre ++ v ++ post -> ok v (N_len pre)) ->
  exists Rs, panic_lawful (fun w : W => w) (pchars_stream st_ops) (text_concat_ops st_ops) box_alloc
      (st_lookup ET_eq ET_hash hasher m) (abs_lookup AE_eq am) Rs Rt Rx Rc /\
    Rs (pchars_new evs) (numbered 0 evs) [].
Proof.
  intros H Hok. pose proof (tvec_contract (posstrish_contract ok) False (fun w : W => w)) as XC.
  exists (pchars_rep (values evs)). split; [split|].
  - exact (pchars_contract XC Hok).
  - apply XC.
  - apply box_alloc_contract.
  - reflexivity.
  - apply st_bindings_sim; auto.
  - apply pchars_new_rep.
Qed.

Theorem C61_strings m am evs s : st_related Rx Rc ok m am ->
  (forall l1 v l2, values evs = l1 ++ v :: l2 -> ok v (N_len (List.concat l1))) ->
  pstrs_new evs = Ok s ->
  exists Rs, panic_lawful (fun w : W => w) (pstrs_stream st_ops) (text_concat_ops st_ops) box_alloc
      (st_lookup ET_eq ET_hash hasher m) (abs_lookup AE_eq am) Rs Rt Rx Rc /\
    Rs s (pieces 0 evs) [].
Proof.
  intros H Hok E. pose proof (tvec_contract (posstrish_contract ok) False (fun w : W => w)) as XC.
  exists (pstrs_rep ok (st_ops (W:=W)) (values evs)). split; [split|].
  - exact (pstrs_contract XC Hok).
  - apply XC.
  - apply box_alloc_contract.
  - reflexivity.
  - apply st_bindings_sim; auto.
  - exact (pstrs_new_rep _ _ _ Hok E).
Qed.
End Streams.
Print Assumptions C61_chars.
Print Assumptions C61_strings.

(** What comes from the two kinds of iterators, panics left out, are the characters, numbered. *)
Theorem C61_values_chars evs : values (numbered 0 evs) = enumerate 0 (values evs).
Proof. apply values_numbered. Qed.
Theorem C61_values_strings evs : values (pieces 0 evs) = enumerate 0 (List.concat (values evs)).
Proof. apply values_pieces. Qed.
Print Assumptions C61_values_chars.
Print Assumptions C61_values_strings.

(** ** Cases *)
(** A [!] is a panic. *)
Definition evs_of (s : literal) : list (option char) := map (fun c => if (c =? 33)%N then None else Some c) (lit s).
Arguments evs_of _%lit.
Section Show.
Context {S : Type} (so : stream_ops S N (st_text) charpos).
Definition st_chars (t : st_text) : list char :=
  match titer_new posstrish_ops (st_ops (W:=N)) t with
  | Ok s => match titer_collect posstrish_ops 1000 s with Ok l => map it_ch l | _ => [] end
  | _ => []
  end.
Fixpoint st_datum_show (d : datum st_text N) : datum (list char) N :=
  match d with
  | DText t => DText (st_chars t)
  | DComb a b => DComb (st_datum_show a) (st_datum_show b)
  | DEmptyNest => DEmptyNest
  | DList a b => DList (st_datum_show a) (st_datum_show b)
  | DEmptyList => DEmptyList
  | DExtra x => DExtra x
  end.
(** [n] calls of [next], [None] for one that panics. *)
Fixpoint caught_calls (n : nat) (st : pstate S N) : list (option (option (datum (list char) N + error charpos N))) :=
  match n with
  | 0 => []
  | Datatypes.S n =>
      match iter_next usize_max default_classifier so (text_concat_ops st_ops) box_alloc
              (st_lookup num_eq num_hash sum_hasher st_map) 200 st with
      | (Ok o, st') => Some (option_map (fun x => match x with inl d => inl (st_datum_show d) | inr e => inr e end) o)
                       :: caught_calls n st'
      | (_, st') => None :: caught_calls n st'
      end
  end.
End Show.
Definition pch_calls (n : nat) (s : literal) := caught_calls (pchars_stream st_ops) n (parse_iter_new (pchars_new (evs_of s)) 0%N).
Arguments pch_calls _ _%lit.
Definition pst_calls (n : nat) (l : list (option (list char))) :=
  match pstrs_new (TT:=st_text) l with Ok s => caught_calls (pstrs_stream st_ops) n (parse_iter_new s 0%N) | _ => [] end.

(** As if there were no panics: between forms, and in a text. *)
Definition ok_text (s : literal) : option (option (datum (list char) N + error charpos N)) := Some (Some (inl (DText (lit s)))).
Arguments ok_text _%lit.
Local Notation over := (Some None) (only parsing).
Example C61_case_harmless :
  pch_calls 5 "a{q x}!b" = [ok_text "a"; ok_text "x"; None; ok_text "b"; over] /\
  pch_calls 4 "a!b!c{q x}" = [None; None; ok_text "abc"; ok_text "x"] /\
  pst_calls 5 [Some (lit "a"); None; Some []; Some (lit "b"); None; Some (lit "c{q"); Some (lit " x}")] =
    [None; None; ok_text "abc"; ok_text "x"; over].
Proof. repeat split; vm_compute; reflexivity. Qed.

(** And where it does harm.  A text that was read completely, at the end of the source or where a nest form is next, is
    lost; so is what is before an escape character; the escape character itself is forgotten, so that the character
    after it counts; and inside a nest form the rest of it is given as if it were outside, but as something that
    needs an end character more than there is. *)
Example C61_case_lost :
  pch_calls 3 "a!" = [None; over; over] /\ pch_calls 3 "a!{q x}" = [None; ok_text "x"; over].
Proof. repeat split; vm_compute; reflexivity. Qed.
Example C61_case_escape :
  pch_calls 3 "a\b!c" = [None; ok_text "bc"; over] /\ pch_calls 3 "a\!{q x}" = [None; ok_text "x"; over].
Proof. repeat split; vm_compute; reflexivity. Qed.
Example C61_case_nest :
  pch_calls 5 "{q a!b}c" = [None; ok_text "ab"; over; over; over] /\
  pch_calls 4 "{q a!b" = [None; ok_text "ab"; Some (Some (inr MissingEndChar)); Some (Some (inr MissingEndChar))].
Proof. repeat split; vm_compute; reflexivity. Qed.

(** So it is false that a caller that catches the panics and calls again gets the items that the source without
    panics has. *)
Theorem C61_transparent_refuted : exists evs n,
  let calls n evs := caught_calls (pchars_stream st_ops) n (parse_iter_new (pchars_new evs) 0%N) in
  values (calls n evs) <> firstn (length (values (calls n evs))) (values (calls n (map Some (values evs)))).
Proof. exists (evs_of "a!{q x}"), 3. vm_compute. discriminate. Qed.
Print Assumptions C61_transparent_refuted.

(** A call that panics inside two nest forms, after a form that is removed; and the call after it. *)
Definition twice := "{rm y}{l b {q c\d!e}}f"%lit.
Local Notation twice_src := (values (numbered 0 (evs_of twice))).
Local Notation tw i := (nth i twice_src (Item 0%N 0%N)).
Local Notation i_next := (iter_next usize_max default_classifier (pchars_stream st_ops) (text_concat_ops (st_ops (W:=N)))
  box_alloc (st_lookup num_eq num_hash sum_hasher st_map)).
Local Notation a_bnd := (abs_lookup num_eq ch_map).

Lemma twice_cut : cut default_classifier a_bnd [] 2 0%N (firstn 17 twice_src) 0%N [tw 16].
Proof.
  assert (P : forall stop i, stop (it_ch (tw i)) = false -> is_nest_escape default_classifier (it_ch (tw i)) = false ->
    forall s t, raw default_classifier stop s t -> raw default_classifier stop (tw i :: s) (tw i :: t)).
  { intros stop i H1 H2 s t Hr. apply raw_plain; auto. unfold escapes. congruence. }
  exists (tw 0 :: [] ++ [tw 1; tw 2] ++ [tw 3] ++ [tw 4] ++ [tw 5]),
    (tw 6 :: [] ++ [tw 7] ++ [tw 8] ++ [tw 9; tw 10] ++ (tw 11 :: [] ++ [tw 12] ++ [tw 13] ++ [tw 14; tw 15; tw 16])), 0%N.
  split; [vm_compute; reflexivity|]. split.
  - rewrite <- (app_nil_r (tw 0 :: _)). eapply f_removed; [|apply f_nil].
    eapply n_operative with (d := DText [tw 1; tw 2]) (t := [tw 4]) (w2 := 0%N) (is_text := true).
    + vm_compute. reflexivity.
    + apply l_nil.
    + apply h_text; [discriminate|]. do 2 (apply P; try reflexivity). apply raw_nil.
    + vm_compute. reflexivity.
    + left. exists (tw 3). split; vm_compute; reflexivity.
    + eapply q_plain; [vm_compute; reflexivity|intros H; discriminate H|apply q_nil].
    + vm_compute. reflexivity.
    + reflexivity.
  - right. eapply cn_operand with (d := DText [tw 7]) (is_text := true) (ds := [DText [tw 9; tw 10]]) (w1 := 0%N) (w2 := 0%N).
    + vm_compute. reflexivity.
    + apply l_nil.
    + apply h_text; [discriminate|]. apply P; try reflexivity. apply raw_nil.
    + vm_compute. exact I.
    + left. exists (tw 8). split; vm_compute; reflexivity.
    + change [tw 9; tw 10] with ([tw 9; tw 10] ++ []). eapply f_text; [discriminate| |apply f_nil].
      do 2 (apply P; try reflexivity). apply raw_nil.
    + eapply cn_operative with (d := DText [tw 12]) (is_text := true).
      * vm_compute. reflexivity.
      * apply l_nil.
      * apply h_text; [discriminate|]. apply P; try reflexivity. apply raw_nil.
      * vm_compute. reflexivity.
      * left. exists (tw 13). split; vm_compute; reflexivity.
      * apply co_plain; [vm_compute; reflexivity|intros H; discriminate H|].
        apply co_escaped; [vm_compute; reflexivity|]. apply co_nil.
      * discriminate.
Qed.

Example C61_case_calls : exists Rs,
  panic_lawful (fun w : N => w) (pchars_stream st_ops) (text_concat_ops st_ops) box_alloc
    (st_lookup num_eq num_hash sum_hasher st_map) a_bnd Rs
    (text_items (st_ops (W:=N)) (posstrish_rep (fun _ _ => True))) eq eq /\
  let st := parse_iter_new (pchars_new (evs_of twice)) 0%N in
  Rs (ps_strm st) (numbered 0 (evs_of twice)) [] /\ (ps_depth st + N_len (numbered 0 (evs_of twice)) <= usize_max)%N /\
  exists st', i_next 200 st = (Panic, st') /\ ps_depth st' = 2%N /\
    (exists p, Rs (ps_strm st') (map Some (skipn 17 twice_src)) p /\
       cut default_classifier a_bnd [] 2 0%N (firstn 17 twice_src) (ps_alloc st') p) /\
  exists t st2, i_next 200 st' = (Ok (Some (inl (DText t))), st2) /\ ps_depth st2 = 2%N /\ st_chars t = lit "de".
Proof.
  assert (Hok : forall pre v post : list char, values (evs_of twice) = pre ++ v ++ post -> True) by auto.
  destruct (C61_chars num_eq num_hash sum_hasher num_eq eq eq num_eq_hash ltac:(congruence) (fun _ _ => True) st_map
    ch_map (evs_of twice) st_map_related Hok) as (Rs & PL & H).
  exists Rs. split; [exact PL|]. cbv zeta. split; [exact H|]. assert (Hu : (ps_depth (parse_iter_new (S:=pchars) (A:=N) (pchars_new (evs_of twice)) 0%N) + N_len (numbered 0 (evs_of twice)) <= usize_max)%N)
    by (vm_compute; discriminate).
  split; [exact Hu|].
  destruct (i_next 200 (parse_iter_new (pchars_new (evs_of twice)) 0%N)) as [r st'] eqn:E1.
  assert (V : r = Panic /\ ps_depth st' = 2%N /\
    match i_next 200 st' with
    | (Ok (Some (inl (DText t))), st2) => ps_depth st2 = 2%N /\ st_chars t = lit "de"
    | _ => False
    end).
  { pose (x := i_next 200 (parse_iter_new (pchars_new (evs_of twice)) 0%N)).
    assert (X : fst x = Panic /\ ps_depth (snd x) = 2%N /\
      match i_next 200 (snd x) with
      | (Ok (Some (inl (DText t))), st2) => ps_depth st2 = 2%N /\ st_chars t = lit "de"
      | _ => False
      end) by (vm_compute; auto).
    unfold x in X. rewrite E1 in X. exact X. }
  destruct V as (-> & D & V). exists st'. split; [reflexivity|]. split; [exact D|].
  pose proof (C61_panic usize_max _ _ _ _ _ _ _ _ _ _ _ PL default_disjoint 200
    (parse_iter_new (pchars_new (evs_of twice)) 0%N) st' _ _ H) as K.
  specialize (K Hu E1). clear Hu. destruct K as (s & rest & n & p & E & R & Dn & C).
  clear E1. split.
  - exists p. assert (E' : s = firstn 17 twice_src /\ rest = map Some (skipn 17 twice_src)).
    { clear - E. change (numbered 0 (evs_of twice)) with (map Some (firstn 17 twice_src) ++ None :: map Some (skipn 17 twice_src)) in E.
      revert E. generalize (skipn 17 twice_src). generalize (firstn 17 twice_src). clear.
      intros l1 l2 E. revert s E. induction l1 as [|a l1 IH]; intros [|b s] E; cbn in E; try discriminate.
      - injection E as <-. auto.
      - injection E as -> E. destruct (IH _ E) as (-> & ->). auto. }
    destruct E' as (-> & ->). split; [exact R|].
    assert (n = 2) as -> by (rewrite D in Dn; cbn [parse_iter_new ps_depth] in Dn; lia). exact C.
  - destruct (i_next 200 st') as [[[[[t| | | | |]|]|]| | |] st2]; try contradiction.
    exists t, st2. split; [reflexivity|exact V].
Qed.
