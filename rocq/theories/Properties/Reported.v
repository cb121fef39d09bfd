(** Collaborators of the parser that panic instead of reporting a failed allocation, such as the converter of a
    stream of characters: C69. *)
From Coq Require Import List NArith Bool Lia.
From Verif.Model Require Import Prelude Parser Iter Utf8 Chunk PosStrish CharIter CharConvert TextVec Premade DefaultClassifier Alloc.
From Verif.Spec Require Import Contract ChunkContract Convert Reported TextWork.
From Verif.Proofs Require Import TextFacts ChunkFacts Instances AllocFacts ConvertFacts ReportedFacts ReportedDepth ConvertPanics.
From Verif.Tests Require Import Str.
Import ListNotations.

Section Any.
Context {S A TT ET Pos CE : Type}.
Context (umax : N) (cc : classifier) (so : stream_ops S A TT Pos) (co : concat_ops A TT)
        (ao : alloc_ops A TT ET) (bnd : bindings A TT ET Pos CE).
Local Notation so2 := (reporting_stream so).
Local Notation co2 := (reporting_concat co).
Local Notation ao2 := (reporting_alloc ao).

(** For all collaborators: a call of [next] does what it does with the same ones if they reported failed allocations where
    they panic.  Where that one returns the error, this one panics, and it leaves the source and the allocator as
    that one does, but a depth that is that of nest forms not closed; all calls that return restore the depth. *)
Theorem C69_next fuel st :
  match iter_next umax cc so co ao bnd fuel st, iter_next umax cc so2 co2 ao2 bnd fuel st with
  | (Ok o, st1), (Ok o2, st2) => o = o2 /\ st1 = st2 /\ ps_depth st1 = ps_depth st
  | (Panic, st1), (Ok o2, st2) => o2 = Some (inr (FailedAlloc AllocExhausted)) /\
      st2 = PState (ps_strm st1) (ps_depth st) (ps_alloc st1) /\ (ps_depth st <= ps_depth st1)%N
  | (Panic, st1), (Panic, st2) => st1 = st2 /\ (ps_depth st <= ps_depth st1)%N
  | (OutOfFuel, st1), (OutOfFuel, st2) => st1 = st2
  | _, _ => False
  end.
Proof.
  pose proof (same_iter_next umax cc so co ao bnd (fun _ => True) (fun _ => True) (fun _ => True) (fun _ _ => I) (fun _ _ => I)
    (fun _ _ _ => conj I (fun _ => I)) (fun _ _ _ => conj I (conj (fun _ => I) (fun _ _ => I))) I
    (fun _ _ _ _ _ => conj (fun _ _ _ => I) (fun _ _ => I)) (fun _ _ _ _ _ => I) fuel st I) as [_ H].
  destruct (iter_next umax cc so co ao bnd fuel st) as [[o|[]| |] st1], (iter_next umax cc so2 co2 ao2 bnd fuel st) as [[o2|[]| |] st2]; tauto.
Qed.

(** So when the caller catches panics that happen outside of all nest forms, it gets what it would get from the ones that
    report, with a panic for each such error, in any number of calls. *)
Theorem C69_outside st rs st' : caught_outside umax cc so co ao bnd st rs st' ->
  exists rs2, caught_calls umax cc so2 co2 ao2 bnd st rs2 st' /\
    Forall2 (fun r r2 => r = r2 \/ r = None /\ r2 = Some (Some (inr (FailedAlloc AllocExhausted)))) rs rs2.
Proof.
  induction 1 as [st|fuel st o st1 rs st2 E H (rs2 & IH & F)|fuel st st1 rs st2 E Hd H (rs2 & IH & F)].
  - exists []. split; constructor.
  - pose proof (C69_next fuel st) as G. rewrite E in G.
    destruct (iter_next umax cc so2 co2 ao2 bnd fuel st) as [[o2|[]| |] st2'] eqn:E2; try contradiction. destruct G as (<- & <- & _).
    exists (Some o :: rs2). split; [econstructor; eauto|constructor; auto].
  - pose proof (C69_next fuel st) as G. rewrite E in G.
    destruct (iter_next umax cc so2 co2 ao2 bnd fuel st) as [[o2|[]| |] st2'] eqn:E2; try contradiction.
    + destruct G as (-> & -> & _). rewrite <- Hd in E2. destruct st1 as [s1 d1 a1].
      exists (Some (Some (inr (FailedAlloc AllocExhausted))) :: rs2). split; [econstructor; [exact E2|exact IH]|constructor; auto].
    + destruct G as (<- & _). exists (None :: rs2). split; [eapply cc_panics; eauto|constructor; auto].
Qed.

(** A panic while a text is read that is not in a nest form leaves the depth as it was. *)
Theorem C69_text fuel st it s st1 : s_peek so (ps_strm st) = (Ok (Some it), s) -> is_nest_start cc (it_ch it) = false ->
  iter_next umax cc so co ao bnd fuel st = (Panic, st1) -> ps_depth st1 = ps_depth st.
Proof. apply text_panics. Qed.

(** One while a nest form is read leaves it greater, if no combiner removes nest forms, after which a text could have been read
    by the same call. *)
Theorem C69_inside fuel st it s st1 :
  (forall d, match bnd d with
   | Some (Operative f) => forall t a, fst (f d t a) <> inl None
   | Some (Applicative f) => forall t a, fst (f d t a) <> inl None
   | None => True
   end) ->
  s_peek so (ps_strm st) = (Ok (Some it), s) -> is_nest_start cc (it_ch it) = true -> (ps_depth st < umax)%N ->
  iter_next umax cc so co ao bnd fuel st = (Panic, st1) -> (ps_depth st < ps_depth st1)%N.
Proof. intros HB. apply nest_panics. exact HB. Qed.

(** Then, when the end of that form is reached between its parts, [next] says that the iteration is over, and again each
    time, without reading it. *)
Theorem C69_end fuel st it s : (0 < ps_depth st)%N -> s_peek so (ps_strm st) = (Ok (Some it), s) -> s_peek so s = (Ok (Some it), s) ->
  is_nest_start cc (it_ch it) = false -> is_nest_end cc (it_ch it) = true ->
  iter_next umax cc so co ao bnd (Datatypes.S fuel) st = (Ok None, PState s (ps_depth st) (ps_alloc st)).
Proof. apply raised_end. Qed.
End Any.
Print Assumptions C69_next.
Print Assumptions C69_outside.
Print Assumptions C69_end.
Print Assumptions C69_text.
Print Assumptions C69_inside.

(** If they obey their contracts apart from the panics, then nothing else panics: each call returns, and leaves the depth as it was,
    or panics where the ones that report return the error; and either way what is left of the source is the end of what was, with nothing accumulated if it
    is not all of it. *)
Section Obeying.
Context {S A TT ET Pos CE W : Type}.
Context (umax : N) (cc : classifier) (so : stream_ops S A TT Pos) (co : concat_ops A TT)
        (ao : alloc_ops A TT ET) (bnd : bindings A TT ET Pos CE).
Context (Rs : S -> list (item Pos) -> list (item Pos) -> Prop) (Rt : TT -> list (item Pos) -> Prop) (view : A -> W).
Local Notation so2 := (reporting_stream so).
Local Notation co2 := (reporting_concat co).
Local Notation ao2 := (reporting_alloc ao).
Context (SC : stream_contract True view so2 Rs Rt) (TC : concat_contract True view co2 Rt) (AC : alloc_contract True view ao2).

Theorem C69_only st r p fuel : Rs (ps_strm st) r p -> p = [] \/ r = [] -> (ps_depth st + N.of_nat (length r) <= umax)%N ->
  3 * length r + 3 <= fuel ->
  exists st1, ((exists o, iter_next umax cc so co ao bnd fuel st = (Ok o, st1) /\ ps_depth st1 = ps_depth st) \/
      (iter_next umax cc so co ao bnd fuel st = (Panic, st1) /\
       exists st2, iter_next umax cc so2 co2 ao2 bnd fuel st = (Ok (Some (inr (FailedAlloc AllocExhausted))), st2))) /\
    exists u r' p', r = u ++ r' /\ Rs (ps_strm st1) r' p' /\ (p' = [] \/ r' = []).
Proof.
  intros H Hp Hu Hf. destruct (next_at_depth cc bnd SC TC AC _ H Hp Hu) as (o & st2 & _ & E & r' & p' & H' & (u & Hs) & Hp').
  specialize (E fuel Hf). pose proof (C69_next umax cc so co ao bnd fuel st) as G. rewrite E in G.
  destruct (iter_next umax cc so co ao bnd fuel st) as [[o1|[]| |] st1] eqn:E1; try contradiction.
  - destruct G as (-> & -> & D). exists st2. split; [left; eauto|]. exists u, r', p'. auto.
  - destruct G as (-> & -> & D). exists st1. split; [right; eauto|]. exists u, r', p'. auto.
Qed.

(** Whatever the fuel, a call that panics is one in which the ones that report return the error. *)
Theorem C69_panic_reported st r p fuel st1 : Rs (ps_strm st) r p -> p = [] \/ r = [] -> (ps_depth st + N.of_nat (length r) <= umax)%N ->
  iter_next umax cc so co ao bnd fuel st = (Panic, st1) ->
  iter_next umax cc so2 co2 ao2 bnd fuel st =
    (Ok (Some (inr (FailedAlloc AllocExhausted))), PState (ps_strm st1) (ps_depth st) (ps_alloc st1)).
Proof.
  intros H Hp Hu E. destruct (next_at_depth cc bnd SC TC AC _ H Hp Hu) as (o & st2 & E2 & _). specialize (E2 fuel).
  pose proof (C69_next umax cc so co ao bnd fuel st) as G. rewrite E in G.
  destruct (iter_next umax cc so2 co2 ao2 bnd fuel st) as [[o2|[]| |] st2'] eqn:E'; try contradiction.
  - destruct G as (-> & -> & _). reflexivity.
  - discriminate (E2 ltac:(discriminate)).
Qed.

(** A panic raises the depth by no more than the number of characters that the call has read. *)
Theorem C69_raised st r p fuel st1 : Rs (ps_strm st) r p -> iter_next umax cc so co ao bnd fuel st = (Panic, st1) ->
  exists r1 p1, Rs (ps_strm st1) r1 p1 /\ (ps_depth st1 + N.of_nat (length r1) <= ps_depth st + N.of_nat (length r))%N.
Proof. apply (panic_bound umax cc co ao bnd SC). Qed.

(** So it holds after any number of calls with panics caught, wherever they were, that a call returns and leaves the depth as it was, or panics
    where the ones that report return the error; the depth never overflows.  What is left of the source is its end. *)
Context (HL : forall s r p r' p', Rs s r p -> Rs s r' p' -> r = r').
Theorem C69_history st r p rs st' : caught_calls umax cc so co ao bnd st rs st' ->
  Rs (ps_strm st) r p -> p = [] \/ r = [] -> (ps_depth st + N.of_nat (length r) <= umax)%N ->
  exists u r' p', r = u ++ r' /\ Rs (ps_strm st') r' p' /\ (p' = [] \/ r' = []) /\ (ps_depth st' + N.of_nat (length r') <= ps_depth st + N.of_nat (length r))%N /\
    forall fuel, 3 * length r' + 3 <= fuel ->
      exists st1, (exists o, iter_next umax cc so co ao bnd fuel st' = (Ok o, st1) /\ ps_depth st1 = ps_depth st') \/
        (iter_next umax cc so co ao bnd fuel st' = (Panic, st1) /\
         exists st2, iter_next umax cc so2 co2 ao2 bnd fuel st' = (Ok (Some (inr (FailedAlloc AllocExhausted))), st2)).
Proof.
  intros H. revert r p.
  assert (G : forall r p, Rs (ps_strm st) r p -> p = [] \/ r = [] -> (ps_depth st + N.of_nat (length r) <= umax)%N ->
    exists u r' p', r = u ++ r' /\ Rs (ps_strm st') r' p' /\ (p' = [] \/ r' = []) /\ (ps_depth st' + N.of_nat (length r') <= ps_depth st + N.of_nat (length r))%N).
  { induction H as [st|fuel st o st1 rs st2 E H IH|fuel st st1 rs st2 E H IH]; intros r p HR Hp Hu.
    - exists [], r, p. split; [reflexivity|]. split; [exact HR|]. split; [exact Hp|lia].
    - destruct (next_at_depth cc bnd SC TC AC _ HR Hp Hu) as (o2 & st2' & E2 & _ & r' & p' & H' & (u & Hs) & Hp'). specialize (E2 fuel).
      pose proof (C69_next umax cc so co ao bnd fuel st) as G. rewrite E in G.
      destruct (iter_next umax cc so2 co2 ao2 bnd fuel st) as [[o3|[]| |] st3] eqn:E3; try contradiction. destruct G as (_ & <- & Hd).
      specialize (E2 ltac:(discriminate)). injection E2 as -> <-. subst r. rewrite app_length in Hu |- *.
      destruct (IH r' p' H' Hp' ltac:(rewrite Hd; lia)) as (u2 & r2 & p2 & -> & H2 & Hp2 & Hb). rewrite app_length in *.
      exists (u ++ u2), r2, p2. split; [apply app_assoc|]. split; [exact H2|]. split; [exact Hp2|]. rewrite Hd in Hb. lia.
    - pose proof (C69_panic_reported _ _ _ _ _ HR Hp Hu E) as E2. destruct (C69_raised _ _ _ fuel _ HR E) as (r1 & p1 & H1 & Hb).
      destruct (next_at_depth cc bnd SC TC AC _ HR Hp Hu) as (o2 & st2' & E3 & _ & r' & p' & H' & (u & Hs) & Hp'). specialize (E3 fuel).
      rewrite E2 in E3. specialize (E3 ltac:(discriminate)). injection E3 as _ <-. cbn [ps_strm] in H'. pose proof (HL _ _ _ _ _ H1 H') as ->. subst r.
      destruct (IH r' p' H' Hp' ltac:(lia)) as (u2 & r2 & p2 & -> & H2 & Hp2 & Hb2).
      exists (u ++ u2), r2, p2. split; [apply app_assoc|]. split; [exact H2|]. split; [exact Hp2|]. lia. }
  intros r p HR Hp Hu. destruct (G r p HR Hp Hu) as (u & r' & p' & -> & H' & Hp' & Hb). exists u, r', p'. split; [reflexivity|]. split; [exact H'|]. split; [exact Hp'|]. split; [exact Hb|].
  intros fuel Hf. destruct (C69_only _ _ _ fuel H' Hp' ltac:(lia) Hf) as (st1 & D & _). exists st1. exact D.
Qed.
End Obeying.
Print Assumptions C69_only.
Print Assumptions C69_panic_reported.
Print Assumptions C69_raised.
Print Assumptions C69_history.

(** A converter of [CharIterSourceStream] that panics, with any bindings, and texts and allocators that do not. *)
Section Converter.
Context {TT ET CE A K W : Type} (view : A -> W) (x : text_ops TT posstrish A) (conv : str -> K -> option str * K).
Context (umax : N) (cc : classifier) (ao : alloc_ops A TT ET) (bnd : bindings A TT ET charpos CE).
Local Notation so := (panicking_stream x (noting_panics conv)).
Local Notation co := (text_concat_ops x).
Context (XC : text_contract False view x posstrish_any) (HA : forall d a, fst (a_new_datum ao d a) <> Panic).

Lemma kept_next input fuel st : noted_parts input (ps_strm st) ->
  noted_parts input (ps_strm (snd (iter_next umax cc so co ao bnd fuel st))) /\
  (forall st1 o st2, iter_next umax cc so co ao bnd fuel st = (Panic, st1) ->
    iter_next umax cc (reporting_stream so) (reporting_concat co) (reporting_alloc ao) bnd fuel st = (Ok o, st2) ->
    left_by conv input (ps_strm st1)).
Proof.
  intros HI.
  pose proof (same_iter_next umax cc so co ao bnd (noted_parts input) (left_by conv input) (fun t => some_text x t []) (@keeps_peek _ _ _ x conv input) (@keeps_next _ _ _ x conv input)
    (@keeps_next_accum _ _ _ x conv input) (fun s a HI => conj (proj1 (@keeps_accum_done _ _ _ x conv input s a HI)) (conj (proj2 (@keeps_accum_done _ _ _ x conv input s a HI)) (done_some conv XC a HI)))
    (tc_empty (some_concat XC)) (concat_some conv input XC) (fun _ _ _ H => match HA _ _ H with end)
    fuel st HI) as [H1 H2].
  split; [exact H1|]. intros st1 o st2 E1 E2. rewrite E1, E2 in H2. apply H2.
Qed.
Lemma kept_calls input st rs st' : caught_calls umax cc so co ao bnd st rs st' -> noted_parts input (ps_strm st) -> noted_parts input (ps_strm st').
Proof.
  induction 1 as [st|fuel st o st1 rs st2 E H IH|fuel st st1 rs st2 E H IH]; intros HI; [exact HI| |];
    apply IH; pose proof (proj1 (kept_next _ fuel _ HI)) as G; rewrite E in G; exact G.
Qed.

(** Whatever has panicked, it is given non-empty parts of the source, apart from each other, in order. *)
Theorem C69_given input k a rs st : caught_calls umax cc so co ao bnd (parse_iter_new (converting_new input (k, [])) a) rs st ->
  exists read rest, input = read ++ rest /\ parts_of (snd (cv_kept (ps_strm st))) read /\
    unread (cv_chars (ps_strm st)) = enumerate (N.of_nat (length read)) rest.
Proof.
  intros H. destruct (kept_calls input _ _ _ H (noted_new input k)) as (pre & pv & rv & E & Hi & _ & Hp).
  exists (pre ++ pv), rv. split; [rewrite E, app_assoc; reflexivity|]. split; [apply parts_app; exact Hp|exact (pk_unread _ _ Hi)].
Qed.

(** A call in which it panics has read up to the end of what it was given, of which nothing stays in the stream: the calls after it
    go on there. *)
Theorem C69_panics input k a rs st fuel st1 o st2 :
  caught_calls umax cc so co ao bnd (parse_iter_new (converting_new input (k, [])) a) rs st ->
  iter_next umax cc so co ao bnd fuel st = (Panic, st1) ->
  iter_next umax cc (reporting_stream so) (reporting_concat co) (reporting_alloc ao) bnd fuel st = (Ok o, st2) ->
  exists before v rest l k, input = before ++ v ++ rest /\ v <> [] /\ snd (cv_kept (ps_strm st1)) = l ++ [v] /\ parts_of l before /\
    conv v k = (None, fst (cv_kept (ps_strm st1))) /\ ch_accum (cv_chars (ps_strm st1)) = None /\
    unread (cv_chars (ps_strm st1)) = enumerate (N.of_nat (length (before ++ v))) rest.
Proof. intros H E1 E2. exact (proj2 (kept_next _ fuel _ (kept_calls input _ _ _ H (noted_new input k))) _ _ _ E1 E2). Qed.
End Converter.
Print Assumptions C69_given.
Print Assumptions C69_panics.

(** It obeys the contracts of [C69_only]. *)
Theorem C69_converter {TT A K W} (view : A -> W) (x : text_ops TT posstrish A) (conv : str -> K -> option str * K) input :
  text_contract False view x posstrish_any ->
  exists Rs Rt, stream_contract True view (reporting_stream (panicking_stream x (noting_panics conv))) Rs Rt /\
    concat_contract True view (reporting_concat (text_concat_ops x)) Rt /\
    (forall k, Rs (converting_new input (k, [])) (enumerate 0 input) []) /\
    (forall s r p, Rs s r p -> unread (cv_chars s) = r).
Proof.
  intros XC. do 2 eexists. split; [apply (panicking_contract (view:=view) conv input XC)|]. split; [apply (some_concat XC)|]. split.
  - intros k. apply chariter_new_rep.
  - cbn. intros s r p (pre & pv & rv & _ & -> & _ & Hi & _). exact (pk_unread _ _ Hi).
Qed.
Print Assumptions C69_converter.

(** So after any number of calls with panics of the converter caught, a call returns or panics where one with a converter
    that reports returns the error, and the depth is at most the number of characters read. *)
Theorem C69_converter_history {TT ET CE A K W} (view : A -> W) (x : text_ops TT posstrish A) (conv : str -> K -> option str * K)
    umax cc (ao : alloc_ops A TT ET) (bnd : bindings A TT ET charpos CE) input k a rs st :
  text_contract False view x posstrish_any -> alloc_contract True view (reporting_alloc ao) -> (N.of_nat (length input) <= umax)%N ->
  caught_calls umax cc (panicking_stream x (noting_panics conv)) (text_concat_ops x) ao bnd (parse_iter_new (converting_new input (k, [])) a) rs st ->
  (ps_depth st + N.of_nat (length (unread (cv_chars (ps_strm st)))) <= N.of_nat (length input))%N /\
  forall fuel, 3 * length (unread (cv_chars (ps_strm st))) + 3 <= fuel ->
    exists st1, (exists o, iter_next umax cc (panicking_stream x (noting_panics conv)) (text_concat_ops x) ao bnd fuel st = (Ok o, st1) /\ ps_depth st1 = ps_depth st) \/
      (iter_next umax cc (panicking_stream x (noting_panics conv)) (text_concat_ops x) ao bnd fuel st = (Panic, st1) /\
       exists st2, iter_next umax cc (reporting_stream (panicking_stream x (noting_panics conv))) (reporting_concat (text_concat_ops x)) (reporting_alloc ao) bnd fuel st =
         (Ok (Some (inr (FailedAlloc AllocExhausted))), st2)).
Proof.
  intros XC AC Hu H. destruct (C69_converter view x conv input XC) as (Rs & Rt & SC & TC & H0 & HR).
  assert (HE : length (enumerate 0 input) = length input) by apply enumerate_length.
  destruct (C69_history umax cc _ _ ao bnd Rs Rt view SC TC AC (fun s r p r' p' H1 H2 => eq_trans (eq_sym (HR s r p H1)) (HR s r' p' H2))
    _ (enumerate 0 input) [] rs st H (H0 k) (or_introl eq_refl) ltac:(cbn; rewrite HE; lia)) as (u & r' & p' & _ & H' & _ & Hb & G).
  rewrite (HR _ _ _ H'). split; [cbn in Hb; rewrite HE in Hb; exact Hb|exact G].
Qed.
Print Assumptions C69_converter_history.

(** And a call that panics, after any such calls, is one in which the converter panicked, as in [C69_panics], if the allocator does not. *)
Theorem C69_converter_panics {TT ET CE A K W} (view : A -> W) (x : text_ops TT posstrish A) (conv : str -> K -> option str * K)
    umax cc (ao : alloc_ops A TT ET) (bnd : bindings A TT ET charpos CE) input k a rs st fuel st1 :
  text_contract False view x posstrish_any -> alloc_contract True view (reporting_alloc ao) -> (forall d a, fst (a_new_datum ao d a) <> Panic) ->
  (N.of_nat (length input) <= umax)%N ->
  caught_calls umax cc (panicking_stream x (noting_panics conv)) (text_concat_ops x) ao bnd (parse_iter_new (converting_new input (k, [])) a) rs st ->
  iter_next umax cc (panicking_stream x (noting_panics conv)) (text_concat_ops x) ao bnd fuel st = (Panic, st1) ->
  exists before v rest l k, input = before ++ v ++ rest /\ v <> [] /\ snd (cv_kept (ps_strm st1)) = l ++ [v] /\ parts_of l before /\
    conv v k = (None, fst (cv_kept (ps_strm st1))) /\ ch_accum (cv_chars (ps_strm st1)) = None /\
    unread (cv_chars (ps_strm st1)) = enumerate (N.of_nat (length (before ++ v))) rest.
Proof.
  intros XC AC HA Hu H E. destruct (C69_converter view x conv input XC) as (Rs & Rt & SC & TC & H0 & HR).
  assert (HE : length (enumerate 0 input) = length input) by apply enumerate_length.
  destruct (C69_history umax cc _ _ ao bnd Rs Rt view SC TC AC (fun s r p r' p' H1 H2 => eq_trans (eq_sym (HR s r p H1)) (HR s r' p' H2))
    _ (enumerate 0 input) [] rs st H (H0 k) (or_introl eq_refl) ltac:(cbn; rewrite HE; lia)) as (u & r' & p' & _ & H' & Hp & Hb & _).
  cbn in Hb. rewrite HE in Hb.
  pose proof (C69_panic_reported umax cc _ _ ao bnd Rs Rt view SC TC AC st r' p' fuel st1 H' Hp ltac:(lia) E) as E2.
  exact (C69_panics view x conv umax cc ao bnd XC HA input k a rs st fuel st1 _ _ H E E2).
Qed.
Print Assumptions C69_converter_panics.

(** * Cases *)

(** A converter that panics on strings with a [!] and counts its calls. *)
Definition picky (s : str) (k : nat) : option str * nat := (if existsb (N.eqb 33) s then None else Some s, S k).
Notation picky_so := (panicking_stream (tvec_ops (A:=nat) posstrish_ops) (noting_panics picky)).
Notation vec_co := (text_concat_ops (tvec_ops (A:=nat) posstrish_ops)).
Definition picky_next (f : nat) := iter_next (ET:=nat) (CE:=nat) usize_max default_classifier picky_so vec_co box_alloc (fun _ => None) f.
Definition picky_start (input : str) : pstate (converting (nat * list str)) nat := parse_iter_new (converting_new input (0, [])) 0.
Fixpoint picky_calls (f n : nat) st :=
  match n with
  | O => ([], st)
  | S n => match picky_next f st with
           | (Ok o, st1) => let (l, st') := picky_calls f n st1 in (Some o :: l, st')
           | (_, st1) => let (l, st') := picky_calls f n st1 in (None :: l, st')
           end
  end.
Definition strings (r : option (option (datum (tvec posstrish) nat + error charpos nat))) :=
  match r with
  | None => None
  | Some None => Some None
  | Some (Some (inr e)) => Some (Some (inr e))
  | Some (Some (inl d)) => Some (Some (inl (map (fun t => map chunk_chars (tvec_slice t)) (texts_in d))))
  end.
(** Outside of nest forms only that part of a text is lost: of [b!\{c], the part before the escape. *)
Definition outside_run := picky_calls 100 6 (picky_start (lit "{f x}b!\{c{y}")).
Example C69_case_outside : (map strings (fst outside_run), ps_depth (snd outside_run), snd (cv_kept (ps_strm (snd outside_run)))) =
  ([Some (Some (inl [[lit "f"]; [lit "x"]])); None; Some (Some (inl [[lit "{c"]])); Some (Some (inl [[lit "y"]])); Some None; Some None], 0%N,
   [lit "f"; lit "x"; lit "b!"; lit "{c"; lit "y"]).
Proof. vm_compute. reflexivity. Qed.
Fixpoint all_outside (f n : nat) st : bool :=
  match n with
  | O => true
  | S n => match picky_next f st with (Ok _, s) => all_outside f n s | (Panic, s) => (ps_depth s =? ps_depth st)%N && all_outside f n s | _ => false end
  end.
Lemma picky_calls_outside f n : forall st rs st', picky_calls f n st = (rs, st') ->
  all_outside f n st = true ->
  caught_outside (ET:=nat) (CE:=nat) usize_max default_classifier picky_so vec_co box_alloc (fun _ => None) st rs st'.
Proof.
  induction n as [|n IH]; intros st rs st' E H2; cbn [picky_calls all_outside] in E, H2; [injection E as <- <-; constructor|].
  destruct (picky_next f st) as [[o|[]| |] s] eqn:En; [| |discriminate].
  - destruct (picky_calls f n s) as [l st2] eqn:E2. injection E as <- <-. eapply co_returns; [exact En|]. eapply IH; eauto.
  - destruct (picky_calls f n s) as [l st2] eqn:E2. injection E as <- <-. apply andb_true_iff in H2. destruct H2 as [H2 H3].
    eapply co_panics; [exact En|apply N.eqb_eq; exact H2|]. eapply IH; eauto.
Qed.
Example C69_case_outside_calls :
  caught_outside (ET:=nat) (CE:=nat) usize_max default_classifier picky_so vec_co box_alloc (fun _ => None) (picky_start (lit "{f x}b!\{c{y}")) (fst outside_run) (snd outside_run).
Proof. apply (picky_calls_outside 100 6); [exact (surjective_pairing outside_run)|vm_compute; reflexivity]. Qed.
(** Inside of one the iteration is cut short: its end is taken for that of the iteration, and what is behind it is not read. *)
Definition inside_run := picky_calls 100 3 (picky_start (lit "{f x!}b")).
Example C69_case_inside : (map strings (fst inside_run), ps_depth (snd inside_run), map it_ch (unread (cv_chars (ps_strm (snd inside_run))))) =
  ([None; Some None; Some None], 1%N, lit "}b").
Proof. vm_compute. reflexivity. Qed.
(** A history of calls with panics inside of nest forms, as in [C69_history] and [C69_converter_history]. *)
Fixpoint all_caught (f n : nat) st : bool :=
  match n with
  | O => true
  | S n => match picky_next f st with (Ok _, s) => all_caught f n s | (Panic, s) => all_caught f n s | _ => false end
  end.
Lemma picky_calls_caught f n : forall st rs st', picky_calls f n st = (rs, st') ->
  all_caught f n st = true ->
  caught_calls (ET:=nat) (CE:=nat) usize_max default_classifier picky_so vec_co box_alloc (fun _ => None) st rs st'.
Proof.
  induction n as [|n IH]; intros st rs st' E H2; cbn [picky_calls all_caught] in E, H2; [injection E as <- <-; constructor|].
  destruct (picky_next f st) as [[o|[]| |] s] eqn:En; [| |discriminate].
  - destruct (picky_calls f n s) as [l st2] eqn:E2. injection E as <- <-. eapply cc_returns; [exact En|]. eapply IH; eauto.
  - destruct (picky_calls f n s) as [l st2] eqn:E2. injection E as <- <-. eapply cc_panics; [exact En|]. eapply IH; eauto.
Qed.
Definition two_run := picky_calls 100 5 (picky_start (lit "{f x! {g y!} c}b")).
Example C69_case_history : (map strings (fst two_run), ps_depth (snd two_run), map it_ch (unread (cv_chars (ps_strm (snd two_run))))) =
  ([None; None; Some None; Some None; Some None], 2%N, lit "} c}b").
Proof. vm_compute. reflexivity. Qed.
Example C69_case_history_calls :
  caught_calls (ET:=nat) (CE:=nat) usize_max default_classifier picky_so vec_co box_alloc (fun _ => None) (picky_start (lit "{f x! {g y!} c}b")) (fst two_run) (snd two_run).
Proof. apply (picky_calls_caught 100 5); [exact (surjective_pairing two_run)|vm_compute; reflexivity]. Qed.
(** The hypotheses of the theorems about converters hold of [TextVec] and boxes; and a call that panics. *)
Example C69_case_vec : text_contract False (fun a : nat => a) (tvec_ops posstrish_ops) posstrish_any /\
  (forall d a, fst (a_new_datum (box_alloc (W:=nat) (TT:=tvec posstrish) (ET:=nat)) d a) <> Panic) /\
  alloc_contract (TT:=tvec posstrish) (ET:=nat) True (fun a : nat => a) (reporting_alloc box_alloc).
Proof.
  split; [exact (tvec_contract posstrish_any_contract False (fun w => w))|]. split; [intros d a; vm_compute; discriminate|].
  intros d a. left. eexists. split; reflexivity.
Qed.
Example C69_case_panics : fst (picky_next 100 (picky_start (lit "{f x!}b"))) = Panic /\
  match iter_next (ET:=nat) (CE:=nat) usize_max default_classifier (reporting_stream picky_so) (reporting_concat vec_co) (reporting_alloc box_alloc) (fun _ => None) 100
    (picky_start (lit "{f x!}b")) with (Ok (Some (inr (FailedAlloc AllocExhausted))), st) => ps_depth st = 0%N | _ => False end.
Proof. split; vm_compute; reflexivity. Qed.
(** Both sides of [C69_text] and [C69_inside]. *)
Definition start_of (input : str) := s_peek picky_so (ps_strm (picky_start input)).
Definition depth_after (input : str) := match picky_next 100 (picky_start input) with (Panic, st) => Some (ps_depth st) | _ => None end.
Example C69_case_depths :
  option_map (is_nest_start default_classifier) (match fst (start_of (lit "b!\{c")) with Ok (Some it) => Some (it_ch it) | _ => None end) = Some false /\
  depth_after (lit "b!\{c") = Some 0%N /\
  option_map (is_nest_start default_classifier) (match fst (start_of (lit "{f {g} {h x!}}b")) with Ok (Some it) => Some (it_ch it) | _ => None end) = Some true /\
  depth_after (lit "{f {g} {h x!}}b") = Some 2%N.
Proof. repeat split; vm_compute; reflexivity. Qed.
(** The state after the panic in [C69_case_inside] meets the hypotheses of [C69_end]. *)
Definition after_panic := snd (picky_next 100 (picky_start (lit "{f x!}b"))).
Definition end_seen := s_peek picky_so (ps_strm after_panic).
Definition is_end (o : res Empty_set (option (item charpos))) : bool :=
  match o with Ok (Some it) => negb (is_nest_start default_classifier (it_ch it)) && is_nest_end default_classifier (it_ch it) | _ => false end.
Example C69_case_end : (ps_depth after_panic, is_end (fst end_seen)) = (1%N, true).
Proof. vm_compute. reflexivity. Qed.
Example C69_case_end_again : s_peek picky_so (snd end_seen) = end_seen.
Proof. vm_compute. reflexivity. Qed.
(** A call that panics after one that did, as in [C69_converter_panics]. *)
Example C69_case_panics_again : fst (picky_next 100 (snd (picky_calls 100 1 (picky_start (lit "{f x! {g y!} c}b"))))) = Panic /\
  snd (cv_kept (ps_strm (snd (picky_calls 100 2 (picky_start (lit "{f x! {g y!} c}b")))))) = [lit "f"; lit "x! "; lit "g"; lit "y!"].
Proof. split; vm_compute; reflexivity. Qed.
