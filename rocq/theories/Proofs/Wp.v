(** Weakest-precondition style reasoning for the parser's state monad. *)
From Coq Require Import List NArith Bool Lia.
From Verif.Model Require Import Prelude Parser.
From Verif.Spec Require Import Contract.
Import ListNotations.
Set Implicit Arguments.

Section Wp.
Context {S A TT ET Pos CE : Type}.
Implicit Types st : pstate S A.

Definition wp {X} (m : M (S:=S) (A:=A) (Pos:=Pos) (CE:=CE) X)
  (Q : res (error Pos CE) X -> pstate S A -> Prop) (st : pstate S A) : Prop :=
  Q (fst (m st)) (snd (m st)).

Lemma wp_ret X (x : X) (Q : _ -> _ -> Prop) st : Q (Ok x) st -> wp (ret x) Q st.
Proof. exact (fun h => h). Qed.

Lemma wp_raise X e (Q : _ -> _ -> Prop) st : Q (Err e) st -> wp (raise (X:=X) e) Q st.
Proof. exact (fun h => h). Qed.

Lemma wp_bind X Y (m : M X) (k : X -> M Y) (Q : _ -> _ -> Prop) st :
  wp m (fun r st' => match r with
                     | Ok x => wp (k x) Q st'
                     | Err e => Q (Err e) st'
                     | Panic => Q Panic st'
                     | OutOfFuel => Q OutOfFuel st'
                     end) st ->
  wp (bind m k) Q st.
Proof.
  unfold wp, bind. destruct (m st) as [[x|e| |] st']; cbn; auto.
Qed.

Lemma wp_mono X (m : M X) (Q Q' : _ -> _ -> Prop) st :
  wp m Q st -> (forall r st', Q r st' -> Q' r st') -> wp m Q' st.
Proof. unfold wp; auto. Qed.

Lemma wp_finally X (m : M X) fin (Q : _ -> _ -> Prop) st :
  wp m (fun r st' => match r with
                     | Ok x => wp fin (fun r' st'' => match r' with
                         | Ok _ => Q (Ok x) st'' | Err e => Q (Err e) st''
                         | Panic => Q Panic st'' | OutOfFuel => Q OutOfFuel st'' end) st'
                     | Err e => wp fin (fun r' st'' => match r' with
                         | Ok _ => Q (Err e) st'' | Err e' => Q (Err e') st''
                         | Panic => Q Panic st'' | OutOfFuel => Q OutOfFuel st'' end) st'
                     | Panic => Q Panic st'
                     | OutOfFuel => Q OutOfFuel st'
                     end) st ->
  wp (finally m fin) Q st.
Proof.
  unfold wp, finally, bind. destruct (m st) as [[x|e| |] st']; cbn; auto;
  destruct (fin st') as [[u|e'| |] st'']; cbn; auto.
Qed.

Lemma wp_get_depth (Q : _ -> _ -> Prop) st : Q (Ok (ps_depth st)) st -> wp get_depth Q st.
Proof. exact (fun h => h). Qed.

Lemma wp_assert b (Q : _ -> _ -> Prop) st : b = true -> Q (Ok tt) st -> wp (assert b) Q st.
Proof. intros -> h; exact h. Qed.

Lemma wp_incr_depth umax (Q : _ -> _ -> Prop) st :
  (ps_depth st < umax)%N ->
  Q (Ok tt) (PState (ps_strm st) (ps_depth st + 1) (ps_alloc st)) ->
  wp (incr_depth umax) Q st.
Proof.
  unfold wp, incr_depth. intros H HQ.
  apply N.ltb_lt in H; rewrite H; exact HQ.
Qed.

Lemma wp_decr_depth (Q : _ -> _ -> Prop) st :
  (0 < ps_depth st)%N ->
  Q (Ok tt) (PState (ps_strm st) (ps_depth st - 1) (ps_alloc st)) ->
  wp decr_depth Q st.
Proof.
  unfold wp, decr_depth. intros H HQ.
  apply N.ltb_lt in H; rewrite H; exact HQ.
Qed.

Lemma wp_call X (f : A -> (X + error Pos CE) * A) (Q : _ -> _ -> Prop) st :
  (forall a', Q (match fst (f (ps_alloc st)) with inl x => Ok x | inr e => Err e end)
                (PState (ps_strm st) (ps_depth st) a')) ->
  wp (call f) Q st.
Proof.
  unfold wp, call. destruct (f (ps_alloc st)) as [r a]; cbn. auto.
Qed.

Context (so : stream_ops S A TT Pos) (co : concat_ops A TT) (ao : alloc_ops A TT ET).
Context (Rs : S -> list (item Pos) -> list (item Pos) -> Prop)
        (Rt : TT -> list (item Pos) -> Prop).
Context {W : Type} (F : Prop) (view : A -> W).
Context (SC : stream_contract F view so Rs Rt) (TC : concat_contract F view co Rt)
        (AC : alloc_contract F view ao).

Lemma wp_peek r p (Q : _ -> _ -> Prop) st :
  Rs (ps_strm st) r p ->
  (forall st', Rs (ps_strm st') r p -> ps_depth st' = ps_depth st ->
               Q (Ok (hd_error r)) st') ->
  wp (peek so) Q st.
Proof.
  intros H HQ. destruct (sc_peek SC _ _ _ H) as (s' & E & H').
  unfold wp, peek. rewrite E. cbn. apply HQ; auto.
Qed.

Lemma wp_next r p (Q : _ -> _ -> Prop) st :
  Rs (ps_strm st) r p ->
  (forall st', Rs (ps_strm st') (tl r) [] -> ps_depth st' = ps_depth st ->
               Q (Ok (hd_error r)) st') ->
  wp (next so) Q st.
Proof.
  intros H HQ. destruct (sc_next SC _ _ _ H) as (s' & E & H').
  unfold wp, next. rewrite E. cbn. apply HQ; auto.
Qed.

Lemma wp_next_accum r p (Q : _ -> _ -> Prop) st :
  Rs (ps_strm st) r p ->
  (forall st', Rs (ps_strm st') (tl r) (p ++ firstn 1 r) -> ps_depth st' = ps_depth st ->
               Q (Ok (hd_error r)) st') ->
  (forall st', p <> [] -> Rs (ps_strm st') r [] -> ps_depth st' = ps_depth st ->
               Q (Err (FailedAlloc AllocExhausted)) st') ->
  wp (next_accum so) Q st.
Proof.
  intros H HQ HQ'.
  destruct (sc_next_accum SC _ (ps_alloc st) _ _ H)
    as [(s' & a' & E & _ & H')|(_ & s' & a' & E & _ & Hp & H')];
  unfold wp, next_accum; rewrite E; cbn; auto.
Qed.

Lemma wp_accum_done r p (Q : _ -> _ -> Prop) st :
  Rs (ps_strm st) r p ->
  (forall t st', Rt t p -> Rs (ps_strm st') r [] -> ps_depth st' = ps_depth st ->
               Q (Ok t) st') ->
  (forall st', p <> [] -> Rs (ps_strm st') r [] -> ps_depth st' = ps_depth st ->
               Q (Err (FailedAlloc AllocExhausted)) st') ->
  wp (accum_done so) Q st.
Proof.
  intros H HQ HQ'.
  destruct (sc_accum_done SC _ (ps_alloc st) _ _ H)
    as [(s' & a' & t & E & _ & Ht & H')|(_ & s' & a' & E & _ & Hp & H')];
  unfold wp, accum_done; rewrite E; cbn; auto.
Qed.

Lemma wp_concat t1 t2 l1 l2 (Q : _ -> _ -> Prop) st :
  Rt t1 l1 -> Rt t2 l2 ->
  (forall t st', Rt t (l1 ++ l2) -> ps_strm st' = ps_strm st -> ps_depth st' = ps_depth st ->
               Q (Ok t) st') ->
  (forall st', l1 <> [] -> l2 <> [] -> ps_strm st' = ps_strm st -> ps_depth st' = ps_depth st ->
               Q (Err (FailedAlloc AllocExhausted)) st') ->
  wp (concat co t1 t2) Q st.
Proof.
  intros H1 H2 HQ HQ'.
  destruct (tc_concat TC _ _ _ _ (ps_alloc st) H1 H2)
    as [(t & a' & E & _ & Ht)|(_ & a' & E & _ & Hp & H')];
  unfold wp, concat; rewrite E; cbn; auto.
Qed.

Lemma wp_new_datum d (Q : _ -> _ -> Prop) st :
  (forall st', ps_strm st' = ps_strm st -> ps_depth st' = ps_depth st ->
               Q (Ok d) st') ->
  (forall st', ps_strm st' = ps_strm st -> ps_depth st' = ps_depth st ->
               Q (Err (FailedAlloc AllocExhausted)) st') ->
  wp (new_datum ao d) Q st.
Proof.
  intros HQ HQ'.
  destruct (AC d (ps_alloc st)) as [(a' & E & _)|(_ & a' & E & _)];
  unfold wp, new_datum; rewrite E; cbn; auto.
Qed.

Lemma wp_concat_accum text tl r p (Q : _ -> _ -> Prop) st :
  Rs (ps_strm st) r p -> Rt text tl ->
  (forall t st', Rt t (tl ++ p) -> Rs (ps_strm st') r [] -> ps_depth st' = ps_depth st ->
               Q (Ok t) st') ->
  (forall st', p <> [] -> Rs (ps_strm st') r [] -> ps_depth st' = ps_depth st ->
               Q (Err (FailedAlloc AllocExhausted)) st') ->
  wp (concat_accum so co text) Q st.
Proof.
  intros H Ht HQ HQ'. apply wp_bind. eapply wp_accum_done; [exact H| |].
  - intros t st' Ht' H' Hd. eapply wp_concat; [exact Ht|exact Ht'| |].
    + intros t2 st2 Ht2 Es Ed. apply HQ; [exact Ht2| rewrite Es; exact H'|congruence].
    + intros st2 _ Hp Es Ed. apply HQ'; [exact Hp| rewrite Es; exact H'|congruence].
  - intros; apply HQ'; auto.
Qed.

End Wp.
