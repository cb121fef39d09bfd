(** The parser does not read ahead. *)
From Coq Require Import List NArith Bool Lia.
From Verif.Model Require Import Prelude Parser Iter.
From Verif.Spec Require Import Contract History ReadAhead.
From Verif.Proofs Require Import Wp.
Import ListNotations.
Set Implicit Arguments.

Section ReadAhead.
Context {S A TT ET Pos CE : Type}.
Context (umax : N) (cc : classifier) (so : stream_ops S A TT Pos) (co : concat_ops A TT)
        (ao : alloc_ops A TT ET) (bnd : bindings A TT ET Pos CE).
Context (Rd : S -> bool -> Prop) (RA : reads_ahead so Rd).
Implicit Types st : pstate S A.

(** After an error. *)
Definition after_err (e : error Pos CE) st : Prop :=
  Rd (ps_strm st) true /\ (at_a_character e -> Rd (ps_strm st) false).

(** [post b]: what is read if the result is a value is given by [b]. *)
Definition post {X} (P : X -> pstate S A -> Prop) (r : res (error Pos CE) X) st : Prop :=
  match r with
  | Ok x => P x st
  | Err e => after_err e st
  | _ => True
  end.
Definition ahead {X} (b : bool) : X -> pstate S A -> Prop := fun _ st => Rd (ps_strm st) b.

Lemma rd_any s b : Rd s b -> Rd s true.
Proof. destruct b; auto using (rd_weaken RA). Qed.

Lemma wp_ra_bind {X Y} (m : M X) (k : X -> M Y) (P : X -> _ -> Prop) (Q : Y -> _ -> Prop) st :
  wp m (post P) st -> (forall x st', P x st' -> wp (k x) (post Q) st') -> wp (bind m k) (post Q) st.
Proof.
  intros H K. apply wp_bind. eapply wp_mono; [exact H|]. intros [x|e| |] st'; cbn; auto.
Qed.
Lemma wp_ra_mono {X} (m : M X) (P Q : X -> _ -> Prop) st :
  wp m (post P) st -> (forall x st', P x st' -> Q x st') -> wp m (post Q) st.
Proof. intros H K. eapply wp_mono; [exact H|]. intros [x|e| |] st'; cbn; auto. Qed.

Lemma ra_peek b st : Rd (ps_strm st) b -> wp (CE:=CE) (peek so) (post (ahead true)) st.
Proof.
  intros H. unfold wp, peek. destruct (s_peek so (ps_strm st)) as [[o|[]| |] s'] eqn:E; cbn; auto.
  exact (rd_peek RA _ _ H E).
Qed.
Definition given : option (item Pos) -> pstate S A -> Prop :=
  fun o st => Rd (ps_strm st) match o with Some _ => false | None => true end.
Lemma ra_next b st : Rd (ps_strm st) b -> wp (CE:=CE) (next so) (post given) st.
Proof.
  intros H. unfold wp, next. destruct (s_next so (ps_strm st)) as [[o|[]| |] s'] eqn:E; cbn; auto.
  exact (rd_next RA _ _ H E).
Qed.
Lemma ra_next_accum b st : Rd (ps_strm st) b -> wp (CE:=CE) (next_accum so) (post given) st.
Proof.
  intros H. unfold wp, next_accum.
  destruct (s_next_accum so (ps_strm st) (ps_alloc st)) as [[o|e| |] [s' a']] eqn:E; cbn; auto.
  - exact (rd_next_accum RA _ _ _ H E).
  - split; [exact (rd_next_accum_err RA _ _ _ H E)|intros []].
Qed.
Lemma given_true o st : given o st -> Rd (ps_strm st) true.
Proof. apply rd_any. Qed.
Lemma ra_concat_accum b t st : Rd (ps_strm st) b -> wp (CE:=CE) (concat_accum so co t) (post (ahead b)) st.
Proof.
  intros H. apply wp_ra_bind with (P := ahead b).
  - unfold wp, accum_done.
    destruct (s_accum_done so (ps_strm st) (ps_alloc st)) as [[x|e| |] [s' a']] eqn:E; cbn; auto.
    + exact (rd_accum_done RA _ _ _ H E).
    + split; [exact (rd_any (rd_accum_done_err RA _ _ _ H E))|intros []].
  - intros u st' H'. unfold wp, concat. destruct (t_concat co t u (ps_alloc st')) as [[x|e| |] a']; cbn; auto.
    split; [exact (rd_any H')|intros []].
Qed.
Lemma ra_new_datum b d st : Rd (ps_strm st) b -> wp (new_datum ao d) (post (ahead b)) st.
Proof.
  intros H. unfold wp, new_datum. destruct (a_new_datum ao d (ps_alloc st)) as [[x|e| |] a']; cbn; auto.
  split; [exact (rd_any H)|intros []].
Qed.
Lemma ra_call {X} (f : A -> (X + error Pos CE) * A) st : Rd (ps_strm st) false -> wp (call f) (post (ahead false)) st.
Proof.
  intros H. unfold wp, call. destruct (f (ps_alloc st)) as [[x|e] a']; cbn; auto. split; auto. exact (rd_any H).
Qed.
Lemma ra_ret {X} (x : X) (P : X -> _ -> Prop) st : P x st -> wp (ret x) (post P) st.
Proof. exact (fun h => h). Qed.
Lemma ra_panic {X} (P : X -> _ -> Prop) st : wp panic (post P) st.
Proof. exact I. Qed.
Lemma ra_assert b c st : Rd (ps_strm st) b -> wp (CE:=CE) (assert c) (post (ahead b)) st.
Proof. intros H. destruct c; [exact H|exact I]. Qed.
Lemma ra_get_depth b st : Rd (ps_strm st) b -> wp (CE:=CE) get_depth (post (ahead b)) st.
Proof. exact (fun h => h). Qed.

Lemma ra_skip_whitespace : forall fuel b st, Rd (ps_strm st) b ->
  wp (CE:=CE) (skip_whitespace cc so fuel) (post (ahead true)) st.
Proof.
  induction fuel as [|fuel IH]; intros b st H; cbn [skip_whitespace]; [exact I|].
  eapply wp_ra_bind; [exact (ra_peek _ H)|]. intros [it|] st1 H1; [|exact H1].
  destruct (is_whitespace cc (it_ch it)); [|exact H1].
  eapply wp_ra_bind; [exact (ra_next _ H1)|]. intros o st2 H2. exact (IH _ _ (given_true H2)).
Qed.
Lemma ra_check_end_char b d st : Rd (ps_strm st) b ->
  wp (CE:=CE) (check_end_char cc so d) (post (ahead true)) st.
Proof.
  intros H. unfold check_end_char. eapply wp_ra_bind; [exact (ra_peek _ H)|]. intros o st1 H1.
  eapply wp_ra_bind; [exact (ra_assert _ _ H1)|]. intros ? st2 H2.
  destruct (0 <? d)%N; [exact H2|]. eapply wp_ra_bind; [exact (ra_next _ H2)|].
  intros [it|] st3 H3; [|exact I]. split; [exact (given_true H3)|]. intros _. exact H3.
Qed.
Lemma ra_text_done t nl st : Rd (ps_strm st) true -> wp (CE:=CE) (parse_text_done so co t nl) (post (ahead true)) st.
Proof.
  intros H. unfold parse_text_done. destruct (nl =? 0)%N; [exact (ra_concat_accum _ _ H)|].
  split; [exact H|intros []].
Qed.
Lemma ra_text_loop : forall fuel m t nl b st, Rd (ps_strm st) b ->
  wp (CE:=CE) (parse_text_loop umax cc so co fuel m t nl) (post (ahead true)) st.
Proof.
  induction fuel as [|fuel IH]; intros m t nl b st H; cbn [parse_text_loop]; [exact I|].
  eapply wp_ra_bind; [exact (ra_peek _ H)|]. intros [it|] st1 H1; [|exact (ra_text_done _ _ _ H1)].
  destruct (_ && _)%bool; [exact (ra_text_done _ _ _ H1)|].
  destruct (is_nest_escape cc (it_ch it)).
  { eapply wp_ra_bind; [exact (ra_concat_accum _ _ H1)|]. intros t' st2 H2.
    eapply wp_ra_bind; [exact (ra_next _ H2)|]. intros o st3 H3.
    eapply wp_ra_bind; [exact (ra_next_accum _ (given_true H3))|]. intros o' st4 H4. exact (IH _ _ _ _ _ (given_true H4)). }
  destruct (is_nest_start cc (it_ch it)).
  { eapply wp_ra_bind; [exact (ra_next_accum _ H1)|]. intros o' st4 H4.
    destruct (nl <? umax)%N; [exact (IH _ _ _ _ _ (given_true H4))|exact I]. }
  destruct (is_nest_end cc (it_ch it)).
  { destruct (0 <? nl)%N.
    - eapply wp_ra_bind; [exact (ra_next_accum _ H1)|]. intros o' st4 H4. exact (IH _ _ _ _ _ (given_true H4)).
    - eapply wp_ra_bind; [exact (ra_get_depth _ H1)|]. intros d st2 H2.
      eapply wp_ra_bind; [exact (ra_check_end_char _ _ H2)|]. intros ? st3 H3. exact (ra_text_done _ _ _ H3). }
  eapply wp_ra_bind; [exact (ra_next_accum _ H1)|]. intros o' st4 H4. exact (IH _ _ _ _ _ (given_true H4)).
Qed.
Lemma ra_nest_end b st : Rd (ps_strm st) b -> wp (CE:=CE) (nest_end cc so) (post (ahead false)) st.
Proof.
  intros H. unfold nest_end. eapply wp_ra_bind; [exact (ra_next _ H)|]. intros [it|] st1 H1.
  - exact (ra_assert _ _ H1).
  - split; [exact H1|intros []].
Qed.

Lemma ra_incr_depth b st : Rd (ps_strm st) b -> wp (CE:=CE) (incr_depth umax) (post (ahead b)) st.
Proof. intros H. unfold wp, incr_depth. destruct (ps_depth st <? umax)%N; [exact H|exact I]. Qed.
Lemma ra_finally {X} (m : M X) b st : wp m (post (ahead b)) st -> wp (finally m decr_depth) (post (ahead b)) st.
Proof.
  intros H. apply wp_finally. eapply wp_mono; [exact H|].
  intros [x|e| |] st' H'; cbn in *; auto; unfold wp, decr_depth; destruct (0 <? ps_depth st')%N; cbn; auto.
Qed.

Lemma ra_parser : forall fuel,
  (forall m b st, Rd (ps_strm st) b ->
     wp (parse_next umax cc so co ao bnd fuel m) (post (ahead true)) st) /\
  (forall b st, Rd (ps_strm st) b ->
     wp (parse_nested umax cc so co ao bnd fuel) (post (ahead false)) st) /\
  (forall m b st, Rd (ps_strm st) b ->
     wp (parse_all umax cc so co ao bnd fuel m) (post (ahead true)) st).
Proof.
  induction fuel as [|f (IHn & IHd & IHa)].
  { split; [|split]; intros; exact I. }
  split; [|split].
  - intros m b st H. cbn [parse_next].
    eapply wp_ra_bind with (P := ahead true).
    { destruct (is_operator_mode m); [exact (ra_skip_whitespace _ _ H)|exact (rd_any H)]. }
    intros ? st1 H1. eapply wp_ra_bind; [exact (ra_peek _ H1)|]. intros [it|] st2 H2.
    + destruct (is_nest_start cc (it_ch it)).
      { eapply wp_ra_bind; [exact (ra_incr_depth _ H2)|]. intros ? st3 H3.
        eapply wp_ra_bind; [eapply ra_finally; exact (IHd _ _ H3)|].
        intros [d|] st4 H4; [exact (rd_any H4)|exact (IHn _ _ _ H4)]. }
      destruct (is_nest_end cc (it_ch it)).
      { eapply wp_ra_bind; [exact (ra_get_depth _ H2)|]. intros d st3 H3.
        eapply wp_ra_bind; [exact (ra_check_end_char _ _ H3)|]. intros ? st4 H4. exact H4. }
      eapply wp_ra_bind; [exact (ra_text_loop _ _ _ _ _ H2)|]. intros t st3 H3. exact H3.
    + eapply wp_ra_bind; [exact (ra_get_depth _ H2)|]. intros d st3 H3.
      destruct (d =? 0)%N; [exact H3|split; [exact H3|intros []]].
  - intros b st H. cbn [parse_nested].
    eapply wp_ra_bind; [exact (ra_next _ H)|]. intros o st1 H1.
    eapply wp_ra_bind; [exact (ra_assert _ _ (given_true H1))|]. intros ? st2 H2.
    eapply wp_ra_bind; [exact (IHn _ _ _ H2)|]. intros op st3 H3.
    eapply wp_ra_bind; [exact (ra_peek _ H3)|]. intros o4 st4 H4.
    eapply wp_ra_bind with (P := ahead true).
    { destruct o4 as [it|]; [|exact H4]. destruct (is_whitespace cc (it_ch it)); [|exact H4].
      eapply wp_ra_bind; [exact (ra_next _ H4)|]. intros o5 st5 H5. exact (given_true H5). }
    intros ? st5 H5. destruct op as [op|].
    + destruct (bnd op) as [[f0|f0]|].
      * eapply wp_ra_bind; [exact (ra_text_loop _ _ _ _ _ H5)|]. intros t st6 H6.
        eapply wp_ra_bind; [exact (ra_nest_end _ H6)|]. intros ? st7 H7. exact (ra_call _ _ H7).
      * eapply wp_ra_bind; [exact (IHa _ _ _ H5)|]. intros t st6 H6.
        eapply wp_ra_bind; [exact (ra_nest_end _ H6)|]. intros ? st7 H7. exact (ra_call _ _ H7).
      * eapply wp_ra_bind; [exact (IHa _ _ _ H5)|]. intros t st6 H6.
        eapply wp_ra_bind; [exact (ra_nest_end _ H6)|]. intros ? st7 H7.
        eapply wp_ra_bind; [exact (ra_new_datum _ _ H7)|]. intros r1 st8 H8.
        eapply wp_ra_bind; [exact (ra_new_datum _ _ H8)|]. intros r2 st9 H9. exact H9.
    + eapply wp_ra_bind; [exact (ra_nest_end _ H5)|]. intros ? st7 H7. exact H7.
  - intros m b st H. cbn [parse_all].
    eapply wp_ra_bind; [exact (IHn _ _ _ H)|]. intros [d|] st1 H1; [|exact H1].
    eapply wp_ra_bind; [exact (ra_new_datum _ _ H1)|]. intros r1 st2 H2.
    eapply wp_ra_bind; [exact (ra_new_datum _ _ H2)|]. intros r2 st3 H3.
    eapply wp_ra_bind with (P := ahead true); [exact H3|]. intros ok st4 H4.
    destruct ok; [|split; [exact H4|intros []]].
    eapply wp_ra_bind; [exact (IHa _ _ _ H4)|]. intros r st5 H5. exact H5.
Qed.
End ReadAhead.
