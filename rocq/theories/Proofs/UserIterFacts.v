(** The streams over arbitrary iterators: locality, and agreement with the streams over
    lists. *)
From Coq Require Import List NArith Bool Arith Lia.
From Verif.Model Require Import Prelude Parser Iter Utf8 Chunk PosStrish TextIter CharIter StrishIter UserIter.
From Verif.Spec Require Import Run UserIter.
From Verif.Proofs Require Import Local.
Import ListNotations.
Set Implicit Arguments.

Lemma after_add I X (step : I -> option X * I) n m : forall i, after step (n + m) i = after step m (after step n i).
Proof. induction n as [|n IH]; intros i; [reflexivity|apply IH]. Qed.
Lemma agree_step I1 I2 X (step1 : I1 -> option X * I1) (step2 : I2 -> option X * I2) b i1 i2 :
  agree_upto step1 step2 (1 + b) i1 i2 -> fst (step1 i1) = fst (step2 i2) /\ agree_upto step1 step2 b (snd (step1 i1)) (snd (step2 i2)).
Proof. intros H. split; [apply (H 0); lia|]. intros k Hk. apply (H (Datatypes.S k)). lia. Qed.

(** ** Characters *)
Section Chars.
Context {TT A I1 I2 : Type} (x : text_ops TT posstrish A) (step1 : I1 -> option char * I1) (step2 : I2 -> option char * I2).
(** [G b i1 i2]: the iterators return the same to [b] more calls. *)
Context (G : nat -> I1 -> I2 -> Prop) (GS : forall b i1 i2, G (1 + b) i1 i2 -> fst (step1 i1) = fst (step2 i2) /\ G b (snd (step1 i1)) (snd (step2 i2))).

Definition c_rel (b : nat) (s1 : uchars I1) (s2 : uchars I2) : Prop :=
  uc_accum s1 = uc_accum s2 /\ uk_peeked (uc_iter s1) = uk_peeked (uc_iter s2) /\ snd (uk_iter (uc_iter s1)) = snd (uk_iter (uc_iter s2)) /\
  G b (fst (uk_iter (uc_iter s1))) (fst (uk_iter (uc_iter s2))).
Definition c_adv (n : nat) (s s' : uchars I1) : Prop := fst (uk_iter (uc_iter s')) = after step1 n (fst (uk_iter (uc_iter s))).

Lemma enum_local i1 n : exists m, after step1 m i1 = fst (snd (uenum_next step1 (i1, n))) /\ forall b i2, G (m + b) i1 i2 ->
  fst (uenum_next step2 (i2, n)) = fst (uenum_next step1 (i1, n)) /\ snd (snd (uenum_next step2 (i2, n))) = snd (snd (uenum_next step1 (i1, n))) /\
  G b (fst (snd (uenum_next step1 (i1, n)))) (fst (snd (uenum_next step2 (i2, n)))).
Proof.
  exists 1. unfold uenum_next. cbn [fst snd after]. split; [destruct (step1 i1) as [[c|] i]; reflexivity|].
  intros b i2 H. destruct (GS H) as (E & H'). destruct (step1 i1) as [o1 i1'], (step2 i2) as [o2 i2']. cbn [fst snd] in *. subst o2. destruct o1; auto.
Qed.

Lemma chars_local : stream_local (uchars_stream x step1) (uchars_stream x step2) c_rel c_adv.
Proof.
  split.
  - intros [[[i n] pk] ac] r s1' E _. cbn in E. unfold uchars_peek, uk_peek in E. cbn in E. destruct pk as [o|].
    + injection E as <- <-. exists 0. split; [reflexivity|]. intros b [[[i2 n2] pk2] ac2] (E1 & E2 & E3 & E4). cbn in E1, E2, E3, E4. subst. eexists. split; [reflexivity|]. repeat split; auto.
    + destruct (enum_local i n) as (m & EA & H). destruct (uenum_next step1 (i, n)) as [o [i' n']]. injection E as <- <-. exists m. split; [unfold c_adv; cbn in *; auto|].
      intros b [[[i2 n2] pk2] ac2] (E1 & E2 & E3 & E4). cbn in E1, E2, E3, E4. subst. destruct (H b i2 E4) as (G1 & G2 & G3). cbn. unfold uchars_peek, uk_peek. cbn.
      destruct (uenum_next step2 (i2, n2)) as [o2 [i2' n2']]. cbn in G1, G2, G3. subst. eexists. split; [reflexivity|]. repeat split; auto.
  - intros [[[i n] pk] ac] r s1' E _. cbn in E. unfold uchars_next, uk_next in E. cbn in E. destruct pk as [o|].
    + injection E as <- <-. exists 0. split; [reflexivity|]. intros b [[[i2 n2] pk2] ac2] (E1 & E2 & E3 & E4). cbn in E1, E2, E3, E4. subst. eexists. split; [reflexivity|]. repeat split; auto.
    + destruct (enum_local i n) as (m & EA & H). destruct (uenum_next step1 (i, n)) as [o [i' n']]. injection E as <- <-. exists m. split; [unfold c_adv; cbn in *; auto|].
      intros b [[[i2 n2] pk2] ac2] (E1 & E2 & E3 & E4). cbn in E1, E2, E3, E4. subst. destruct (H b i2 E4) as (G1 & G2 & G3). cbn. unfold uchars_next, uk_next. cbn.
      destruct (uenum_next step2 (i2, n2)) as [o2 [i2' n2']]. cbn in G1, G2, G3. subst. eexists. split; [reflexivity|]. repeat split; auto.
  - intros [[[i n] pk] ac] a r s1' a' E _. cbn in E. unfold uchars_next_accum, uk_next in E. cbn in E. destruct pk as [o|].
    + exists 0. split; [destruct o; injection E as <- <- <-; reflexivity|]. intros b [[[i2 n2] pk2] ac2] (E1 & E2 & E3 & E4). cbn in E1, E2, E3, E4. subst.
      cbn. unfold uchars_next_accum, uk_next. cbn. destruct o; injection E as <- <- <-; (eexists; split; [reflexivity|]; repeat split; auto).
    + destruct (enum_local i n) as (m & EA & H). destruct (uenum_next step1 (i, n)) as [o [i' n']]. exists m. split; [destruct o; injection E as <- <- <-; unfold c_adv; cbn in *; auto|].
      intros b [[[i2 n2] pk2] ac2] (E1 & E2 & E3 & E4). cbn in E1, E2, E3, E4. subst. destruct (H b i2 E4) as (G1 & G2 & G3). cbn. unfold uchars_next_accum, uk_next. cbn.
      destruct (uenum_next step2 (i2, n2)) as [o2 [i2' n2']]. cbn in G1, G2, G3. subst. destruct o; injection E as <- <- <-; (eexists; split; [reflexivity|]; repeat split; auto).
  - intros [[[i n] pk] ac] a r s1' a' E _. cbn in E. unfold uchars_accum_done in E. cbn in E. injection E as <- <- <-. exists 0. split; [reflexivity|].
    intros b [[[i2 n2] pk2] ac2] (E1 & E2 & E3 & E4). cbn in E1, E2, E3, E4. subst. eexists. split; [reflexivity|]. repeat split; auto.
  - reflexivity.
  - unfold c_adv. intros n m s s' s'' E1 E2. rewrite E2, E1. symmetry. apply after_add.
Qed.
End Chars.

(** The iterator over a list. *)
Section CharList.
Context {TT A : Type} (x : text_ops TT posstrish A).
Definition cl_rel (s1 : uchars (list char)) (s2 : chariter) : Prop :=
  uc_accum s1 = ch_accum s2 /\ uk_peeked (uc_iter s1) = pk_peeked (ch_iter s2) /\
  pk_iter (ch_iter s2) = enumerate (snd (uk_iter (uc_iter s1))) (fst (uk_iter (uc_iter s1))).

Lemma enum_list l n : uenum_next list_step (l, n) = (hd_error (enumerate n l), (tl l, match l with [] => n | _ => (n + 1)%N end)).
Proof. destruct l; reflexivity. Qed.
Lemma enum_tl l n : enumerate (match l with [] => n | _ => (n + 1)%N end) (tl l) = tl (enumerate n l).
Proof. destruct l; reflexivity. Qed.

Lemma cl_ops s1 s2 : cl_rel s1 s2 ->
  (fst (s_peek (uchars_stream x list_step) s1) = fst (s_peek (chariter_stream x) s2) /\ cl_rel (snd (s_peek (uchars_stream x list_step) s1)) (snd (s_peek (chariter_stream x) s2))) /\
  (fst (s_next (uchars_stream x list_step) s1) = fst (s_next (chariter_stream x) s2) /\ cl_rel (snd (s_next (uchars_stream x list_step) s1)) (snd (s_next (chariter_stream x) s2))) /\
  (forall a : A, fst (s_next_accum (uchars_stream x list_step) s1 a) = fst (s_next_accum (chariter_stream x) s2 a) /\
    cl_rel (fst (snd (s_next_accum (uchars_stream x list_step) s1 a))) (fst (snd (s_next_accum (chariter_stream x) s2 a))) /\
    snd (snd (s_next_accum (uchars_stream x list_step) s1 a)) = snd (snd (s_next_accum (chariter_stream x) s2 a))) /\
  (forall a : A, fst (s_accum_done (uchars_stream x list_step) s1 a) = fst (s_accum_done (chariter_stream x) s2 a) /\
    cl_rel (fst (snd (s_accum_done (uchars_stream x list_step) s1 a))) (fst (snd (s_accum_done (chariter_stream x) s2 a))) /\
    snd (snd (s_accum_done (uchars_stream x list_step) s1 a)) = snd (snd (s_accum_done (chariter_stream x) s2 a))).
Proof.
  destruct s1 as [[[l n] pk] ac], s2 as [[e pk2] ac2]. intros (E1 & E2 & E3). cbn in E1, E2, E3. subst pk2 ac2 e.
  unfold cl_rel. cbn [s_peek s_next s_next_accum s_accum_done uchars_stream chariter_stream].
  unfold uchars_peek, uchars_next, uchars_next_accum, uchars_accum_done, chariter_peek, chariter_next, chariter_next_accum, chariter_accum_done, uk_peek, uk_next, pk_peek, pk_next.
  cbn [uc_iter uc_accum uk_peeked uk_iter pk_peeked pk_iter ch_iter ch_accum fst snd]. rewrite enum_list.
  destruct pk as [[o|]|]; cbn; [auto 10|auto 10|]. destruct l as [|c l]; cbn; auto 10.
Qed.

Lemma cl_local : stream_local (uchars_stream x list_step) (chariter_stream x) (fun _ => cl_rel) (fun _ _ _ => True).
Proof.
  split; auto.
  - intros s1 r s1' E _. exists 0. split; [exact I|]. intros _ s2 H. destruct (cl_ops H) as ((H1 & H2) & _). rewrite E in H1, H2. destruct (s_peek (chariter_stream x) s2) as [r2 s2']. cbn in H1, H2. subst. eauto.
  - intros s1 r s1' E _. exists 0. split; [exact I|]. intros _ s2 H. destruct (cl_ops H) as (_ & (H1 & H2) & _). rewrite E in H1, H2. destruct (s_next (chariter_stream x) s2) as [r2 s2']. cbn in H1, H2. subst. eauto.
  - intros s1 a r s1' a' E _. exists 0. split; [exact I|]. intros _ s2 H. destruct (cl_ops H) as (_ & _ & H0 & _). destruct (H0 a) as (H1 & H2 & H3). rewrite E in H1, H2, H3. destruct (s_next_accum (chariter_stream x) s2 a) as [r2 [s2' a2']]. cbn in H1, H2, H3. subst. eauto.
  - intros s1 a r s1' a' E _. exists 0. split; [exact I|]. intros _ s2 H. destruct (cl_ops H) as (_ & _ & _ & H0). destruct (H0 a) as (H1 & H2 & H3). rewrite E in H1, H2, H3. destruct (s_accum_done (chariter_stream x) s2 a) as [r2 [s2' a2']]. cbn in H1, H2, H3. subst. eauto.
Qed.
Lemma lc_local : stream_local (chariter_stream x) (uchars_stream x list_step) (fun _ s2 s1 => cl_rel s1 s2) (fun _ _ _ => True).
Proof.
  split; auto.
  - intros s2 r s2' E _. exists 0. split; [exact I|]. intros _ s1 H. destruct (cl_ops H) as ((H1 & H2) & _). rewrite E in H1, H2. destruct (s_peek (uchars_stream x list_step) s1) as [r1 s1']. cbn in H1, H2. subst. eauto.
  - intros s2 r s2' E _. exists 0. split; [exact I|]. intros _ s1 H. destruct (cl_ops H) as (_ & (H1 & H2) & _). rewrite E in H1, H2. destruct (s_next (uchars_stream x list_step) s1) as [r1 s1']. cbn in H1, H2. subst. eauto.
  - intros s2 a r s2' a' E _. exists 0. split; [exact I|]. intros _ s1 H. destruct (cl_ops H) as (_ & _ & H0 & _). destruct (H0 a) as (H1 & H2 & H3). rewrite E in H1, H2, H3. destruct (s_next_accum (uchars_stream x list_step) s1 a) as [r1 [s1' a1']]. cbn in H1, H2, H3. subst. eauto.
  - intros s2 a r s2' a' E _. exists 0. split; [exact I|]. intros _ s1 H. destruct (cl_ops H) as (_ & _ & _ & H0). destruct (H0 a) as (H1 & H2 & H3). rewrite E in H1, H2, H3. destruct (s_accum_done (uchars_stream x list_step) s1 a) as [r1 [s1' a1']]. cbn in H1, H2, H3. subst. eauto.
Qed.
Lemma cl_new l : cl_rel (uchars_new l) (chariter_new l). Proof. repeat split. Qed.
End CharList.

(** ** Strings *)
Section Strings.
Context {TT A I1 I2 : Type} (x : text_ops TT posstrish A) (step1 : I1 -> option str * I1) (step2 : I2 -> option str * I2) (lf lf2 : nat) (LF : lf <= lf2).
(** [G b i1 i2]: the iterators return the same to [b] more calls. *)
Context (G : nat -> I1 -> I2 -> Prop) (GS : forall b i1 i2, G (1 + b) i1 i2 -> fst (step1 i1) = fst (step2 i2) /\ G b (snd (step1 i1)) (snd (step2 i2))).

Definition s_rel (b : nat) (s1 : ustrs TT I1) (s2 : ustrs TT I2) : Prop :=
  us_cur s1 = us_cur s2 /\ us_char s1 = us_char s2 /\ us_peeked s1 = us_peeked s2 /\ us_accum s1 = us_accum s2 /\
  G b (us_iter s1) (us_iter s2).
Definition s_adv (n : nat) (s s' : ustrs TT I1) : Prop := us_iter s' = after step1 n (us_iter s).

Lemma of_local c : forall f f2 i1 r i1', f <= f2 -> unext_posstrish_of step1 f i1 c = (r, i1') -> r <> OutOfFuel -> exists n, i1' = after step1 n i1 /\
  forall b i2, G (n + b) i1 i2 -> exists i2', unext_posstrish_of step2 f2 i2 c = (r, i2') /\ G b i1' i2'.
Proof.
  induction f as [|f IH]; intros [|f2] i1 r i1' HF E NF; cbn [unext_posstrish_of] in E; try (injection E as <- <-; contradiction); try lia.
  destruct (step1 i1) as [o i] eqn:E1.
  assert (ONE : forall b i2, G (1 + b) i1 i2 -> exists i2', step2 i2 = (o, i2') /\ G b i i2').
  { intros b i2 H. destruct (GS H) as (G1 & G2). rewrite E1 in G1, G2. destruct (step2 i2) as [o2 i2']. cbn in G1, G2. subst. eauto. }
  assert (AF : forall n, after step1 (1 + n) i1 = after step1 n i) by (intros n; cbn [Nat.add after]; rewrite E1; reflexivity).
  destruct o as [s|].
  - cbv zeta in E. destruct (rc_as_str (px_val (posstrish_new s c))) as [v|e| |] eqn:EV.
    + destruct (0 <? byte_len v)%N eqn:EB.
      * injection E as <- <-. exists 1. split; [symmetry; apply (AF 0)|]. intros b i2 H. destruct (ONE _ _ H) as (i2' & E2 & H2). exists i2'. split; [|exact H2]. cbn [unext_posstrish_of]. rewrite E2. cbv zeta. rewrite EV, EB. reflexivity.
      * destruct (IH f2 _ _ _ ltac:(lia) E NF) as (n & EA & HB). exists (1 + n). split; [rewrite AF; exact EA|]. intros b i2 H. destruct (ONE (n + b) i2 H) as (i2' & E2 & H2).
        destruct (HB _ _ H2) as (i3 & E3 & H3). exists i3. split; [|exact H3]. cbn [unext_posstrish_of]. rewrite E2. cbv zeta. rewrite EV, EB. exact E3.
    + destruct e.
    + injection E as <- <-. exists 1. split; [symmetry; apply (AF 0)|]. intros b i2 H. destruct (ONE _ _ H) as (i2' & E2 & H2). exists i2'. split; [|exact H2]. cbn [unext_posstrish_of]. rewrite E2. cbv zeta. rewrite EV. reflexivity.
    + injection E as <- <-. exists 1. split; [symmetry; apply (AF 0)|]. intros b i2 H. destruct (ONE _ _ H) as (i2' & E2 & H2). exists i2'. split; [|exact H2]. cbn [unext_posstrish_of]. rewrite E2. cbv zeta. rewrite EV. reflexivity.
  - injection E as <- <-. exists 1. split; [symmetry; apply (AF 0)|]. intros b i2 H. destruct (ONE _ _ H) as (i2' & E2 & H2). exists i2'. split; [|exact H2]. cbn [unext_posstrish_of]. rewrite E2. reflexivity.
Qed.

Lemma np_local cs c pk i1 cur i1' pk' : unext_posstrish step1 lf cs c i1 pk = Ok (cur, i1', pk') -> exists n, i1' = after step1 n i1 /\
  forall b i2, G (n + b) i1 i2 -> exists i2', unext_posstrish step2 lf2 cs c i2 pk = Ok (cur, i2', pk') /\ G b i1' i2'.
Proof.
  unfold unext_posstrish. destruct (fst (posstrish_peek cs)) as [[it|]|e| |]; try discriminate. destruct pk as [p|].
  - intros [= <- <- <-]. exists 0. split; [reflexivity|]. eauto.
  - destruct (unext_posstrish_of step1 lf i1 c) as [r i] eqn:E. intros H. destruct r as [cu|e| |]; try discriminate. injection H as <- <- <-.
    assert (NF : Ok (E:=Empty_set) cu <> OutOfFuel) by discriminate. destruct (of_local c _ LF E NF) as (n & EA & HB). exists n. split; [exact EA|]. intros b i2 H. destruct (HB _ _ H) as (i2' & E2 & H2). exists i2'. rewrite E2. split; [reflexivity|exact H2].
Qed.

Lemma nl_local : forall f f2 s1 r s1', f <= f2 -> ustrs_next_loop step1 lf f s1 = (r, s1') -> good r -> exists n, s_adv n s1 s1' /\
  forall b s2, s_rel (n + b) s1 s2 -> exists s2', ustrs_next_loop step2 lf2 f2 s2 = (r, s2') /\ s_rel b s1' s2'.
Proof.
  induction f as [|f IH]; intros [|f2] [cur c i pk ac] r s1' HF E GD; cbn [ustrs_next_loop us_cur us_char us_iter us_peeked us_accum] in E; try (injection E as <- <-; destruct GD; fail); try lia.
  destruct cur as [cs|].
  - destruct (posstrish_next cs) as [[[it|]|e| |] cs'] eqn:EN.
    + injection E as <- <-. exists 0. split; [reflexivity|]. intros b [cur2 c2 i2 pk2 ac2] (E1 & E2 & E3 & E4 & E5). cbn in E1, E2, E3, E4, E5. subst. cbn [ustrs_next_loop us_cur]. rewrite EN. eexists. split; [reflexivity|]. repeat split; auto.
    + destruct (unext_posstrish step1 lf cs' c i pk) as [[[cur' i'] pk']|e| |] eqn:EP; try (injection E as <- <-; destruct GD; fail).
      destruct (np_local _ _ _ _ EP) as (n & EA & HB). destruct (IH f2 _ _ _ ltac:(lia) E GD) as (m & EA' & HB'). exists (n + m). split; [unfold s_adv in *; cbn [us_iter] in *; rewrite EA', EA; symmetry; apply after_add|].
      intros b [cur2 c2 i2 pk2 ac2] (E1 & E2 & E3 & E4 & E5). cbn in E1, E2, E3, E4, E5. subst. rewrite <- Nat.add_assoc in E5. destruct (HB _ _ E5) as (i2' & EP2 & H2).
      cbn [ustrs_next_loop us_cur us_char us_iter us_peeked us_accum]. rewrite EN, EP2. apply HB'. repeat split; auto.
    + destruct e.
    + injection E as <- <-. destruct GD.
    + injection E as <- <-. destruct GD.
  - injection E as <- <-. exists 0. split; [reflexivity|]. intros b [cur2 c2 i2 pk2 ac2] (E1 & E2 & E3 & E4 & E5). cbn in E1, E2, E3, E4, E5. subst. eexists. split; [reflexivity|]. repeat split; auto.
Qed.
Lemma al_local : forall f f2 s1 a r s1' a', f <= f2 -> ustrs_next_accum_loop x step1 lf f s1 a = (r, (s1', a')) -> good r -> exists n, s_adv n s1 s1' /\
  forall b s2, s_rel (n + b) s1 s2 -> exists s2', ustrs_next_accum_loop x step2 lf2 f2 s2 a = (r, (s2', a')) /\ s_rel b s1' s2'.
Proof.
  induction f as [|f IH]; intros [|f2] [cur c i pk ac] a r s1' a' HF E GD; cbn [ustrs_next_accum_loop us_cur us_char us_iter us_peeked us_accum] in E; try (injection E as <- <- <-; destruct GD; fail); try lia.
  destruct cur as [cs|].
  - destruct (posstrish_next_accum cs) as [[[it|]|e| |] cs'] eqn:EN; try (injection E as <- <- <-; destruct GD; fail).
    + injection E as <- <- <-. exists 0. split; [reflexivity|]. intros b [cur2 c2 i2 pk2 ac2] (E1 & E2 & E3 & E4 & E5). cbn in E1, E2, E3, E4, E5. subst. cbn [ustrs_next_accum_loop us_cur]. rewrite EN. eexists. split; [reflexivity|]. repeat split; auto.
    + destruct (accum_chunk posstrish_ops x ac cs' a) as [[t|e| |] [cs'' a'']] eqn:EC; try (injection E as <- <- <-; destruct GD; fail).
      * destruct (unext_posstrish step1 lf cs'' c i pk) as [[[cur' i'] pk']|e| |] eqn:EP; try (injection E as <- <- <-; destruct GD; fail).
        destruct (np_local _ _ _ _ EP) as (n & EA & HB). destruct (IH f2 _ _ _ _ _ ltac:(lia) E GD) as (m & EA' & HB'). exists (n + m). split; [unfold s_adv in *; cbn [us_iter] in *; rewrite EA', EA; symmetry; apply after_add|].
        intros b [cur2 c2 i2 pk2 ac2] (E1 & E2 & E3 & E4 & E5). cbn in E1, E2, E3, E4, E5. subst. rewrite <- Nat.add_assoc in E5. destruct (HB _ _ E5) as (i2' & EP2 & H2).
        cbn [ustrs_next_accum_loop us_cur us_char us_iter us_peeked us_accum]. rewrite EN, EC, EP2. apply HB'. repeat split; auto.
      * injection E as <- <- <-. exists 0. split; [reflexivity|]. intros b [cur2 c2 i2 pk2 ac2] (E1 & E2 & E3 & E4 & E5). cbn in E1, E2, E3, E4, E5. subst.
        cbn [ustrs_next_accum_loop us_cur us_char us_iter us_peeked us_accum]. rewrite EN, EC. eexists. split; [reflexivity|]. repeat split; auto.
  - injection E as <- <- <-. exists 0. split; [reflexivity|]. intros b [cur2 c2 i2 pk2 ac2] (E1 & E2 & E3 & E4 & E5). cbn in E1, E2, E3, E4, E5. subst. eexists. split; [reflexivity|]. repeat split; auto.
Qed.

Lemma strs_local : stream_local (ustrs_stream x step1 lf) (ustrs_stream x step2 lf2) s_rel s_adv.
Proof.
  split.
  - intros [cur c i pk ac] r s1' E GD. cbn in E. unfold ustrs_peek in E. cbn in E. destruct cur as [cs|].
    + destruct (posstrish_peek cs) as [r1 cs'] eqn:EK.
      assert (SIMPLE : (r, s1') = (r1, UStrs (Some cs') c i pk ac) -> (forall b s2, s_rel b (UStrs (Some cs) c i pk ac) s2 -> ustrs_peek step2 lf2 s2 = (r1, UStrs (Some cs') c (us_iter s2) pk ac)) ->
        exists n, s_adv n (UStrs (Some cs) c i pk ac) s1' /\ forall b s2, s_rel (n + b) (UStrs (Some cs) c i pk ac) s2 -> exists s2', ustrs_peek step2 lf2 s2 = (r, s2') /\ s_rel b s1' s2').
      { intros [= -> ->] H. exists 0. split; [reflexivity|]. intros b s2 HR. eexists. split; [eapply H; exact HR|]. destruct HR as (E1 & E2 & E3 & E4 & E5). cbn in E1, E2, E3, E4, E5. repeat split; auto. }
      destruct r1 as [[it|]|e| |]; try (injection E as <- <-; destruct GD; fail).
      * apply SIMPLE; [symmetry; exact E|]. intros b [cur2 c2 i2 pk2 ac2] (E1 & E2 & E3 & E4 & E5). cbn in E1, E2, E3, E4, E5. subst. unfold ustrs_peek. cbn. rewrite EK. reflexivity.
      * clear SIMPLE. destruct pk as [p|].
        { destruct (posstrish_peek p) as [r' p'] eqn:EP. injection E as <- <-. exists 0. split; [reflexivity|]. intros b [cur2 c2 i2 pk2 ac2] (E1 & E2 & E3 & E4 & E5). cbn in E1, E2, E3, E4, E5. subst.
          cbn. unfold ustrs_peek. cbn. rewrite EK, EP. eexists. split; [reflexivity|]. repeat split; auto. }
        destruct (unext_posstrish_of step1 lf i c) as [r2 i'] eqn:EO.
        assert (NF : r2 <> OutOfFuel) by (intros ->; injection E as <- <-; destruct GD; fail).
        destruct (of_local c _ LF EO NF) as (n & EA & HB). destruct r2 as [[p|]|e| |]; try (injection E as <- <-; destruct GD; fail); try contradiction.
        { destruct (posstrish_peek p) as [r' p'] eqn:EP. injection E as <- <-. exists n. split; [exact EA|]. intros b [cur2 c2 i2 pk2 ac2] (E1 & E2 & E3 & E4 & E5). cbn in E1, E2, E3, E4, E5. subst.
          destruct (HB _ _ E5) as (i2' & E2 & H2). cbn. unfold ustrs_peek. cbn. rewrite EK, E2, EP. eexists. split; [reflexivity|]. repeat split; auto. }
        injection E as <- <-. exists n. split; [exact EA|]. intros b [cur2 c2 i2 pk2 ac2] (E1 & E2 & E3 & E4 & E5). cbn in E1, E2, E3, E4, E5. subst.
          destruct (HB _ _ E5) as (i2' & E2 & H2). cbn. unfold ustrs_peek. cbn. rewrite EK, E2. eexists. split; [reflexivity|]. repeat split; auto.
      * destruct e.
    + injection E as <- <-. exists 0. split; [reflexivity|]. intros b [cur2 c2 i2 pk2 ac2] (E1 & E2 & E3 & E4 & E5). cbn in E1, E2, E3, E4, E5. subst. eexists. split; [reflexivity|]. repeat split; auto.
  - intros s1 r s1' E GD. destruct (nl_local _ LF E GD) as (n & EA & HB). exists n. split; [exact EA|]. intros b s2 (E1 & E2 & E3 & E4 & E5). apply HB. repeat split; auto.
  - intros s1 a r s1' a' E GD. exact (al_local _ _ LF E GD).
  - intros [cur c i pk ac] a r s1' a' E _. cbn [s_accum_done ustrs_stream] in E. unfold ustrs_accum_done in E. cbn [us_cur us_char us_iter us_peeked us_accum] in E. exists 0. split.
    + destruct cur; [destruct (accum_chunk posstrish_ops x ac p a) as [r1 [cs' a1]]|]; injection E as <- <- <-; reflexivity.
    + intros b [cur2 c2 i2 pk2 ac2] (E1 & E2 & E3 & E4 & E5). cbn in E1, E2, E3, E4, E5. subst. cbn [s_accum_done ustrs_stream]. unfold ustrs_accum_done. cbn [us_cur us_char us_iter us_peeked us_accum].
      destruct cur2; [destruct (accum_chunk posstrish_ops x ac2 p a) as [r1 [cs' a1]]|]; injection E as <- <- <-; (eexists; split; [reflexivity|]; repeat split; auto).
  - reflexivity.
  - unfold s_adv. intros n m s s' s'' E1 E2. rewrite E2, E1. symmetry. apply after_add.
Qed.

Lemma new_local i1 s1 : ustrs_new (TT:=TT) step1 lf i1 = Ok s1 -> exists n, us_iter s1 = after step1 n i1 /\
  forall b i2, G (n + b) i1 i2 -> exists s2, ustrs_new step2 lf2 i2 = Ok s2 /\ s_rel b s1 s2.
Proof.
  unfold ustrs_new. destruct (unext_posstrish_of step1 lf i1 0) as [r i'] eqn:E. destruct r as [cu|e| |]; try discriminate. intros [= <-].
  assert (NF : Ok (E:=Empty_set) cu <> OutOfFuel) by discriminate. destruct (of_local _ _ LF E NF) as (n & EA & HB). exists n. split; [exact EA|].
  intros b i2 H. destruct (HB _ _ H) as (i2' & E2 & H2). rewrite E2. eexists. split; [reflexivity|]. repeat split; auto.
Qed.
End Strings.

Section StringList.
Context {TT A : Type} (x : text_ops TT posstrish A) (lf : nat).
Definition conv (s : strishiter TT) : ustrs TT (list str) := UStrs (si_cur s) (si_char s) (si_iter s) (si_peeked s) (si_accum s).

Lemma of_list c : forall l f, length l < f -> unext_posstrish_of list_step f l c = next_posstrish_of l c.
Proof.
  induction l as [|s l IH]; intros [|f] H; cbn [length] in H; try lia; [reflexivity|]. cbn [unext_posstrish_of next_posstrish_of list_step hd_error tl]. cbv zeta.
  destruct (rc_as_str (px_val (posstrish_new s c))) as [v|e| |]; try reflexivity. destruct (0 <? byte_len v)%N; [reflexivity|]. apply IH. lia.
Qed.
Lemma of_len c : forall l r l', next_posstrish_of l c = (r, l') -> length l' <= length l /\ (forall p, r = Ok (Some p) -> length l' < length l).
Proof.
  induction l as [|s l IH]; intros r l' H; cbn [next_posstrish_of] in H; [injection H as <- <-; split; [lia|discriminate]|]. cbv zeta in H. cbn [length].
  destruct (rc_as_str (px_val (posstrish_new s c))) as [v|e| |]; try (injection H as <- <-; split; [lia|discriminate]).
  destruct (0 <? byte_len v)%N; [injection H as <- <-; split; [lia|intros; lia]|]. destruct (IH _ _ H) as (H1 & H2). split; [lia|]. intros p E. specialize (H2 p E). lia.
Qed.
Lemma np_list cs c l pk : length l < lf -> unext_posstrish list_step lf cs c l pk = next_posstrish cs c l pk.
Proof. intros H. unfold unext_posstrish, next_posstrish. rewrite of_list by exact H. reflexivity. Qed.
Definition need (s : strishiter TT) : nat := match si_cur s with None => 1 | Some _ => 2 + length (si_iter s) + match si_peeked s with Some _ => 1 | None => 0 end end.
Lemma np_len cs c l pk cur l' pk' ac ac' c' : next_posstrish cs c l pk = Ok (cur, l', pk') -> length l' <= length l /\
  need (StrishIter cur c' l' pk' ac') < need (StrishIter (Some cs) c l pk ac).
Proof.
  unfold next_posstrish. destruct (fst (posstrish_peek cs)) as [[it|]|e| |]; try discriminate. destruct pk as [p|].
  - intros [= <- <- <-]. cbn. lia.
  - destruct (next_posstrish_of l c) as [r i] eqn:E. destruct r as [cu|e| |]; try discriminate. intros [= <- <- <-].
    destruct (of_len _ _ E) as (H1 & H2). split; [exact H1|]. destruct cu as [p|]; cbn; [specialize (H2 p eq_refl)|]; lia.
Qed.
Lemma of_fuel c l : fst (next_posstrish_of l c) <> OutOfFuel.
Proof.
  induction l as [|s l IH]; cbn [next_posstrish_of]; [discriminate|]. cbv zeta. destruct (rc_as_str (px_val (posstrish_new s c))) as [v|e| |]; try discriminate. destruct (0 <? byte_len v)%N; [discriminate|exact IH].
Qed.
Lemma np_fuel cs c l pk : next_posstrish cs c l pk <> OutOfFuel.
Proof.
  unfold next_posstrish. destruct (fst (posstrish_peek cs)) as [[it|]|e| |]; try discriminate. destruct pk; [discriminate|].
  pose proof (of_fuel c l) as H. destruct (next_posstrish_of l c) as [r i]. destruct r as [cu|e| |]; try discriminate. contradiction.
Qed.
Lemma nl_list : forall f1 f2 s, need s <= f1 -> need s <= f2 -> length (si_iter s) < lf ->
  ustrs_next_loop list_step lf f1 (conv s) = (fst (strishiter_next_loop f2 s), conv (snd (strishiter_next_loop f2 s))) /\
  length (si_iter (snd (strishiter_next_loop f2 s))) <= length (si_iter s).
Proof.
  assert (N1 : forall s, 1 <= need s) by (intros s; unfold need; destruct (si_cur s); lia).
  induction f1 as [|f1 IH]; intros f2 [cur c l pk ac] H1 H2 HL; [specialize (N1 (StrishIter cur c l pk ac)); lia|]. destruct f2 as [|f2]; [specialize (N1 (StrishIter cur c l pk ac)); lia|].
  cbn [conv ustrs_next_loop strishiter_next_loop us_cur us_char us_iter us_peeked us_accum si_cur si_char si_iter si_peeked si_accum] in *.
  destruct cur as [cs|]; [|split; [reflexivity|cbn; lia]].
  destruct (posstrish_next cs) as [[[it|]|e| |] cs'] eqn:EN; try (split; [reflexivity|cbn; lia]).
  rewrite np_list by exact HL. destruct (next_posstrish cs' c l pk) as [[[cur' l'] pk']|e| |] eqn:EP; try (split; [reflexivity|cbn; lia]).
  - destruct (np_len _ _ _ _ ac ac c EP) as (K1 & K2). change (need (StrishIter (Some cs') c l pk ac)) with (need (StrishIter (Some cs) c l pk ac)) in K2.
    destruct (IH f2 (StrishIter cur' c l' pk' ac)) as (G1 & G2); [lia|lia|cbn; lia|]. split; [exact G1|]. cbn [si_iter] in G2. lia.
  - destruct (np_fuel _ _ _ _ EP).
Qed.
Lemma al_list : forall f1 f2 s a, need s <= f1 -> need s <= f2 -> length (si_iter s) < lf ->
  ustrs_next_accum_loop x list_step lf f1 (conv s) a = (fst (strishiter_next_accum_loop x f2 s a), (conv (fst (snd (strishiter_next_accum_loop x f2 s a))), snd (snd (strishiter_next_accum_loop x f2 s a)))) /\
  length (si_iter (fst (snd (strishiter_next_accum_loop x f2 s a)))) <= length (si_iter s).
Proof.
  assert (N1 : forall s, 1 <= need s) by (intros s; unfold need; destruct (si_cur s); lia).
  induction f1 as [|f1 IH]; intros f2 [cur c l pk ac] a H1 H2 HL; [specialize (N1 (StrishIter cur c l pk ac)); lia|]. destruct f2 as [|f2]; [specialize (N1 (StrishIter cur c l pk ac)); lia|].
  cbn [conv ustrs_next_accum_loop strishiter_next_accum_loop us_cur us_char us_iter us_peeked us_accum si_cur si_char si_iter si_peeked si_accum] in *.
  destruct cur as [cs|]; [|split; [reflexivity|cbn; lia]].
  destruct (posstrish_next_accum cs) as [[[it|]|e| |] cs'] eqn:EN; try (split; [reflexivity|cbn; lia]).
  destruct (accum_chunk posstrish_ops x ac cs' a) as [[t|e| |] [cs'' a'']] eqn:EC; try (split; [reflexivity|cbn; lia]).
  rewrite np_list by exact HL. destruct (next_posstrish cs'' c l pk) as [[[cur' l'] pk']|e| |] eqn:EP; try (split; [reflexivity|cbn; lia]).
  - destruct (np_len _ _ _ _ ac (Some t) c EP) as (K1 & K2). change (need (StrishIter (Some cs'') c l pk ac)) with (need (StrishIter (Some cs) c l pk ac)) in K2.
    destruct (IH f2 (StrishIter cur' c l' pk' (Some t)) a'') as (G1 & G2); [lia|lia|cbn; lia|]. split; [exact G1|]. cbn [si_iter] in G2. lia.
  - destruct (np_fuel _ _ _ _ EP).
Qed.

Lemma need_fuel s : need s <= strishiter_fuel s.
Proof. unfold need, strishiter_fuel. destruct (si_cur s); [destruct (si_peeked s)|]; lia. Qed.

Definition l_rel (s1 : ustrs TT (list str)) (s2 : strishiter TT) : Prop := s1 = conv s2 /\ strishiter_fuel s2 <= lf.
Lemma sl_ops s : strishiter_fuel s <= lf ->
  (s_peek (ustrs_stream x list_step lf) (conv s) = (fst (s_peek (strishiter_stream x) s), conv (snd (s_peek (strishiter_stream x) s))) /\
   length (si_iter (snd (s_peek (strishiter_stream x) s))) <= length (si_iter s)) /\
  (s_next (ustrs_stream x list_step lf) (conv s) = (fst (s_next (strishiter_stream x) s), conv (snd (s_next (strishiter_stream x) s))) /\
   length (si_iter (snd (s_next (strishiter_stream x) s))) <= length (si_iter s)) /\
  (forall a, s_next_accum (ustrs_stream x list_step lf) (conv s) a = (fst (s_next_accum (strishiter_stream x) s a), (conv (fst (snd (s_next_accum (strishiter_stream x) s a))), snd (snd (s_next_accum (strishiter_stream x) s a)))) /\
   length (si_iter (fst (snd (s_next_accum (strishiter_stream x) s a)))) <= length (si_iter s)) /\
  (forall a, s_accum_done (ustrs_stream x list_step lf) (conv s) a = (fst (s_accum_done (strishiter_stream x) s a), (conv (fst (snd (s_accum_done (strishiter_stream x) s a))), snd (snd (s_accum_done (strishiter_stream x) s a)))) /\
   length (si_iter (fst (snd (s_accum_done (strishiter_stream x) s a)))) <= length (si_iter s)).
Proof.
  intros HF. assert (HL : length (si_iter s) < lf) by (unfold strishiter_fuel in HF; lia). split; [|split; [|split]]; cbn [s_peek s_next s_next_accum s_accum_done ustrs_stream strishiter_stream].
  - destruct s as [cur c l pk ac]. unfold ustrs_peek, strishiter_peek. cbn [conv us_cur us_char us_iter us_peeked us_accum si_cur si_char si_iter si_peeked si_accum] in *. destruct cur as [cs|]; [|split; [reflexivity|cbn; lia]].
    destruct (posstrish_peek cs) as [[[it|]|e| |] cs']; try (split; [reflexivity|cbn; lia]). destruct pk as [p|].
    + destruct (posstrish_peek p) as [r' p']. split; [reflexivity|cbn; lia].
    + rewrite of_list by exact HL. destruct (next_posstrish_of l c) as [r l'] eqn:EO. pose proof (proj1 (of_len _ _ EO)) as K.
      destruct r as [[p|]|e| |]; [destruct (posstrish_peek p) as [r' p']|..]; try (split; [reflexivity|cbn; lia]).
      pose proof (of_fuel c l) as H. rewrite EO in H. contradiction.
  - unfold ustrs_next, strishiter_next.
    destruct (@nl_list lf (strishiter_fuel s) (StrishIter (si_cur s) (si_char s) (si_iter s) (si_peeked s) None)) as (G1 & G2); [|apply (need_fuel s)|exact HL|auto].
    exact (Nat.le_trans _ _ _ (need_fuel s) HF).
  - intros a. unfold ustrs_next_accum, strishiter_next_accum. apply al_list; [|apply need_fuel|exact HL]. exact (Nat.le_trans _ _ _ (need_fuel s) HF).
  - intros a. destruct s as [cur c l pk ac]. unfold ustrs_accum_done, strishiter_accum_done. cbn [conv us_cur us_char us_iter us_peeked us_accum si_cur si_char si_iter si_peeked si_accum] in *.
    destruct cur as [cs|]; [destruct (accum_chunk posstrish_ops x ac cs a) as [r1 [cs' a1]]|]; (split; [reflexivity|cbn; lia]).
Qed.

Lemma sl_local : stream_local (ustrs_stream x list_step lf) (strishiter_stream x) (fun _ => l_rel) (fun _ _ _ => True).
Proof.
  split; auto; unfold l_rel.
  - intros s1 r s1' E _. exists 0. split; [exact I|]. intros _ s2 (-> & H). destruct (sl_ops H) as ((H1 & H2) & _). destruct (s_peek (strishiter_stream x) s2) as [r2 s2']. rewrite E in H1. cbn [fst snd] in H1. injection H1 as -> ->.
    eexists. split; [reflexivity|]. split; [reflexivity|]. unfold strishiter_fuel in *. cbn [snd] in *. lia.
  - intros s1 r s1' E _. exists 0. split; [exact I|]. intros _ s2 (-> & H). destruct (sl_ops H) as (_ & (H1 & H2) & _). destruct (s_next (strishiter_stream x) s2) as [r2 s2']. rewrite E in H1. cbn [fst snd] in H1. injection H1 as -> ->.
    eexists. split; [reflexivity|]. split; [reflexivity|]. unfold strishiter_fuel in *. cbn [snd] in *. lia.
  - intros s1 a r s1' a' E _. exists 0. split; [exact I|]. intros _ s2 (-> & H). destruct (sl_ops H) as (_ & _ & H0 & _). destruct (H0 a) as (H1 & H2). destruct (s_next_accum (strishiter_stream x) s2 a) as [r2 [s2' a2']]. rewrite E in H1. cbn [fst snd] in H1. injection H1 as -> -> ->.
    eexists. split; [reflexivity|]. split; [reflexivity|]. unfold strishiter_fuel in *. cbn [fst snd] in *. lia.
  - intros s1 a r s1' a' E _. exists 0. split; [exact I|]. intros _ s2 (-> & H). destruct (sl_ops H) as (_ & _ & _ & H0). destruct (H0 a) as (H1 & H2). destruct (s_accum_done (strishiter_stream x) s2 a) as [r2 [s2' a2']]. rewrite E in H1. cbn [fst snd] in H1. injection H1 as -> -> ->.
    eexists. split; [reflexivity|]. split; [reflexivity|]. unfold strishiter_fuel in *. cbn [fst snd] in *. lia.
Qed.
Lemma ls_local : stream_local (strishiter_stream x) (ustrs_stream x list_step lf) (fun _ s2 s1 => l_rel s1 s2) (fun _ _ _ => True).
Proof.
  split; auto; unfold l_rel.
  - intros s2 r s2' E _. exists 0. split; [exact I|]. intros _ s1 (-> & H). destruct (sl_ops H) as ((H1 & H2) & _). rewrite E in H1, H2.
    eexists. split; [exact H1|]. split; [reflexivity|]. unfold strishiter_fuel in *. cbn [snd] in *. lia.
  - intros s2 r s2' E _. exists 0. split; [exact I|]. intros _ s1 (-> & H). destruct (sl_ops H) as (_ & (H1 & H2) & _). rewrite E in H1, H2.
    eexists. split; [exact H1|]. split; [reflexivity|]. unfold strishiter_fuel in *. cbn [snd] in *. lia.
  - intros s2 a r s2' a' E _. exists 0. split; [exact I|]. intros _ s1 (-> & H). destruct (sl_ops H) as (_ & _ & H0 & _). destruct (H0 a) as (H1 & H2). rewrite E in H1, H2.
    eexists. split; [exact H1|]. split; [reflexivity|]. unfold strishiter_fuel in *. cbn [fst snd] in *. lia.
  - intros s2 a r s2' a' E _. exists 0. split; [exact I|]. intros _ s1 (-> & H). destruct (sl_ops H) as (_ & _ & _ & H0). destruct (H0 a) as (H1 & H2). rewrite E in H1, H2.
    eexists. split; [exact H1|]. split; [reflexivity|]. unfold strishiter_fuel in *. cbn [fst snd] in *. lia.
Qed.
Lemma sl_new l : 3 + length l <= lf -> match strishiter_new (TT:=TT) l with
  | Ok s2 => ustrs_new list_step lf l = Ok (conv s2) /\ strishiter_fuel s2 <= lf
  | _ => True end.
Proof.
  intros H. unfold strishiter_new, ustrs_new. rewrite of_list by lia. destruct (next_posstrish_of l 0) as [r l'] eqn:E. destruct r as [cu|e| |]; cbn; auto.
  split; [reflexivity|]. unfold strishiter_fuel. cbn. pose proof (proj1 (of_len _ _ E)). lia.
Qed.
End StringList.

(** ** Runs *)
(** The iterator over a sequence: the sequence, the number of calls made of it, and
    the number of calls that will be made. *)
Definition seq_state X : Type := (nat -> option X) * nat * nat.
Definition seq_step {X} (s : seq_state X) : option X * seq_state X := let '(f, k, B) := s in (f k, (f, Datatypes.S k, B)).
Lemma seq_after X : forall m (f : nat -> option X) k B, after seq_step m (f, k, B) = (f, m + k, B).
Proof. induction m as [|m IH]; intros f k B; [reflexivity|]. cbn [after seq_step snd]. rewrite IH. f_equal. f_equal. lia. Qed.
Lemma seq_result X k (f : nat -> option X) B : result seq_step (f, 0, B) k = f k.
Proof. unfold result. rewrite seq_after. cbn. f_equal. lia. Qed.
Definition to_seq {I1 X} (step1 : I1 -> option X * I1) (b : nat) (i1 : I1) (s : seq_state X) : Prop :=
  agree_upto step1 seq_step b i1 s /\ snd (fst s) + b = snd s.
Lemma to_seq_step I1 X (step1 : I1 -> option X * I1) b i1 s : to_seq step1 (1 + b) i1 s ->
  fst (step1 i1) = fst (seq_step s) /\ to_seq step1 b (snd (step1 i1)) (snd (seq_step s)).
Proof. intros (H & HB). destruct (agree_step H) as (H1 & H2). split; [exact H1|]. split; [exact H2|]. destruct s as [[f k] B]. cbn in *. lia. Qed.
Definition of_seq {I2 X} (step2 : I2 -> option X * I2) (i0 : I2) (b : nat) (s : seq_state X) (i2 : I2) : Prop :=
  fst (fst s) = result step2 i0 /\ i2 = after step2 (snd (fst s)) i0.
Lemma of_seq_step I2 X (step2 : I2 -> option X * I2) i0 b s i2 : of_seq step2 i0 (1 + b) s i2 ->
  fst (seq_step s) = fst (step2 i2) /\ of_seq step2 i0 b (snd (seq_step s)) (snd (step2 i2)).
Proof.
  destruct s as [[f k] B]. intros (E1 & E2). cbn in E1, E2. subst. split; [reflexivity|]. split; [reflexivity|]. cbn [snd seq_step fst]. rewrite <- Nat.add_1_r, after_add. reflexivity.
Qed.
Lemma list_result X : forall k (l : list X), result list_step l k = nth_error l k.
Proof. induction k as [|k IH]; intros [|c l]; try reflexivity; [change (result list_step (@nil X) k = None); rewrite IH; destruct k; reflexivity|exact (IH l)]. Qed.
Lemma list_after X : forall n (l : list X), after list_step n l = skipn n l.
Proof. induction n as [|n IH]; intros [|c l]; try reflexivity; [change (after list_step n (@nil X) = []); rewrite IH; destruct n; reflexivity|exact (IH l)]. Qed.

Section Runs.
Context {TT A ET CE : Type} (umax : N) (cc : classifier) (x : text_ops TT posstrish A)
        (co : concat_ops A TT) (ao : alloc_ops A TT ET) (bnd : bindings A TT ET charpos CE).
Local Notation chars_next step := (nexts umax cc (uchars_stream x step) co ao bnd).
Local Notation strs_next step lf := (nexts umax cc (ustrs_stream x step lf) co ao bnd).

Lemma chars_nexts I1 (step1 : I1 -> option char * I1) i1 d a os st' : chars_next step1 (PState (uchars_new i1) d a) os st' ->
  exists n, fst (uk_iter (uc_iter (ps_strm st'))) = after step1 n i1 /\ forall I2 (step2 : I2 -> option char * I2) i2, agree_upto step1 step2 n i1 i2 ->
    exists s', chars_next step2 (PState (uchars_new i2) d a) os (PState s' (ps_depth st') (ps_alloc st')) /\ fst (uk_iter (uc_iter s')) = after step2 n i2.
Proof.
  intros N. destruct (l_nexts (chars_local x step1 seq_step _ (@to_seq_step _ _ step1)) N) as (n & HA & HB). exists n. split; [exact HA|]. intros I2 step2 i2 H.
  destruct (HB 0 (uchars_new (result step2 i2, 0, n))) as (s2 & N2 & H2).
  { repeat split; [|cbn; lia]. intros k Hk. cbn [uchars_new uc_iter uk_iter fst]. rewrite seq_result. apply H. lia. }
  destruct (l_nexts (chars_local x seq_step step2 _ (@of_seq_step _ _ step2 i2)) N2) as (m & HA2 & HC). destruct (HC 0 (uchars_new i2)) as (s3 & N3 & H3).
  { repeat split. }
  exists s3. split; [exact N3|]. destruct H2 as (_ & _ & _ & (_ & K)), H3 as (_ & _ & _ & (_ & K')). rewrite K'. f_equal. cbn [ps_strm] in *.
  unfold c_adv in HA2. cbn [uchars_new uc_iter uk_iter fst ps_strm] in HA2. rewrite seq_after in HA2. rewrite HA2 in *. cbn in K |- *. lia.
Qed.

Lemma strs_nexts I1 (step1 : I1 -> option str * I1) lf i1 s1 d a os st' : ustrs_new step1 lf i1 = Ok s1 -> strs_next step1 lf (PState s1 d a) os st' ->
  exists n, us_iter (ps_strm st') = after step1 n i1 /\ forall I2 (step2 : I2 -> option str * I2) lf2 i2, agree_upto step1 step2 n i1 i2 -> lf <= lf2 ->
    exists s2 s', ustrs_new step2 lf2 i2 = Ok s2 /\ strs_next step2 lf2 (PState s2 d a) os (PState s' (ps_depth st') (ps_alloc st')) /\ us_iter s' = after step2 n i2.
Proof.
  intros E N. destruct (new_local step1 seq_step (le_n lf) _ (@to_seq_step _ _ step1) _ E) as (n & HA & HB).
  destruct (l_nexts (strs_local x step1 seq_step (le_n lf) _ (@to_seq_step _ _ step1)) N) as (m & HA' & HB').
  exists (n + m). split; [rewrite after_add, <- HA; exact HA'|]. intros I2 step2 lf2 i2 H LF.
  destruct (HB (m + 0) (result step2 i2, 0, n + m)) as (s2 & E2 & H2). { split; [|cbn; lia]. intros k Hk. rewrite seq_result. apply H. lia. }
  destruct (HB' 0 s2 H2) as (s3 & N3 & H3).
  destruct (new_local seq_step step2 LF _ (@of_seq_step _ _ step2 i2) _ E2) as (n4 & E4 & H4).
  destruct (l_nexts (strs_local x seq_step step2 LF _ (@of_seq_step _ _ step2 i2)) N3) as (m4 & E4' & H4').
  destruct (H4 (m4 + 0) i2) as (s5 & E5 & H5). { split; reflexivity. }
  destruct (H4' 0 s5 H5) as (s6 & N6 & H6). exists s5, s6. split; [exact E5|]. split; [exact N6|].
  destruct H3 as (_ & _ & _ & _ & _ & K), H6 as (_ & _ & _ & _ & _ & K'). rewrite K'. f_equal. cbn [ps_strm] in *.
  unfold s_adv in E4'. cbn [ps_strm] in E4'. rewrite E4' in K |- *. rewrite E4, !seq_after in *. cbn in K |- *. lia.
Qed.

Lemma chars_list l d a os d' a' : (exists s', chars_next list_step (PState (uchars_new l) d a) os (PState s' d' a')) <->
  (exists s', nexts umax cc (chariter_stream x) co ao bnd (PState (chariter_new l) d a) os (PState s' d' a')).
Proof.
  split; intros (s' & N).
  - destruct (l_nexts (cl_local x) N) as (n & _ & H). destruct (H 0 _ (cl_new l)) as (s2 & N2 & _). eauto.
  - destruct (l_nexts (lc_local x) N) as (n & _ & H). destruct (H 0 _ (cl_new l)) as (s2 & N2 & _). eauto.
Qed.
Lemma strs_list lf l d a os d' a' : 3 + length l <= lf ->
  (exists s s', ustrs_new list_step lf l = Ok s /\ strs_next list_step lf (PState s d a) os (PState s' d' a')) <->
  (exists s s', strishiter_new l = Ok s /\ nexts umax cc (strishiter_stream x) co ao bnd (PState s d a) os (PState s' d' a')).
Proof.
  intros HL. pose proof (sl_new (TT:=TT) _ HL) as HN. split; intros (s & s' & E & N).
  - destruct (strishiter_new l) as [s2|e| |] eqn:E2.
    + destruct HN as (E1 & HF). rewrite E in E1. injection E1 as ->. destruct (l_nexts (sl_local x lf) N) as (n & _ & H). destruct (H 0 s2 (conj eq_refl HF)) as (s3 & N3 & _). eauto.
    + destruct e.
    + exfalso. clear HN. unfold strishiter_new, ustrs_new in *. rewrite of_list in E by lia. destruct (next_posstrish_of l 0) as [[cu|e| |] l']; discriminate.
    + exfalso. clear HN. unfold strishiter_new, ustrs_new in *. rewrite of_list in E by lia. destruct (next_posstrish_of l 0) as [[cu|e| |] l']; discriminate.
  - rewrite E in HN. destruct HN as (E1 & HF). destruct (l_nexts (ls_local x lf) N) as (n & _ & H). destruct (H 0 (conv s) (conj eq_refl HF)) as (s3 & N3 & _). eauto.
Qed.

Lemma enum_length l : forall n, length (enumerate n l) = length l.
Proof. induction l as [|c l IH]; intros n; cbn; [reflexivity|rewrite IH; reflexivity]. Qed.
Lemma chars_from l d a os d' a' s' : nexts umax cc (chariter_stream x) co ao bnd (PState (chariter_new l) d a) os (PState s' d' a') ->
  exists n, length (pk_iter (ch_iter s')) = length l - n /\ forall I2 (step2 : I2 -> option char * I2) i2, (forall k, k < n -> result step2 i2 k = nth_error l k) ->
    exists s2, chars_next step2 (PState (uchars_new i2) d a) os (PState s2 d' a') /\ fst (uk_iter (uc_iter s2)) = after step2 n i2.
Proof.
  intros N. destruct (l_nexts (lc_local x) N) as (m & _ & H). destruct (H 0 _ (cl_new l)) as (s2 & N2 & (_ & _ & HL)). cbn [ps_strm ps_depth ps_alloc] in *.
  destruct (chars_nexts N2) as (n & HA & HB). cbn [ps_strm ps_depth ps_alloc] in *. exists n. split.
  - rewrite HL, HA, enum_length, list_after, skipn_length. reflexivity.
  - intros I2 step2 i2 HG. apply HB. intros k Hk. rewrite list_result. symmetry. exact (HG k Hk).
Qed.
Lemma strs_from l s d a os d' a' s' : strishiter_new l = Ok s -> nexts umax cc (strishiter_stream x) co ao bnd (PState s d a) os (PState s' d' a') ->
  forall lf, 3 + length l <= lf -> exists n, length (si_iter s') = length l - n /\ forall I2 (step2 : I2 -> option str * I2) i2, (forall k, k < n -> result step2 i2 k = nth_error l k) ->
    exists s1 s2, ustrs_new step2 lf i2 = Ok s1 /\ strs_next step2 lf (PState s1 d a) os (PState s2 d' a') /\ us_iter s2 = after step2 n i2.
Proof.
  intros E N lf HL. pose proof (sl_new (TT:=TT) _ HL) as HN. rewrite E in HN. destruct HN as (E1 & HF).
  destruct (l_nexts (ls_local x lf) N) as (m & _ & H). destruct (H 0 (conv s) (conj eq_refl HF)) as (s3 & N3 & (-> & _)). cbn [ps_strm ps_depth ps_alloc] in *.
  destruct (strs_nexts _ E1 N3) as (n & HA & HB). cbn [ps_strm ps_depth ps_alloc conv us_iter] in *. exists n. split.
  - rewrite HA, list_after, skipn_length. reflexivity.
  - intros I2 step2 i2 HG. apply HB; [|apply le_n]. intros k Hk. rewrite list_result. symmetry. exact (HG k Hk).
Qed.
End Runs.
