(** Counting allocations when texts do not allocate. *)
From Coq Require Import List Arith NArith Bool Lia.
From Verif.Model Require Import Prelude Parser Iter Chunk TextIter TextVec PosStrish CharIter StrishIter Alloc.
From Verif.Spec Require Import Contract Grammar Lawful Memory Run.
From Verif.Proofs Require Import Sim Refine Transfer Memory MemoryFacts.
Import ListNotations.
Set Implicit Arguments.

(** ** The parser *)
Section Count.
Context {S A TT ET Pos CE : Type} (umax : N) (cc : classifier).
Context (so : stream_ops S A TT Pos) (co : concat_ops A TT) (ao : alloc_ops A TT ET).
Local Notation bnd := (fun _ : datum TT ET => @None (combiner A TT ET Pos CE)).
Context (used : A -> nat).
Context (HS1 : forall s a o s' a', s_next_accum so s a = (Ok o, (s', a')) -> used a' = used a)
        (HS2 : forall s a t s' a', s_accum_done so s a = (Ok t, (s', a')) -> used a' = used a)
        (HC : forall t u a v a', t_concat co t u a = (Ok v, a') -> used a' = used a)
        (HN : forall d a d' a', a_new_datum ao d a = (Ok d', a') -> d' = d /\ used a' = Datatypes.S (used a)).

Local Notation pst := (pstate S A).
Local Notation M X := (M (S:=S) (A:=A) (Pos:=Pos) (CE:=CE) X).
Definition usedq (st : pst) : nat := used (ps_alloc st).
Definition accq {X} (m : M X) (c : X -> nat) : Prop :=
  forall st v st', m st = (Ok v, st') -> usedq st' = usedq st + c v.
Local Notation free := (fun _ => 0).

Lemma q_ret X (v : X) (c : X -> nat) : c v = 0 -> accq (ret v) c.
Proof. intros H st v' st' [= <- <-]. lia. Qed.
Lemma q_raise X e (c : X -> nat) : accq (raise e) c.
Proof. intros st v st' [=]. Qed.
Lemma q_panic X (c : X -> nat) : accq panic c.
Proof. intros st v st' [=]. Qed.
Lemma q_nofuel X (c : X -> nat) : accq nofuel c.
Proof. intros st v st' [=]. Qed.
Lemma q_inv X Y (m : M X) (f : X -> M Y) st v st' : bind m f st = (Ok v, st') ->
  exists y s1, m st = (Ok y, s1) /\ f y s1 = (Ok v, st').
Proof. unfold bind. destruct (m st) as [[y|e| |] s1]; try discriminate. eauto. Qed.
Lemma q_bind X Y (m : M X) (f : X -> M Y) c : accq m free -> (forall v, accq (f v) c) -> accq (bind m f) c.
Proof.
  intros Hm Hf st v st' E. apply q_inv in E. destruct E as (y & s1 & E1 & E2).
  rewrite (Hf _ _ _ _ E2), (Hm _ _ _ E1). lia.
Qed.
Lemma q_assert b : accq (assert b) free.
Proof. destruct b; [apply q_ret; reflexivity|apply q_panic]. Qed.
Lemma q_get_depth : accq get_depth free.
Proof. intros st v st' [= <- <-]. lia. Qed.
Lemma q_incr_depth : accq (incr_depth umax) free.
Proof.
  intros st v st' E. unfold incr_depth in E. destruct (ps_depth st <? umax)%N; [|discriminate].
  injection E as <- <-. unfold usedq; cbn; lia.
Qed.
Lemma q_finally X (m : M X) c : accq m c -> accq (finally m decr_depth) c.
Proof.
  intros Hm st v st' E. unfold finally, bind, decr_depth in E.
  destruct (m st) as [[y|e| |] s1] eqn:Em; try discriminate; destruct (0 <? ps_depth s1)%N; try discriminate.
  injection E as <- <-. exact (Hm _ _ _ Em).
Qed.
Lemma q_peek : accq (peek so) free.
Proof.
  intros st v st' E. unfold peek in E. destruct (s_peek so (ps_strm st)) as [[o|[]| |] s]; try discriminate.
  injection E as <- <-. unfold usedq; cbn; lia.
Qed.
Lemma q_next : accq (next so) free.
Proof.
  intros st v st' E. unfold next in E. destruct (s_next so (ps_strm st)) as [[o|[]| |] s]; try discriminate.
  injection E as <- <-. unfold usedq; cbn; lia.
Qed.
Lemma q_next_accum : accq (next_accum so) free.
Proof.
  intros st v st' E. unfold next_accum in E. destruct (s_next_accum so (ps_strm st) (ps_alloc st)) as [[o|e| |] [s a]] eqn:En; try discriminate.
  injection E as <- <-. unfold usedq; cbn. rewrite (HS1 _ _ En). lia.
Qed.
Lemma q_accum_done : accq (accum_done so) free.
Proof.
  intros st v st' E. unfold accum_done in E. destruct (s_accum_done so (ps_strm st) (ps_alloc st)) as [[o|e| |] [s a]] eqn:En; try discriminate.
  injection E as <- <-. unfold usedq; cbn. rewrite (HS2 _ _ En). lia.
Qed.
Lemma q_concat t u : accq (concat co t u) free.
Proof.
  intros st v st' E. unfold concat in E. destruct (t_concat co t u (ps_alloc st)) as [[o|e| |] a] eqn:En; try discriminate.
  injection E as <- <-. unfold usedq; cbn. rewrite (HC _ _ _ En). lia.
Qed.
Lemma q_concat_accum t : accq (concat_accum so co t) free.
Proof. unfold concat_accum. apply q_bind; [apply q_accum_done|]. intros u. apply q_concat. Qed.
Lemma q_check_end_char d : accq (check_end_char cc so d) free.
Proof.
  unfold check_end_char. apply q_bind; [apply q_peek|]. intros o. apply q_bind; [apply q_assert|]. intros _.
  destruct (0 <? d)%N; [apply q_ret; reflexivity|]. apply q_bind; [apply q_next|]. intros [it|]; [apply q_raise|apply q_panic].
Qed.
Lemma q_text_done t nl : accq (parse_text_done so co t nl) free.
Proof. unfold parse_text_done. destruct (nl =? 0)%N; [apply q_concat_accum|apply q_raise]. Qed.
Lemma q_text_loop m : forall fuel t nl, accq (parse_text_loop umax cc so co fuel m t nl) free.
Proof.
  induction fuel as [|f IH]; intros t nl; cbn [parse_text_loop]; [apply q_nofuel|].
  apply q_bind; [apply q_peek|]. intros [it|]; [|apply q_text_done]. cbv zeta.
  destruct ((nl =? 0)%N && is_end_char cc (it_ch it) m)%bool; [apply q_text_done|].
  destruct (is_nest_escape cc (it_ch it)).
  { apply q_bind; [apply q_concat_accum|]. intros t'. apply q_bind; [apply q_next|]. intros _.
    apply q_bind; [apply q_next_accum|]. intros _. apply IH. }
  destruct (is_nest_start cc (it_ch it)).
  { apply q_bind; [apply q_next_accum|]. intros _. destruct (nl <? umax)%N; [apply IH|apply q_panic]. }
  destruct (is_nest_end cc (it_ch it)).
  { destruct (0 <? nl)%N.
    - apply q_bind; [apply q_next_accum|]. intros _. apply IH.
    - apply q_bind; [apply q_get_depth|]. intros d. apply q_bind; [apply q_check_end_char|]. intros _. apply q_text_done. }
  apply q_bind; [apply q_next_accum|]. intros _. apply IH.
Qed.
Lemma q_parse_text fuel m : accq (parse_text umax cc so co fuel m) free.
Proof. apply q_text_loop. Qed.
Lemma q_skip_whitespace fuel : accq (skip_whitespace cc so fuel) free.
Proof.
  induction fuel as [|f IH]; cbn [skip_whitespace]; [apply q_nofuel|].
  apply q_bind; [apply q_peek|]. intros [it|]; [|apply q_ret; reflexivity].
  destruct (is_whitespace cc (it_ch it)); [|apply q_ret; reflexivity]. apply q_bind; [apply q_next|]. auto.
Qed.
Lemma q_nest_end : accq (nest_end cc so) free.
Proof. unfold nest_end. apply q_bind; [apply q_next|]. intros [it|]; [apply q_assert|apply q_raise]. Qed.
Lemma q_new_datum d st v st' : new_datum (S:=S) (Pos:=Pos) (CE:=CE) ao d st = (Ok v, st') -> v = d /\ usedq st' = Datatypes.S (usedq st).
Proof.
  intros E. unfold new_datum in E. destruct (a_new_datum ao d (ps_alloc st)) as [[d'|e| |] a'] eqn:En; try discriminate.
  injection E as <- <-. exact (HN _ _ En).
Qed.

Definition ocost (o : option (datum TT ET)) : nat := match o with Some d => 2 * inner_count d | None => 0 end.
Lemma q_parser fuel :
  (forall m, accq (parse_next umax cc so co ao bnd fuel m) ocost) /\
  accq (parse_nested umax cc so co ao bnd fuel) ocost /\
  (forall m, accq (parse_all umax cc so co ao bnd fuel m) (fun d => 2 * inner_count d)).
Proof.
  induction fuel as [|fuel (IH1 & IH2 & IH3)].
  { split; [|split]; intros; apply q_nofuel. }
  split; [|split].
  - intros m. cbn [parse_next]. cbv zeta. apply q_bind.
    { destruct (is_operator_mode m); [apply q_skip_whitespace|apply q_ret; reflexivity]. }
    intros _. apply q_bind; [apply q_peek|]. intros [it|].
    2:{ apply q_bind; [apply q_get_depth|]. intros d. destruct (d =? 0)%N; [apply q_ret; reflexivity|apply q_raise]. }
    destruct (is_nest_start cc (it_ch it)).
    { apply q_bind; [apply q_incr_depth|]. intros _. intros st v st' E. apply q_inv in E. destruct E as ([d|] & s1 & En & E);
        pose proof (q_finally IH2 _ En) as E1.
      - injection E as <- <-. exact E1.
      - pose proof (IH1 _ _ _ _ E) as E2. cbn in E1. lia. }
    destruct (is_nest_end cc (it_ch it)).
    { apply q_bind; [apply q_get_depth|]. intros d. apply q_bind; [apply q_check_end_char|intros _; apply q_ret; reflexivity]. }
    apply q_bind; [apply q_parse_text|]. intros t. apply q_ret. reflexivity.
  - cbn [parse_nested]. apply q_bind; [apply q_next|]. intros o. apply q_bind; [apply q_assert|]. intros _.
    intros st v st' E. apply q_inv in E. destruct E as (op & s1 & En & E).
    pose proof (IH1 _ _ _ _ En) as E1. apply q_inv in E. destruct E as (p & s2 & Ep & E). apply q_peek in Ep.
    apply q_inv in E. destruct E as (u & s3 & Ew & E).
    assert (K : usedq s3 = usedq s2).
    { destruct p as [it|]; [destruct (is_whitespace cc (it_ch it))|].
      - apply q_inv in Ew. destruct Ew as (p2 & s4 & E4 & Ew). injection Ew as _ <-. apply q_next in E4. lia.
      - injection Ew as _ <-. auto.
      - injection Ew as _ <-. auto. }
    destruct op as [op|]; cbn [ocost] in E1.
    + apply q_inv in E. destruct E as (ops & s4 & E4 & E). pose proof (IH3 _ _ _ _ E4) as F4.
      apply q_inv in E. destruct E as (u' & s5 & E5 & E). apply q_nest_end in E5.
      apply q_inv in E. destruct E as (r1 & s6 & E6 & E). apply q_new_datum in E6. destruct E6 as [-> E6].
      apply q_inv in E. destruct E as (r1 & s7 & E7 & E). apply q_new_datum in E7. destruct E7 as [-> E7].
      injection E as <- <-. cbn [ocost inner_count]. cbv beta in *. lia.
    + apply q_inv in E. destruct E as (u' & s5 & E5 & E). apply q_nest_end in E5. injection E as <- <-. cbn. lia.
  - intros m. cbn [parse_all]. intros st v st' E. apply q_inv in E. destruct E as ([d|] & s1 & En & E);
      pose proof (IH1 _ _ _ _ En) as E1; cbn [ocost] in E1.
    2:{ injection E as <- <-. exact E1. }
    apply q_inv in E. destruct E as (r1 & s2 & E2 & E). apply q_new_datum in E2. destruct E2 as [-> E2].
    apply q_inv in E. destruct E as (r1 & s3 & E3 & E). apply q_new_datum in E3. destruct E3 as [_ E3].
    apply q_inv in E. destruct E as (g & s3' & Eg & E). injection Eg as <- <-. destruct (a_get_mut ao r1 (ps_alloc s3)); [|discriminate].
    apply q_inv in E. destruct E as (rest & s4 & E4 & E). pose proof (IH3 _ _ _ _ E4) as F4.
    injection E as <- <-. cbv beta in *. cbn [inner_count]. lia.
Qed.

Lemma q_collect fuel : forall n st ds st', iter_collect umax cc so co ao bnd n fuel st = (Ok (map inl ds), st') ->
  usedq st' = usedq st + 2 * total_inner ds.
Proof.
  induction n as [|n IH]; intros st ds st' E; cbn [iter_collect] in E; [discriminate|].
  unfold iter_next, do_next in E.
  destruct (parse_next umax cc so co ao bnd fuel Base st) as [[[d|]|e| |] s1] eqn:En; try discriminate.
  - pose proof (proj1 (q_parser fuel) Base _ _ _ En) as E1.
    destruct (iter_collect umax cc so co ao bnd n fuel s1) as [[l|[]| |] s2] eqn:Ec; try discriminate.
    injection E as E <-. destruct ds as [|d' ds]; [discriminate|]. injection E as -> ->.
    pose proof (IH _ _ _ Ec) as E2. unfold total_inner, list_sum in *. cbn [map fold_right ocost] in *. lia.
  - pose proof (proj1 (q_parser fuel) Base _ _ _ En) as E1.
    injection E as E <-. destruct ds; [|discriminate]. cbn in *. lia.
  - destruct (iter_collect umax cc so co ao bnd n fuel s1) as [[l|[]| |] s2] eqn:Ec; try discriminate.
    injection E as E <-. destruct ds; discriminate.
Qed.
End Count.

(** ** Streams of texts that do not allocate *)
Section Quiet.
Context {TT C CS A Pos : Type} (k : chunk_ops C CS Pos) (x : text_ops TT C A).
Context (HX : forall t u a, snd (tx_concat x t u a) = a).
Lemma accum_chunk_quiet accum cs a r cs' a' : accum_chunk k x accum cs a = (r, (cs', a')) -> a' = a.
Proof.
  unfold accum_chunk. intros E. destruct (cs_accum_done k cs) as [[c|[]| |] cs1]; try (congruence).
  pose proof (HX (match accum with Some t => t | None => tx_empty x end) (tx_from x c) a) as G.
  destruct (tx_concat x _ _ a) as [r1 b]. injection E as _ _ <-. exact G.
Qed.
Lemma next_accum_loop_quiet : forall nexts cs accum a r s' a',
  titer_next_accum_loop k x nexts cs accum a = (r, (s', a')) -> a' = a.
Proof.
  induction nexts as [| |c rest IH]; intros cs accum a r s' a' E; cbn [titer_next_accum_loop] in E;
    (destruct (cs_next_accum k cs) as [[[it|]|[]| |] cs']; try (congruence));
    (destruct (accum_chunk k x accum cs' a) as [[t|e| |] [cs2 b]] eqn:Ec; apply accum_chunk_quiet in Ec; subst b;
     try (congruence); eauto).
Qed.
Lemma titer_quiet1 s a r s' a' : s_next_accum (titer_stream k x) s a = (r, (s', a')) -> a' = a.
Proof.
  cbn. unfold titer_next_accum. destruct (ti_cur s); [apply next_accum_loop_quiet|]. intros E; congruence.
Qed.
Lemma titer_quiet2 s a r s' a' : s_accum_done (titer_stream k x) s a = (r, (s', a')) -> a' = a.
Proof.
  cbn. unfold titer_accum_done. destruct (ti_cur s) as [cs|]; [|intros E; congruence].
  destruct (accum_chunk k x (ti_accum s) cs a) as [r1 [cs1 b]] eqn:E. apply accum_chunk_quiet in E. intros [= _ _ <-]. exact E.
Qed.
End Quiet.
Section QuietStreams.
Context {TT A : Type} (x : text_ops TT posstrish A) (HX : forall t u a, snd (tx_concat x t u a) = a).
Lemma chariter_quiet1 s a r s' a' : s_next_accum (chariter_stream x) s a = (r, (s', a')) -> a' = a.
Proof.
  cbn. unfold chariter_next_accum. destruct (pk_next (ch_iter s)) as [[o|] it]; intros E; congruence.
Qed.
Lemma chariter_quiet2 s a r s' a' : s_accum_done (chariter_stream x) s a = (r, (s', a')) -> a' = a.
Proof. cbn. unfold chariter_accum_done. intros E; congruence. Qed.
Lemma strishiter_quiet1 s a r s' a' : s_next_accum (strishiter_stream x) s a = (r, (s', a')) -> a' = a.
Proof.
  cbn [s_next_accum strishiter_stream]. unfold strishiter_next_accum. generalize (strishiter_fuel s). intros f. revert s a r s' a'.
  induction f as [|f IH]; intros s a r s' a' E; cbn [strishiter_next_accum_loop] in E; [congruence|].
  destruct (si_cur s) as [cs|]; [|congruence].
  destruct (posstrish_next_accum cs) as [[[it|]|[]| |] cs']; try (congruence).
  destruct (accum_chunk posstrish_ops x (si_accum s) cs' a) as [[t|e| |] [cs2 b]] eqn:Ec; apply (accum_chunk_quiet _ _ HX) in Ec; subst b;
    try (congruence).
  destruct (next_posstrish _ _ _ _) as [[[cur it'] pk]|[]| |]; try (congruence). eauto.
Qed.
Lemma strishiter_quiet2 s a r s' a' : s_accum_done (strishiter_stream x) s a = (r, (s', a')) -> a' = a.
Proof.
  cbn. unfold strishiter_accum_done. destruct (si_cur s) as [cs|]; [|intros E; congruence].
  destruct (accum_chunk posstrish_ops x (si_accum s) cs a) as [r1 [cs1 b]] eqn:E. apply (accum_chunk_quiet _ _ HX) in E.
  intros [= _ _ <-]. exact E.
Qed.
End QuietStreams.
Lemma tvec_quiet {C CS A Pos} (k : chunk_ops C CS Pos) t u (a : A) : snd (tx_concat (tvec_ops k) t u a) = a.
Proof.
  cbn. unfold tvec_concat. destruct (tvec_is_empty k t) as [[|]|[]| |]; try reflexivity.
Qed.

(** ** The slice allocator *)
Section StreamsTwo.
Context {A1 A2 : Type} (Ra : A1 -> A2 -> Prop) (L : A2 -> Prop).
Context {TT : Type} (x1 : text_ops TT posstrish A1) (x2 : text_ops TT posstrish A2) (HX : text_two Ra L x1 x2).
Lemma chariter_two : stream_two Ra L (chariter_stream x1) (chariter_stream x2).
Proof.
  split; cbn [s_peek s_next s_next_accum s_accum_done chariter_stream]; auto.
  - intros s a1 a2 H. left. unfold chariter_next_accum. destruct (pk_next (ch_iter s)) as [[o|] it]; cbn; auto.
  - intros s a H. unfold chariter_next_accum. destruct (pk_next (ch_iter s)) as [[o|] it]; cbn; auto.
  - intros s a1 a2 H. left. unfold chariter_accum_done. destruct HX as [HF _]. cbn. rewrite HF. auto.
Qed.
Lemma strishiter_two : stream_two Ra L (strishiter_stream x1) (strishiter_stream x2).
Proof.
  assert (GL : forall f s a, L a -> L (snd (snd (strishiter_next_accum_loop x2 f s a)))).
  { induction f as [|f IH]; intros s a H; cbn [strishiter_next_accum_loop]; [exact H|].
    destruct (si_cur s) as [cs|]; [|exact H].
    destruct (posstrish_next_accum cs) as [[[it|]|[]| |] cs']; auto.
    pose proof (two_accum_chunk_L posstrish_ops HX (si_accum s) cs' _ H) as G.
    destruct (accum_chunk posstrish_ops x2 (si_accum s) cs' a) as [[t|e| |] [cs2 b]]; cbn in G; auto.
    destruct (next_posstrish _ _ _ _) as [[[cur it'] pk]|[]| |]; auto. }
  split; cbn [s_peek s_next s_next_accum s_accum_done strishiter_stream]; auto.
  - intros s a1 a2 H. unfold strishiter_next_accum. generalize (strishiter_fuel s). intros f. revert s a1 a2 H.
    induction f as [|f IH]; intros s a1 a2 H; cbn [strishiter_next_accum_loop]; [left; cbn; auto|].
    destruct (si_cur s) as [cs|]; [|left; cbn; auto].
    destruct (posstrish_next_accum cs) as [[[it|]|[]| |] cs']; try (left; cbn; auto; fail).
    pose proof (two_accum_chunk posstrish_ops HX (si_accum s) cs' _ _ H) as G.
    destruct (accum_chunk posstrish_ops x1 (si_accum s) cs' a1) as [r1 [cs1 b1]],
      (accum_chunk posstrish_ops x2 (si_accum s) cs' a2) as [r2 [cs2 b2]].
    destruct G as [(E & E' & G)|(e & E & HL)]; cbn [fst snd] in *.
    + subst r2 cs2. destruct r1 as [t|e| |]; try (left; cbn; auto; fail).
      destruct (next_posstrish _ _ _ _) as [[[cur it'] pk]|[]| |]; try (left; cbn; auto; fail). apply IH. exact G.
    + subst r1. right. exists e. split; [reflexivity|]. destruct r2 as [t|e'| |]; cbn; auto.
      destruct (next_posstrish _ _ _ _) as [[[cur it'] pk]|[]| |]; auto.
  - intros s a H. apply GL. exact H.
  - intros s a1 a2 H. unfold strishiter_accum_done. destruct (si_cur s) as [cs|].
    + pose proof (two_accum_chunk posstrish_ops HX (si_accum s) cs _ _ H) as G.
      destruct (accum_chunk posstrish_ops x1 (si_accum s) cs a1) as [r1 [cs1 b1]],
        (accum_chunk posstrish_ops x2 (si_accum s) cs a2) as [r2 [cs2 b2]].
      destruct G as [(E & E' & G)|(e & E & HL)]; cbn in *; [subst; left; cbn; auto|right; cbn; eauto].
    + left. cbn. destruct HX as [_ [HE _ _]]. cbn in HE. rewrite HE. auto.
  - intros s a H. unfold strishiter_accum_done. destruct (si_cur s) as [cs|]; [|exact H].
    pose proof (two_accum_chunk_L posstrish_ops HX (si_accum s) cs _ H) as G.
    destruct (accum_chunk posstrish_ops x2 (si_accum s) cs a) as [r2 [cs2 b2]]. exact G.
Qed.
End StreamsTwo.

(** A parser that only counts, and one over a slice. *)
Section Slice.
Context {S TT ET Pos CE W : Type} (umax : N) (cc : classifier).
Local Notation D := (datum TT ET).
Context (so1 : stream_ops S (slice_state D * W) TT Pos) (co1 : concat_ops (slice_state D * W) TT).
Context (so2 : stream_ops S (nat * W) TT Pos) (co2 : concat_ops (nat * W) TT).
Context (HS : forall cap, stream_two (fits cap) (over cap) so1 so2) (HC : forall cap, concat_two (fits cap) (over cap) co1 co2).
Local Notation nob A := (fun _ : D => @None (combiner A TT ET Pos CE)).
Local Notation coll1 := (iter_collect umax cc so1 co1 slice_alloc (nob _)).
Local Notation coll2 := (iter_collect umax cc so2 co2 count_alloc (nob _)).
Context (HU1 : forall s a o s' a', s_next_accum so2 s a = (Ok o, (s', a')) -> fst a' = fst a)
        (HU2 : forall s a t s' a', s_accum_done so2 s a = (Ok t, (s', a')) -> fst a' = fst a)
        (HU3 : forall t u a v a', t_concat co2 t u a = (Ok v, a') -> fst a' = fst a).
Local Notation counted st := (PState (ps_strm st) (ps_depth st) (0, snd (ps_alloc st))).

Lemma inner_same (st : pstate S (slice_state D * W)) : same (S:=S) (fits (room (fst (ps_alloc st)))) st (counted st).
Proof. split; [reflexivity|]. split; [reflexivity|]. split; [reflexivity|]. cbn. lia. Qed.
Lemma nob_inner cap : bindings_two (fits cap) (over cap) (nob (slice_state D * W)) (nob (nat * W)).
Proof. intros d. exact I. Qed.
Lemma inner_counts n fuel (st : pstate S (nat * W)) ds st' : coll2 n fuel st = (Ok (map inl ds), st') ->
  fst (ps_alloc st') = fst (ps_alloc st) + 2 * total_inner ds.
Proof. intros E. exact (q_collect umax cc _ _ _ fst HU1 HU2 HU3 (fun d a d' a' => @count_HN _ _ _ d a d' a') _ _ _ _ E). Qed.

Lemma inner_used st ds st' : iterates umax cc so1 co1 slice_alloc (nob _) st (map inl ds) st' ->
  room (fst (ps_alloc st)) = room (fst (ps_alloc st')) + 2 * total_inner ds.
Proof.
  intros (n & fuel & E).
  destruct (two_collect_ok umax cc (HS (room (fst (ps_alloc st)))) (HC _) (slice_count_two _)
    (nob_inner _)
    fuel n (inner_same st) E) as (s2 & E2 & H1 & H2 & H3 & H4).
  { intros e He. apply in_map_iff in He. destruct He as (d & [=] & _). }
  apply inner_counts in E2. cbn in E2. lia.
Qed.

Lemma inner_exact n fuel st l1 s1 ds s2 :
  coll1 n fuel st = (Ok l1, s1) -> coll2 n fuel (counted st) = (Ok (map inl ds), s2) ->
  (2 * total_inner ds <= room (fst (ps_alloc st)) ->
     l1 = map inl ds /\ room (fst (ps_alloc st)) = room (fst (ps_alloc s1)) + 2 * total_inner ds) /\
  (room (fst (ps_alloc st)) < 2 * total_inner ds ->
     exists ds1 ds2 e q, l1 = map inl ds1 ++ inr (FailedAlloc e) :: q /\ ds = ds1 ++ ds2).
Proof.
  intros E1 E2. pose proof (inner_counts _ _ _ _ E2) as U. cbn in U.
  destruct (two_collect umax cc (HS (room (fst (ps_alloc st)))) (HC _) (slice_count_two _)
    (nob_inner _)
    fuel n (inner_same st) E1 E2)
    as [(-> & H1 & H2 & H3 & H4)|(HL & p & e & q1 & q2 & -> & Ep)].
  - split; intros; [split; [reflexivity|]|]; lia.
  - unfold LS, over in HL. split; intros; [lia|].
    assert (G : exists ds1 ds2, p = map inl ds1 /\ q2 = map inl ds2 /\ ds = ds1 ++ ds2).
    { clear - Ep. revert p Ep. induction ds as [|d ds IH]; intros p Ep.
      - cbn in Ep. symmetry in Ep. apply app_eq_nil in Ep. destruct Ep as [-> ->]. exists [], []. auto.
      - destruct p as [|y p]; cbn in Ep.
        + exists [], (d :: ds). auto.
        + injection Ep as <- Ep. destruct (IH p Ep) as (a & b & -> & -> & ->). exists (d :: a), b. auto. }
    destruct G as (ds1 & ds2 & -> & -> & ->). exists ds1, ds2, e, q1. auto.
Qed.

Lemma inner_count_rel {T1 T2 E1 E2} (Rt : T1 -> T2 -> Prop) (Rx : E1 -> E2 -> Prop) : forall d1 d2,
  datum_rel Rt Rx d1 d2 -> inner_count d1 = inner_count d2.
Proof.
  induction d1; intros [] H; cbn in H; try contradiction; cbn; auto;
    destruct H as [H1 H2]; rewrite (IHd1_1 _ H1), (IHd1_2 _ H2); reflexivity.
Qed.
Lemma total_inner_rel {T1 T2 E1 E2} (Rt : T1 -> T2 -> Prop) (Rx : E1 -> E2 -> Prop) l1 l2 :
  Forall2 (datum_rel Rt Rx) l1 l2 -> total_inner l1 = total_inner l2.
Proof.
  induction 1 as [|d1 d2 l1 l2 H _ IH]; [reflexivity|]. unfold total_inner, list_sum in *. cbn.
  rewrite (inner_count_rel _ _ _ _ H), IH. reflexivity.
Qed.

(** An input in the language. *)
Lemma inner_input F Rs1 Rt1 Rs2 Rt2 (st : pstate S (slice_state D * W)) s w ads w' : disjoint_classes cc ->
  lawful F snd so1 co1 slice_alloc (nob _) (fun _ => @None (combiner W (list (item Pos)) ET Pos CE)) Rs1 Rt1 eq eq ->
  lawful False snd so2 co2 count_alloc (nob _) (fun _ => @None (combiner W (list (item Pos)) ET Pos CE)) Rs2 Rt2 eq eq ->
  starts_on Rs1 snd st s w -> starts_on Rs2 snd (counted st) s w -> (N.of_nat (length s) <= umax)%N ->
  input (CE:=CE) cc (fun _ => None) w s ads w' ->
  exists items st', iterates umax cc so1 co1 slice_alloc (nob _) st items st' /\
    (2 * total_inner ads <= room (fst (ps_alloc st)) ->
       exists ds, items = map inl ds /\ Forall2 (datum_rel Rt2 eq) ds ads /\
         room (fst (ps_alloc st)) = room (fst (ps_alloc st')) + 2 * total_inner ads) /\
    (room (fst (ps_alloc st)) < 2 * total_inner ads ->
       exists ds1 e q ads1 ads2, items = map inl ds1 ++ inr (FailedAlloc e) :: q /\ ads = ads1 ++ ads2 /\
         Forall2 (datum_rel Rt2 eq) ds1 ads1).
Proof.
  intros DC L1 L2 H1 H2 Hu Hin.
  destruct (lw_total (umax:=umax) cc L1 (n:=Datatypes.S (length s)) (fuel:=3 * length s + 3) H1 Hu) as (items & st' & E1 & _); auto.
  destruct (lawful_complete L2 (umax:=umax) (n:=Datatypes.S (length s)) (fuel:=3 * length s + 3) DC H2 Hu ltac:(lia) ltac:(lia) Hin)
    as (ds & st2 & E2 & Hd & _).
  exists items, st'. split; [do 2 eexists; exact E1|].
  destruct (inner_exact _ _ _ _ E1 E2) as [G1 G2]. rewrite (total_inner_rel _ _ Hd) in G1, G2. split.
  - intros Hr. destruct (G1 Hr) as [-> Hr']. eauto.
  - intros Hr. destruct (G2 Hr) as (ds1 & ds2 & e & q & -> & ->).
    apply Forall2_app_inv_l in Hd. destruct Hd as (ads1 & ads2 & Ha & _ & ->). exists ds1, e, q, ads1, ads2. auto.
Qed.
End Slice.
