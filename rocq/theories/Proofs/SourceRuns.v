(** The work of concatenating texts in parsers with combiners and in runs with errors. *)
From Coq Require Import List Arith NArith ZArith Bool Lia.
From Verif.Model Require Import Prelude Parser Iter Utf8 Chunk TextIter TextVec TextDatumList CharIter StrishIter PosStrish TextWork.
From Verif.Spec Require Import Contract ChunkContract Memory TextWork Pieces Run.
From Verif.Proofs Require Import Sim Refine ChunkFacts TextFacts Amortize TextWorkFacts TextSim TextWorkRuns SourceWork.
Import ListNotations.
Set Implicit Arguments.

(** ** Runs of related parsers *)
Section Sims.
Context {S1 S2 A1 A2 T1 T2 ET Pos CE : Type} (umax : N) (cc : classifier).
Context (so1 : stream_ops S1 A1 T1 Pos) (co1 : concat_ops A1 T1) (ao1 : alloc_ops A1 T1 ET) (bnd1 : bindings A1 T1 ET Pos CE).
Context (so2 : stream_ops S2 A2 T2 Pos) (co2 : concat_ops A2 T2) (ao2 : alloc_ops A2 T2 ET) (bnd2 : bindings A2 T2 ET Pos CE).
Context (Rs : S1 -> S2 -> Prop) (Ra : A1 -> A2 -> Prop) (Rt : T1 -> T2 -> Prop).
Context (SS : stream_sim so1 so2 False Rs Ra Rt eq) (CS : concat_sim co1 co2 False Ra Rt) (AS : alloc_sim ao1 ao2 False Ra Rt eq)
  (BS : bindings_sim bnd1 bnd2 False Ra Rt eq eq eq).
Definition next_rel (o1 : option (datum T1 ET + error Pos CE)) (o2 : option (datum T2 ET + error Pos CE)) : Prop :=
  match o1, o2 with
  | Some (inl d1), Some (inl d2) => datum_rel Rt eq d1 d2
  | Some (inr e1), Some (inr e2) => e1 = e2
  | None, None => True
  | _, _ => False
  end.
Lemma err_eq (e1 e2 : error Pos CE) : error_rel eq eq e1 e2 -> e1 = e2.
Proof. destruct e1 as [| |[]| |], e2 as [| |[]| |]; cbn; try contradiction; try reflexivity; intros ->; reflexivity. Qed.
Lemma sim_nexts st1 os st1' : nexts umax cc so1 co1 ao1 bnd1 st1 os st1' -> forall st2, st_rel Rs Ra st1 st2 ->
  exists os2 st2', nexts umax cc so2 co2 ao2 bnd2 st2 os2 st2' /\ Forall2 next_rel os os2 /\ st_rel Rs Ra st1' st2'.
Proof.
  induction 1 as [st|fuel st o st1a os st1b E _ IH]; intros st2 Hst.
  { exists [], st2. split; [constructor|]. split; [constructor|exact Hst]. }
  pose proof (sim_do_next umax cc SS CS AS BS fuel Hst) as G. unfold out_rel in G. unfold iter_next in E.
  destruct (do_next umax cc so1 co1 ao1 bnd1 fuel st) as [[[d|]|e| |] s1] eqn:E1; try discriminate; injection E as <- <-;
    destruct (do_next umax cc so2 co2 ao2 bnd2 fuel st2) as [[[d2|]|e2| |] s2] eqn:E2; cbn in G; try (exfalso; tauto).
  - destruct G as [G1 G2]. destruct (IH _ G2) as (os2 & st2' & N & HF & Hst'). exists (Some (inl d2) :: os2), st2'.
    split; [econstructor; [unfold iter_next; rewrite E2; reflexivity|exact N]|]. split; [constructor; assumption|exact Hst'].
  - destruct G as [G1 G2]. destruct (IH _ G2) as (os2 & st2' & N & HF & Hst'). exists (None :: os2), st2'.
    split; [econstructor; [unfold iter_next; rewrite E2; reflexivity|exact N]|]. split; [constructor; [exact I|assumption]|exact Hst'].
  - destruct G as [[G1 G2]|[[] _]]. destruct (IH _ G2) as (os2 & st2' & N & HF & Hst'). exists (Some (inr e2) :: os2), st2'.
    split; [econstructor; [unfold iter_next; rewrite E2; reflexivity|exact N]|]. split; [constructor; [exact (err_eq _ _ G1)|assumption]|exact Hst'].
Qed.
End Sims.

(** ** What is left in a stream *)
Section Left.
Context {S1 S2 A1 A2 T1 T2 Pos W : Type} (so1 : stream_ops S1 A1 T1 Pos) (so2 : stream_ops S2 A2 T2 Pos).
Lemma contract_left F (view : A1 -> W) Rs Rt : stream_contract F view so1 Rs Rt -> forall r s p, Rs s r p -> left_in so1 s r.
Proof.
  intros SC. induction r as [|i r IH]; intros s p HR; destruct (sc_next SC _ _ _ HR) as (s' & E & HR').
  - econstructor. exact E.
  - econstructor; [exact E|]. exact (IH _ _ HR').
Qed.
Lemma sim_left (Rs : S1 -> S2 -> Prop) Ra Rt : stream_sim so1 so2 False Rs Ra Rt eq -> forall s2 r, left_in so2 s2 r -> forall s1, Rs s1 s2 -> left_in so1 s1 r.
Proof.
  intros SS. induction 1 as [s2 s' E|s2 i s' r E _ IH]; intros s1 Hs; pose proof (ss_next SS _ _ Hs) as G; rewrite E in G; unfold pres_rel in G; cbn [fst snd] in G;
    destruct (s_next so1 s1) as [[[j|]|[]| |] s1'] eqn:E1; cbn [fst snd option_rel] in G; try tauto; destruct G as [G1 G2]; try contradiction.
  - econstructor. exact E1.
  - destruct j as [c1 p1], i as [c2 p2]. destruct G1 as [Q1 Q2]. cbn in Q1, Q2. subst. econstructor; [exact E1|]. exact (IH _ G2).
Qed.
End Left.

(** ** [TextVec] *)
Section Vec.
Context {C CS Pos A ET CE W : Type} (umax : N) (cc : classifier) (k : chunk_ops C CS Pos) (grow : nat -> nat -> nat).
Context (Rc : C -> list (item Pos) -> Prop) (Rcs : CS -> list (item Pos) -> list (item Pos) -> Prop) (KC : chunk_contract k Rc Rcs).
Context (ao : alloc_ops A (tvec C) ET).
Local Notation x := (tvec_ops (A:=A) k).
Local Notation xc := (cvec_ops (A:=A) k grow).
Context (HN : forall d a d' a', a_new_datum ao d a = (Ok d', a') -> d' = d).

Lemma cvec_contract : text_contract False (fun a : A * nat => tt) xc Rc.
Proof.
  split.
  - intros c l H. exists [c], [l]. cbn. rewrite app_nil_r. auto.
  - split; cbn.
    + exists [], []. cbn. auto.
    + intros t1 t2 l1 l2 a H1 H2. left.
      destruct (tvec_concat_spec KC (t1:=cvec_forget t1) (t2:=cvec_forget t2) (fst a) H1 H2) as (t & E & Ht).
      pose proof (ts_concat (cvec_sim (A:=A) k grow) (cvec_forget t1) (cvec_forget t2) t1 t2 (fst a) a eq_refl eq_refl eq_refl) as G.
      cbn in G. unfold ares_rel in G. rewrite E in G. cbn [fst snd] in G. destruct (cvec_concat k grow t1 t2 a) as [[t'|e| |] a']; cbn [fst snd] in G; try contradiction.
      destruct G as [G _]. red in G. subst t. exists t', a'. auto.
Qed.
Lemma cvec_datum_cvec_of (d : datum (tvec C) ET) : cvec_datum (cvec_datum_of d) = d.
Proof. induction d as [[c|l]| | | | |]; cbn; congruence. Qed.
Lemma cvec_bindings_sim (bnd : bindings A (tvec C) ET Pos CE) :
  bindings_sim bnd (cvec_bindings bnd) False (@counts A) (@forgets C) eq eq eq.
Proof.
  assert (CR : forall (o : (option (datum (tvec C) ET) + error Pos CE) * A) n,
    cres_rel False (@counts A) (@forgets C) eq eq eq o (cvec_result (fst o), (snd o, n))).
  { intros [[[d|]|e] a] n; unfold cres_rel; cbn.
    - split; [|reflexivity]. apply forgets_datum. symmetry. apply cvec_datum_cvec_of.
    - split; [exact I|reflexivity].
    - left. split; [|reflexivity]. destruct e; cbn; auto. }
  intros d1 d2 Hd. apply forgets_datum in Hd. subst d1. unfold cvec_bindings. destruct (bnd (cvec_datum d2)) as [[f|f]|]; cbn; [| |exact I].
  - intros e1 e2 t1 t2 a1 a2 H1 -> ->. apply forgets_datum in H1. subst e1. pose proof (CR (f (cvec_datum e2) (cvec_forget t2) (fst a2)) (snd a2)) as G.
    destruct (f (cvec_datum e2) (cvec_forget t2) (fst a2)). exact G.
  - intros e1 e2 t1 t2 a1 a2 H1 H2 ->. apply forgets_datum in H1, H2. subst e1 t1. pose proof (CR (f (cvec_datum e2) (cvec_datum t2) (fst a2)) (snd a2)) as G.
    destruct (f (cvec_datum e2) (cvec_datum t2) (fst a2)). exact G.
Qed.
Lemma cvec_bindings_quiet (bnd : bindings A (tvec C) ET Pos CE) d : match cvec_bindings bnd d with
  | Some (Operative f) => forall t a, (vec_used (snd (f d t a)) <= vec_used a)%Z
  | Some (Applicative f) => forall l a, (vec_used (snd (f d l a)) <= vec_used a)%Z
  | None => True
  end.
Proof.
  unfold cvec_bindings, vec_used. destruct (bnd (cvec_datum d)) as [[f|f]|]; [| |exact I].
  - intros t a. destruct (f (cvec_datum d) (cvec_forget t) (fst a)). cbn. lia.
  - intros t a. destruct (f (cvec_datum d) (cvec_datum t) (fst a)). cbn. lia.
Qed.

(** Chunks that are not empty have items. *)
Lemma full_chunks cs ls : Forall2 Rc cs ls -> Forall (fun c => c_is_empty k c = Ok false) cs -> length cs <= length (List.concat ls).
Proof.
  induction 1 as [|c l cs ls H _ IH]; intros HF; [cbn; lia|]. inversion HF as [|? ? Hc HF']; subst. specialize (IH HF').
  rewrite (kc_is_empty KC _ _ H) in Hc. cbn [List.concat length]. rewrite app_length. destruct l; [discriminate|]. cbn [length]. lia.
Qed.
Lemma vec_tcost_items t l : text_items xc Rc t l -> vec_chunks_ok k t -> (vec_tcost t <= 7 * Z.of_nat (length l))%Z.
Proof.
  intros (cs & ls & E & HF & ->) Hok. cbn in E. unfold cvec_chunks, tvec_chunks in E. apply seq_of_inj in E. subst cs.
  destruct (proj1 Hok) as [L|L].
  - pose proof (vec_small Hok L). lia.
  - pose proof (full_chunks HF L). pose proof (vec_tcost_count t) as B. unfold cvec_chunks, tvec_chunks in B. rewrite count_seq in B. lia.
Qed.
Lemma vec_accum_items o pa : accum_items Rc xc o pa -> accum_ok (vec_chunks_ok k) o -> (accum_cost (@vec_acost C) o <= 7 * Z.of_nat (length pa))%Z.
Proof.
  destruct o as [t|]; cbn [accum_items accum_cost accum_ok]; [|lia]. intros H Hok. pose proof (vec_tcost_items H Hok). pose proof (vec_acost_tcost t). lia.
Qed.

Section Streams.
Context {S1 S2 : Type} (so1 : stream_ops S1 A (tvec C) Pos) (so2 : stream_ops S2 (A * nat) (cvec C) Pos) (Rs : S1 -> S2 -> Prop).
Context (pc : S2 -> Z) (pok : S2 -> Prop) (RS : S2 -> list (item Pos) -> list (item Pos) -> Prop).
Context (SS : stream_sim so1 so2 False Rs (@counts A) (@forgets C) eq).
Context (AM : amortized so2 (text_concat_ops xc) (cvec_alloc ao) (@vec_used A) (@vec_tcost C) (@vec_acost C)
  (vec_chunks_ok k) (vec_chunks_ok k) pc pok).
Context (SC : stream_contract False (fun a : A * nat => tt) so2 RS (text_items xc Rc)).
Context (PC : forall s r p, RS s r p -> pok s -> (pc s <= 7 * Z.of_nat (length p))%Z).

Lemma vec_sourced : sourced so2 (text_concat_ops xc) (cvec_alloc ao) RS (text_items xc Rc) (@vec_used A) (@vec_tcost C) (@vec_acost C)
  (vec_chunks_ok k) (vec_chunks_ok k) pc pok (fun n => 7 * Z.of_nat n)%Z.
Proof.
  split.
  - exact PC.
  - exact vec_tcost_items.
  - intros s r p a e s' a' HR _ E. destruct (sc_next_accum SC _ a _ _ HR) as [(s2 & a2 & E2 & _)|([] & _)]. congruence.
  - intros s r p a e s' a' HR _ E. destruct (sc_accum_done SC _ a _ _ HR) as [(s2 & a2 & t & E2 & _)|([] & _)]. congruence.
  - intros t u l1 l2 a e a' H1 H2 _ _ E. destruct (tc_concat (xc_concat cvec_contract) _ _ _ _ a H1 H2) as [(t' & a2 & E2 & _)|([] & _)]. congruence.
  - intros d a r a' E. cbn in E. destruct (a_new_datum ao (cvec_datum d) (fst a)). injection E as _ <-. reflexivity.
Qed.
Lemma vec_source_run (bnd : bindings A (tvec C) ET Pos CE) s1 s2 a l os st' : Rs s1 s2 -> RS s2 l [] -> pok s2 -> pc s2 = 0%Z ->
  nexts umax cc so1 (text_concat_ops x) ao bnd (parse_iter_new s1 a) os st' ->
  exists cos stc n r, nexts umax cc so2 (text_concat_ops xc) (cvec_alloc ao) (cvec_bindings bnd) (parse_iter_new s2 (a, 0)) cos stc /\
    map (@cvec_item C ET Pos CE) cos = os /\ ps_alloc stc = (ps_alloc st', n) /\ left_in so1 (ps_strm st') r /\ length r <= length l /\ n <= 7 * (length l - length r).
Proof.
  intros Hs HR Hp Hc N.
  destruct (sim_nexts SS (text_concat_sim (cvec_sim k grow)) (@cvec_alloc_sim _ _ _ ao HN) (cvec_bindings_sim bnd) N (st2:=parse_iter_new s2 (a, 0)))
    as (cos & stc & N2 & F2 & (K1 & K2 & K3)).
  { split; [exact Hs|split; reflexivity]. }
  assert (G0 : (0 <= 7 * Z.of_nat 0)%Z) by lia. assert (GM : forall m n, m <= n -> (7 * Z.of_nat m <= 7 * Z.of_nat n)%Z) by (intros; lia).
  assert (GA : forall m n, (7 * Z.of_nat m + 7 * Z.of_nat n <= 7 * Z.of_nat (m + n))%Z) by (intros; lia).
  destruct (nexts_source SC (xc_concat cvec_contract) AM (g:=fun n => (7 * Z.of_nat n)%Z) G0 GM GA vec_sourced
    (bnd:=cvec_bindings bnd) (cvec_bindings_quiet bnd) (st:=parse_iter_new s2 (a, 0)) l HR Hp Hc N2) as (r & p & HR' & HL & HU).
  destruct (ps_alloc stc) as [a2 n] eqn:Ea. red in K3. cbn in K3. subst a2. exists cos, stc, n, r.
  split; [exact N2|]. split.
  { clear -F2. induction F2 as [|o1 o2 os cos H _ IH]; [reflexivity|]. cbn [map]. f_equal; [|exact IH].
    destruct o1 as [[d1|e1]|], o2 as [[d2|e2]|]; cbn in H; try contradiction; cbn.
    - apply forgets_datum in H. congruence.
    - congruence.
    - reflexivity. }
  split; [exact Ea|]. split; [exact (sim_left SS (contract_left SC _ _ _ HR') _ K1)|]. split; [lia|]. unfold vec_used in HU. cbn [ps_alloc parse_iter_new snd] in HU. lia.
Qed.
End Streams.
End Vec.

(** ** [TextDatumList] *)
Section List.
Context {C CS Pos A ET CE W : Type} (umax : N) (cc : classifier) (k : chunk_ops C CS Pos).
Context (Rc : C -> list (item Pos) -> Prop) (Rcs : CS -> list (item Pos) -> list (item Pos) -> Prop) (KC : chunk_contract k Rc Rcs).
Context (F : Prop) (view : A -> W) (ao : alloc_ops A (tdl C ET) ET) (AC : alloc_contract F view ao).
Local Notation x := (tdl_ops k ao).
Local Notation xw := (tdl_work_ops k ao).
Local Notation Rt := (text_items xw Rc).
Local Notation vw := (fun a : A * nat => view (fst a)).
Definition pairs_z (n : nat) : Z := Z.of_nat (pairs n).

Lemma tdl_work_contract : text_contract F vw xw Rc.
Proof.
  pose proof (tdl_contract KC AC) as XC. split; [exact (xc_from XC)|]. split; [exact (tc_empty (xc_concat XC))|].
  intros t1 t2 l1 l2 a H1 H2. cbn.
  destruct (tc_concat (xc_concat XC) _ _ _ _ (fst a) H1 H2) as [(t & a' & E & V & R)|(HF & a' & E & V & N1)]; cbn in E; rewrite E.
  - left. eexists _, _. split; [reflexivity|]. cbn. auto.
  - right. split; [exact HF|]. eexists. split; [reflexivity|]. cbn. auto.
Qed.
Lemma tdl_new d a d' a' : a_new_datum ao d a = (Ok d', a') -> d' = d.
Proof. intros E. destruct (AC d a) as [(b & Eb & _)|(_ & b & Eb & _)]; congruence. Qed.

Lemma pairs_le m n : m <= n -> pairs m <= pairs n.
Proof. intros H. replace n with (m + (n - m)) by lia. rewrite pairs_add. apply Nat.le_trans with (pairs m + pairs (n - m)); apply Nat.le_add_r. Qed.
Lemma pairs_z_0 : (0 <= pairs_z 0)%Z. Proof. unfold pairs_z. lia. Qed.
Lemma pairs_z_le m n : m <= n -> (pairs_z m <= pairs_z n)%Z.
Proof. intros H. unfold pairs_z. pose proof (pairs_le H). lia. Qed.
Lemma pairs_z_add m n : (pairs_z m + pairs_z n <= pairs_z (m + n))%Z.
Proof. unfold pairs_z. rewrite pairs_add. lia. Qed.

Lemma list_items t l : Rt t l -> list_ok k t -> exists cs, tdl_chunks t = seq_of cs /\ neat k cs /\ (length cs <= 1 \/ length cs <= length l).
Proof.
  intros (cs & ls & E & HF & ->) (cs' & E' & Hn). cbn in E. rewrite E in E'. apply seq_of_inj in E'. subst cs'. exists cs.
  split; [exact E|]. split; [exact Hn|]. destruct Hn as [L|L]; [left; exact L|]. right. exact (full_chunks KC HF L).
Qed.
Lemma list_cost_items t l : Rt t l -> list_ok k t -> (list_cost t <= pairs_z (length l))%Z.
Proof.
  intros H Hok. destruct (list_items H Hok) as (cs & E & _ & [L|L]); unfold list_cost; rewrite E, count_seq.
  - destruct cs as [|c [|? ?]]; cbn in L; [cbn|cbn|lia]; unfold pairs_z; lia.
  - apply (pairs_z_le L).
Qed.
Lemma list_concat_err t u l1 l2 a e a' : Rt t l1 -> Rt u l2 -> list_ok k t -> list_ok k u -> tx_concat xw t u a = (Err e, a') ->
  (list_used a' + list_cost t + list_cost u <= list_used a + pairs_z (length l1 + length l2))%Z.
Proof.
  intros H1 H2 O1 O2 E. cbn in E.
  pose proof (tdl_concat_spec KC (ao:=ao) (fst a) H1 H2) as G.
  destruct (list_items H1 O1) as (cs1 & E1 & N1 & B1), (list_items H2 O2) as (cs2 & E2 & N2 & B2).
  destruct l1 as [|i1 l1]; cbn [is_nil] in G; [rewrite G in E; discriminate|].
  destruct l2 as [|i2 l2]; cbn [is_nil] in G; [rewrite G in E; discriminate|].
  destruct (tdl_concat k ao t u (fst a)) as [r b]. injection E as -> <-. unfold list_used, list_cost. cbn [snd].
  unfold tdl_work. rewrite (tdl_is_empty_spec KC (ao:=ao) H1), (tdl_is_empty_spec KC (ao:=ao) H2). cbn [is_nil].
  rewrite E1, E2, (neat_asked N1), (neat_asked N2), !count_seq, (tdl_iterations_chunks _ _ E1).
  unfold pairs_z. cbn [length] in *. rewrite (pairs_add (S (length l1)) (S (length l2))).
  assert (L1 : length cs1 <= S (length l1)) by lia. assert (L2 : length cs2 <= S (length l2)) by lia.
  pose proof (pairs_le L1). pose proof (pairs_le L2). nia.
Qed.

Local Notation acost := (accum_cost (@list_cost C ET)).
Local Notation aok := (accum_ok (list_ok k)).
Lemma list_acc : accumulates xw (@list_used A) (@list_cost C ET) (list_ok k).
Proof. apply list_accumulates. intros d a d' a'. apply tdl_new. Qed.
Lemma list_accum_err accum pa cs r1 p1 a e cs' a' : accum_items Rc xw accum pa -> Rcs cs r1 p1 -> aok accum ->
  accum_chunk k xw accum cs a = (Err e, (cs', a')) -> (list_used a' + acost accum <= list_used a + pairs_z (length (pa ++ p1)))%Z.
Proof.
  intros Ha Hcs Hok E. unfold accum_chunk in E. destruct (kc_accum_done KC _ _ _ Hcs) as (cs1 & c & Ec & Hc & _). rewrite Ec in E.
  destruct (tx_concat xw (match accum with Some t => t | None => tx_empty xw end) (tx_from xw c) a) as [r b] eqn:Et. injection E as -> _ <-.
  assert (Ht : Rt (match accum with Some t => t | None => tx_empty xw end) pa).
  { destruct accum; cbn in Ha; [exact Ha|]. subst. exact (tc_empty (xc_concat tdl_work_contract)). }
  destruct (accum_end list_acc _ Hok) as [O1 B1].
  pose proof (list_concat_err _ Ht (xc_from tdl_work_contract _ _ Hc) O1 (list_ok_from k c) Et) as G. rewrite app_length.
  unfold list_cost at 2 in G. cbn [tdl_from tdl_work_ops tx_from tdl_chunks chunk_count] in G. change (pairs 1) with 0 in G. lia.
Qed.
Lemma list_loop_err : forall chunks ls cs r1 p1 accum pa a e s' a', Forall2 Rc chunks ls -> Rcs cs r1 p1 -> accum_items Rc xw accum pa -> aok accum ->
  titer_next_accum_loop k xw (seq_of chunks) cs accum a = (Err e, (s', a')) ->
  ti_accum s' = None /\ (list_used a' + acost accum <= list_used a + pairs_z (length (pa ++ p1)))%Z.
Proof.
  induction chunks as [|c chunks IH]; intros ls cs r1 p1 accum pa a e s' a' HF Hcs Ha Hok E; cbn [seq_of titer_next_accum_loop] in E;
    destruct (kc_next_accum KC _ _ _ Hcs) as (cs1 & En & Hcs'); rewrite En in E; destruct r1 as [|it r1]; cbn [hd_error] in E; try discriminate;
    cbn [tl firstn] in Hcs'; rewrite app_nil_r in Hcs'.
  - destruct (accum_chunk k xw accum cs1 a) as [[t|e2| |] [cs2 b]] eqn:Ec; try discriminate. injection E as -> <- <-.
    split; [reflexivity|]. exact (list_accum_err _ _ _ Ha Hcs' Hok Ec).
  - destruct (accum_chunk k xw accum cs1 a) as [[t|e2| |] [cs2 b]] eqn:Ec; try discriminate.
    + inversion HF as [|? l ? ls' Hl HF']; subst.
      destruct (accum_chunk_acct _ list_acc _ _ _ Hok Ec) as [O1 B1].
      destruct (accum_chunk_spec KC tdl_work_contract _ _ _ _ _ a Ha Hcs') as [(t2 & cs3 & a3 & E3 & _ & R3 & _)|(_ & cs3 & a3 & E3 & _)]; rewrite Ec in E3; [|discriminate].
      injection E3 as <- <- <-.
      destruct (IH ls' _ _ _ (Some t) (pa ++ p1) b e s' a' HF' (kc_src_strm KC _ _ Hl) R3 O1 E) as [IH1 IH2].
      split; [exact IH1|]. rewrite app_nil_r in IH2. cbn [accum_cost] in IH2. lia.
    + injection E as -> <- <-. split; [reflexivity|]. exact (list_accum_err _ _ _ Ha Hcs' Hok Ec).
Qed.

Local Notation pc := (fun s => acost (ti_accum s)).
Local Notation pok := (fun s => aok (ti_accum s)).
Lemma list_amortized : amortized (titer_stream k xw) (text_concat_ops xw) (work_alloc ao) (@list_used A) (@list_cost C ET)
  (@list_cost C ET) (list_ok k) (list_ok k) pc pok.
Proof.
  apply titer_amortized; [exact list_acc| | |].
  - split; [apply list_ok_from|]. cbn. lia.
  - intros t u b t' b'. apply list_upper. intros d a d' a'. apply tdl_new.
  - cbn. intros d b d' b' Q. destruct (a_new_datum ao d (fst b)) as [r b2] eqn:Ea. injection Q as -> <-. split; [eapply tdl_new; eauto|reflexivity].
Qed.
Lemma list_accum_items accum pa : accum_items Rc xw accum pa -> aok accum -> (acost accum <= pairs_z (length pa))%Z.
Proof. destruct accum as [t|]; cbn [accum_items accum_cost accum_ok]; [apply list_cost_items|]. intros _ _. unfold pairs_z. lia. Qed.
Lemma list_sourced : sourced (titer_stream k xw) (text_concat_ops xw) (work_alloc ao) (titer_rep Rc Rcs xw) Rt (@list_used A) (@list_cost C ET)
  (@list_cost C ET) (list_ok k) (list_ok k) pc pok pairs_z.
Proof.
  split.
  - intros s r p (pa & Ha & Hs) Hok. pose proof (list_accum_items _ _ Ha Hok) as B.
    destruct (ti_cur s) as [cs|].
    + destruct Hs as (r1 & p1 & chunks & ls & _ & _ & _ & _ & -> & _). rewrite app_length.
      pose proof (@pairs_z_le (length pa) (length pa + length p1) ltac:(lia)). lia.
    + destruct Hs as (_ & _ & -> & _). exact B.
  - exact list_cost_items.
  - intros s r p a e s' a' (pa & Ha & Hs) Hok E. cbn in E. unfold titer_next_accum in E. destruct (ti_cur s) as [cs|]; [|discriminate].
    destruct Hs as (r1 & p1 & chunks & ls & Hcs & En & HF & _ & -> & _). rewrite En in E.
    destruct (list_loop_err _ _ _ HF Hcs Ha Hok E) as [H1 H2]. rewrite H1. cbn [accum_ok accum_cost]. auto.
  - intros s r p a e s' a' (pa & Ha & Hs) Hok E. cbn in E. unfold titer_accum_done in E. destruct (ti_cur s) as [cs|]; [|discriminate].
    destruct Hs as (r1 & p1 & chunks & ls & Hcs & En & HF & _ & -> & _).
    destruct (accum_chunk k xw (ti_accum s) cs a) as [q [cs1 b]] eqn:Ec. injection E as -> <- <-. cbn [ti_accum accum_ok accum_cost].
    split; [exact I|]. split; [reflexivity|]. exact (list_accum_err _ _ _ Ha Hcs Hok Ec).
  - intros t u l1 l2 a e a'. apply list_concat_err.
  - intros d a r a' E. cbn in E. destruct (a_new_datum ao d (fst a)). injection E as _ <-. reflexivity.
Qed.

Lemma uncounted_sim (bnd : bindings A (tdl C ET) ET Pos CE) : bindings_sim bnd (uncounted bnd) False (@counts A) eq eq eq eq.
Proof.
  assert (CR : forall (o : (option (datum (tdl C ET) ET) + error Pos CE) * A) n,
    cres_rel False (@counts A) eq eq eq eq o (fst o, (snd o, n))).
  { intros [[[d|]|e] a] n; unfold cres_rel; cbn.
    - split; [|reflexivity]. apply datum_eq_rel. reflexivity.
    - split; [exact I|reflexivity].
    - left. split; [|reflexivity]. destruct e; cbn; auto. }
  intros d1 d2 Hd. apply datum_eq_rel in Hd. subst d1. unfold uncounted. destruct (bnd d2) as [[f|f]|]; cbn; [| |exact I].
  - intros e1 e2 t1 t2 a1 a2 H1 -> ->. apply datum_eq_rel in H1. subst e1. pose proof (CR (f e2 t2 (fst a2)) (snd a2)) as G.
    destruct (f e2 t2 (fst a2)). exact G.
  - intros e1 e2 t1 t2 a1 a2 H1 H2 ->. apply datum_eq_rel in H1, H2. subst e1 t1. pose proof (CR (f e2 t2 (fst a2)) (snd a2)) as G.
    destruct (f e2 t2 (fst a2)). exact G.
Qed.
Lemma uncounted_quiet (bnd : bindings A (tdl C ET) ET Pos CE) d : match uncounted bnd d with
  | Some (Operative f) => forall t a, (list_used (snd (f d t a)) <= list_used a)%Z
  | Some (Applicative f) => forall l a, (list_used (snd (f d l a)) <= list_used a)%Z
  | None => True
  end.
Proof.
  unfold uncounted, list_used. destruct (bnd d) as [[f|f]|]; [| |exact I].
  - intros t a. destruct (f d t (fst a)). cbn. lia.
  - intros t a. destruct (f d t (fst a)). cbn. lia.
Qed.
Lemma titer_rel_eq (s1 s2 : titer (TT:=tdl C ET) (C:=C) (CS:=CS) (Pos:=Pos)) : titer_rel eq s1 s2 -> s1 = s2.
Proof.
  destruct s1 as [c1 n1 o1 p1], s2 as [c2 n2 o2 p2]. intros (K1 & K2 & K3 & K4). cbn in *. subst.
  destruct o1, o2; cbn in K3; try contradiction; congruence.
Qed.
Lemma list_source_run (bnd : bindings A (tdl C ET) ET Pos CE) s a l os st' : titer_rep Rc Rcs x s l [] -> ti_accum s = None ->
  nexts umax cc (titer_stream k x) (text_concat_ops x) ao bnd (parse_iter_new s a) os st' ->
  exists n r, nexts umax cc (titer_stream k xw) (text_concat_ops xw) (work_alloc ao) (uncounted bnd) (parse_iter_new s (a, 0)) os
      (PState (ps_strm st') (ps_depth st') (ps_alloc st', n)) /\
    left_in (titer_stream k x) (ps_strm st') r /\ length r <= length l /\ n <= pairs (length l - length r).
Proof.
  intros HR Hn N.
  destruct (sim_nexts (titer_sim (tdl_sim k ao) k) (text_concat_sim (tdl_sim k ao)) (work_alloc_sim ao) (uncounted_sim bnd) N (st2:=parse_iter_new s (a, 0)))
    as (cos & stc & N2 & F2 & (K1 & K2 & K3)).
  { split; [|split; reflexivity]. repeat split. cbn. destruct (ti_accum s); cbn; auto. }
  assert (cos = os) as ->.
  { clear -F2. induction F2 as [|o1 o2 os cos H _ IH]; [reflexivity|]. f_equal; [|exact IH].
    destruct o1 as [[d1|e1]|], o2 as [[d2|e2]|]; cbn in H; try contradiction; try reflexivity; try congruence.
    apply datum_eq_rel in H. congruence. }
  apply titer_rel_eq in K1. destruct stc as [s2 dp2 [a2 n]]. cbn [ps_strm ps_depth ps_alloc] in *. red in K3. cbn in K3. subst s2 dp2 a2.
  exists n.
  assert (P1 : pok (ps_strm (parse_iter_new s (a, 0)))) by (cbn; rewrite Hn; exact I).
  assert (P2 : pc (ps_strm (parse_iter_new s (a, 0))) = 0%Z) by (cbn; rewrite Hn; reflexivity).
  destruct (nexts_source (titer_contract KC tdl_work_contract) (xc_concat tdl_work_contract) list_amortized (g:=pairs_z) pairs_z_0 pairs_z_le pairs_z_add list_sourced
    (bnd:=uncounted bnd) (uncounted_quiet bnd) (st:=parse_iter_new s (a, 0)) l HR P1 P2 N2) as (r & p & HR' & HL & HU).
  exists r. split; [exact N2|]. split; [exact (contract_left (titer_contract KC (tdl_contract KC AC)) _ _ _ HR')|]. split; [lia|].
  unfold list_used, pairs_z in HU. cbn [ps_alloc parse_iter_new snd] in HU. lia.
Qed.
End List.

(** ** The source streams over [TextVec] *)
Section VecStreams.
Context {A ET CE : Type} (umax : N) (cc : classifier) (grow : nat -> nat -> nat).
Context (G1 : forall cap need, need <= grow cap need) (G2 : forall cap need, 2 * cap <= grow cap need).

Section TIter.
Context {C CS Pos : Type} (k : chunk_ops C CS Pos) (Rc : C -> list (item Pos) -> Prop) (Rcs : CS -> list (item Pos) -> list (item Pos) -> Prop) (KC : chunk_contract k Rc Rcs).
Context (ao : alloc_ops A (tvec C) ET) (HN : forall d a d' a', a_new_datum ao d a = (Ok d', a') -> d' = d).
Local Notation x := (tvec_ops (A:=A) k).
Local Notation xc := (cvec_ops (A:=A) k grow).
Lemma vec_titer_source (bnd : bindings A (tvec C) ET Pos CE) s1 s2 a l os st' : titer_rel (@forgets C) s1 s2 -> titer_rep Rc Rcs xc s2 l [] -> ti_accum s2 = None ->
  nexts umax cc (titer_stream k x) (text_concat_ops x) ao bnd (parse_iter_new s1 a) os st' ->
  exists cos stc n r, nexts umax cc (titer_stream k xc) (text_concat_ops xc) (cvec_alloc ao) (cvec_bindings bnd) (parse_iter_new s2 (a, 0)) cos stc /\
    map (@cvec_item C ET Pos CE) cos = os /\ ps_alloc stc = (ps_alloc st', n) /\
    left_in (titer_stream k x) (ps_strm st') r /\ length r <= length l /\ n <= 7 * (length l - length r).
Proof.
  intros Hs HR Hn N.
  refine (@vec_source_run C CS Pos A ET CE umax cc k grow Rc Rcs KC ao HN _ _ (titer_stream k x) (titer_stream k xc) (titer_rel (@forgets C)) _ _ (titer_rep Rc Rcs xc)
    (titer_sim (cvec_sim k grow) k) (vec_titer_amortized grow G1 G2 k ao) (titer_contract KC (cvec_contract grow KC)) _ bnd s1 s2 a l os st' Hs HR _ _ N).
  - intros s r p (pa & Ha & Hs') Hok. pose proof (vec_accum_items grow KC _ _ Ha Hok) as B. destruct (ti_cur s) as [cs|].
    + destruct Hs' as (r1 & p1 & chunks & ls & _ & _ & _ & _ & -> & _). rewrite app_length. lia.
    + destruct Hs' as (_ & _ & -> & _). exact B.
  - rewrite Hn. exact I.
  - rewrite Hn. reflexivity.
Qed.
End TIter.

Section Strings.
Context (ao : alloc_ops A (tvec posstrish) ET) (HN : forall d a d' a', a_new_datum ao d a = (Ok d', a') -> d' = d).
Local Notation x := (tvec_ops (A:=A) posstrish_ops).
Local Notation xc := (cvec_ops (A:=A) posstrish_ops grow).
Local Notation any := (fun (_ : str) (_ : N) => True).
Local Notation KC := (posstrish_contract any).
Lemma vec_chars_source (bnd : bindings A (tvec posstrish) ET charpos CE) input a os st' :
  nexts umax cc (chariter_stream x) (text_concat_ops x) ao bnd (parse_iter_new (chariter_new input) a) os st' ->
  exists cos stc n r, nexts umax cc (chariter_stream xc) (text_concat_ops xc) (cvec_alloc ao) (cvec_bindings bnd) (parse_iter_new (chariter_new input) (a, 0)) cos stc /\
    map (@cvec_item posstrish ET charpos CE) cos = os /\ ps_alloc stc = (ps_alloc st', n) /\
    left_in (chariter_stream x) (ps_strm st') r /\ length r <= length input /\ n <= 7 * (length input - length r).
Proof.
  intros N.
  rewrite <- (enumerate_length 0 input).
  refine (@vec_source_run _ _ _ A ET CE umax cc posstrish_ops grow _ _ KC ao HN _ _ (chariter_stream x) (chariter_stream xc) eq _ _ (chariter_rep input)
    (chariter_sim (cvec_sim posstrish_ops grow)) (vec_chariter_amortized grow G1 G2 ao) (chariter_contract (cvec_contract grow KC) _) _ bnd _ _ a _ os st' eq_refl (chariter_new_rep input) I eq_refl N).
  - intros. exact I.
  - intros s r p _ _. lia.
Qed.
Lemma vec_strings_source (bnd : bindings A (tvec posstrish) ET charpos CE) inputs s1 s2 a os st' : strishiter_new inputs = Ok s1 -> strishiter_new inputs = Ok s2 ->
  nexts umax cc (strishiter_stream x) (text_concat_ops x) ao bnd (parse_iter_new s1 a) os st' ->
  exists cos stc n r, nexts umax cc (strishiter_stream xc) (text_concat_ops xc) (cvec_alloc ao) (cvec_bindings bnd) (parse_iter_new s2 (a, 0)) cos stc /\
    map (@cvec_item posstrish ET charpos CE) cos = os /\ ps_alloc stc = (ps_alloc st', n) /\
    left_in (strishiter_stream x) (ps_strm st') r /\ length r <= length (List.concat inputs) /\ n <= 7 * (length (List.concat inputs) - length r).
Proof.
  intros E1 E2 N. rewrite <- (enumerate_length 0 (List.concat inputs)).
  assert (Hok : forall l1 s l2, inputs = l1 ++ s :: l2 -> any s (N.of_nat (length (List.concat l1)))) by (intros; exact I).
  destruct (strishiter_new_rep any xc Hok) as (s & Es & HR). rewrite E2 in Es. injection Es as <-.
  destruct (strishiter_new_sim (@forgets posstrish) _ E1) as (s & Es & Hs). rewrite E2 in Es. injection Es as <-.
  assert (Hn : si_accum s2 = None).
  { unfold strishiter_new in E2. destruct (next_posstrish_of inputs 0) as [[]]; try discriminate. injection E2 as <-. reflexivity. }
  refine (@vec_source_run _ _ _ A ET CE umax cc posstrish_ops grow _ _ KC ao HN _ _ (strishiter_stream x) (strishiter_stream xc) (strish_rel (@forgets posstrish)) _ _ (strishiter_rep any xc inputs)
    (strishiter_sim (cvec_sim posstrish_ops grow)) (vec_strishiter_amortized grow G1 G2 ao) (strishiter_contract (cvec_contract grow KC) Hok) _ bnd _ _ a _ os st' Hs HR _ _ N).
  - intros s r p (pa & Ha & Hs') Hk. pose proof (vec_accum_items grow KC _ _ Ha Hk) as B. destruct (si_cur s) as [cs|].
    + destruct Hs' as (r1 & p1 & r2 & _ & -> & _). rewrite app_length. lia.
    + destruct Hs' as (_ & ->). exact B.
  - rewrite Hn. exact I.
  - rewrite Hn. reflexivity.
Qed.
End Strings.
End VecStreams.
