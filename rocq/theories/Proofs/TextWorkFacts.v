(** What concatenating does to chunks, and what it costs. *)
From Coq Require Import List Arith NArith ZArith Bool Lia.
From Verif.Model Require Import Prelude Parser Iter Chunk TextIter TextVec TextDatumList CharIter StrishIter PosStrish TextWork.
From Verif.Spec Require Import Contract ChunkContract Memory TextWork Pieces.
From Verif.Proofs Require Import TextFacts Amortize PiecesFacts.
Import ListNotations.
Set Implicit Arguments.

(** ** Pairs *)
Lemma pairs_S n : pairs (S n) = n + pairs n.
Proof. unfold pairs. rewrite seq_S, list_sum_app. cbn. lia. Qed.
Lemma pairs_add m : forall n, pairs (m + n) = pairs m + pairs n + m * n.
Proof.
  induction n as [|n IH]; [rewrite Nat.add_0_r, Nat.mul_0_r; cbn; lia|].
  rewrite Nat.add_succ_r, !pairs_S, IH. lia.
Qed.
Lemma pairs_formula n : 2 * pairs n = n * (n - 1).
Proof. induction n as [|n IH]; [reflexivity|]. rewrite pairs_S. destruct n; [reflexivity|]. cbn in *. lia. Qed.

Section Chunks.
Context {C CS Pos : Type} (k : chunk_ops C CS Pos).
Lemma count_seq (cs : list C) : chunk_count (seq_of cs) = length cs.
Proof. induction cs; cbn; auto. Qed.

(** No chunk is empty, unless it is the only one. *)
Definition neat (cs : list C) : Prop := length cs <= 1 \/ Forall (fun c => c_is_empty k c = Ok false) cs.
Lemma neat_asked cs : neat cs -> chunks_asked k (seq_of cs) - 1 = 0.
Proof.
  intros [H|H].
  - destruct cs as [|c [|? ?]]; [reflexivity| |cbn in H; lia]. cbn. destruct (c_is_empty k c) as [[|]|[]| |]; reflexivity.
  - destruct H as [|c cs H _]; [reflexivity|]. cbn. rewrite H. reflexivity.
Qed.
Lemma neat_empty cs : neat cs -> all_empty k (seq_of cs) = Ok true -> length cs <= 1.
Proof.
  intros [H|H] E; [exact H|]. destruct H as [|c cs H _]; [cbn; lia|]. cbn in E. rewrite H in E. discriminate.
Qed.
Lemma neat_nonempty cs : neat cs -> all_empty k (seq_of cs) = Ok false ->
  cs <> [] /\ Forall (fun c => c_is_empty k c = Ok false) cs.
Proof.
  intros [H|H] E; (split; [intros ->; discriminate|]); [|exact H].
  destruct cs as [|c [|? ?]]; [constructor| |cbn in H; lia]. cbn in E. destruct (c_is_empty k c) as [[|]|[]| |] eqn:Ec; try discriminate.
  repeat constructor. exact Ec.
Qed.
Lemma neat_app cs cu : neat cs -> neat cu -> all_empty k (seq_of cs) = Ok false -> all_empty k (seq_of cu) = Ok false -> neat (cs ++ cu).
Proof.
  intros H1 H2 E1 E2. right. apply Forall_app. split; [apply (neat_nonempty H1 E1)|apply (neat_nonempty H2 E2)].
Qed.

(** What [concat] does to the chunks. *)
Definition shaped {TT A} (x : text_ops TT C A) : Prop := forall t u a t' a' cs cu,
  tx_chunks x t = seq_of cs -> tx_chunks x u = seq_of cu -> tx_concat x t u a = (Ok t', a') ->
  (all_empty k (seq_of cs) = Ok true /\ t' = u) \/
  (all_empty k (seq_of cs) = Ok false /\ all_empty k (seq_of cu) = Ok true /\ t' = t) \/
  (all_empty k (seq_of cs) = Ok false /\ all_empty k (seq_of cu) = Ok false /\ tx_chunks x t' = seq_of (cs ++ cu)).
End Chunks.

(** ** [TextDatumList] *)
Section List.
Context {C CS Pos A ET : Type} (k : chunk_ops C CS Pos) (ao : alloc_ops A (tdl C ET) ET).
Context (HD : forall d a d' a', a_new_datum ao d a = (Ok d', a') -> d' = d).
Local Notation tdl := (tdl C ET).

Lemma tdl_link_chunks u cu : tdl_chunks u = seq_of cu -> forall (t : tdl) a t' a' cs, tdl_chunks t = seq_of cs ->
  tdl_link ao t u a = (Ok t', a') -> tdl_chunks t' = seq_of (cs ++ cu).
Proof.
  intros Hu. fix IH 1. intros [c [d|]] a t' a' cs Hc E.
  - destruct d as [t1| | | | |]; try discriminate. cbn [tdl_link] in E. cbn [tdl_chunks] in Hc.
    destruct cs as [|c' cs]; [discriminate|]. injection Hc as -> Hc.
    destruct (tdl_link ao t1 u a) as [[t2|e| |] a2] eqn:E2; try discriminate. injection E as <- <-.
    cbn. f_equal. exact (IH _ _ _ _ _ Hc E2).
  - cbn [tdl_link] in E. cbn [tdl_chunks] in Hc. destruct cs as [|c' [|? ?]]; try discriminate. injection Hc as ->.
    destruct (a_new_datum ao (DText u) a) as [[d|e| |] a2] eqn:E2; try discriminate. injection E as <- <-.
    rewrite (HD _ _ E2). cbn. f_equal. exact Hu.
Qed.
Lemma tdl_shaped : shaped k (tdl_ops k ao).
Proof.
  intros t u a t' a' cs cu H1 H2 E. cbn in *. unfold tdl_concat, tdl_is_empty in E. rewrite H1, H2 in E.
  destruct (all_empty k (seq_of cs)) as [[|]|[]| |]; try discriminate; [injection E as <- <-; auto|].
  destruct (all_empty k (seq_of cu)) as [[|]|[]| |]; try discriminate; [injection E as <- <-; auto|].
  right; right. split; [auto|]. split; [auto|]. eapply tdl_link_chunks; eauto.
Qed.
Local Notation x := (tdl_work_ops k ao).
Lemma tdl_work_shaped : shaped k x.
Proof.
  intros t u a t' a' cs cu H1 H2 E. cbn in *. destruct (tdl_concat k ao t u (fst a)) as [r a2] eqn:E2. injection E as -> <-.
  exact (tdl_shaped _ _ _ _ _ H1 H2 E2).
Qed.
Lemma tdl_iterations_chunks : forall (t : tdl) cs, tdl_chunks t = seq_of cs -> tdl_iterations t = length cs.
Proof.
  fix IH 1. intros [c [d|]] cs H; cbn in H.
  - destruct d as [t1| | | | |]; try (destruct cs; discriminate). destruct cs as [|c' cs]; [discriminate|]. injection H as _ H.
    cbn. f_equal. exact (IH _ _ H).
  - destruct cs as [|c' [|? ?]]; try discriminate. reflexivity.
Qed.

Local Open Scope Z_scope.
Definition list_used (a : A * nat) : Z := Z.of_nat (snd a).
Definition list_cost (t : tdl) : Z := Z.of_nat (pairs (chunk_count (tdl_chunks t))).
Definition list_ok (t : tdl) : Prop := exists cs, tdl_chunks t = seq_of cs /\ neat k cs.

(** The three cases of [concat], with the work. *)
Lemma list_concat_cases t u a t' a' : list_ok t -> list_ok u -> tx_concat x t u a = (Ok t', a') ->
  exists cs cu, tdl_chunks t = seq_of cs /\ tdl_chunks u = seq_of cu /\ cs <> [] /\ cu <> [] /\ list_ok t' /\
  ((length cs = 1%nat /\ t' = u /\ snd a' = snd a) \/ (length cu = 1%nat /\ t' = t /\ snd a' = snd a) \/
   (tdl_chunks t' = seq_of (cs ++ cu) /\ snd a' = (snd a + length cs)%nat)).
Proof.
  intros (cs & H1 & N1) (cu & H2 & N2) E. exists cs, cu. split; [exact H1|]. split; [exact H2|].
  assert (Nn : forall (v : tdl) cv, tdl_chunks v = seq_of cv -> cv <> []).
  { intros [c [[]|]] cv H ->; discriminate. }
  split; [eauto|]. split; [eauto|].
  assert (N1' : (1 <= length cs)%nat) by (pose proof (Nn _ _ H1); destruct cs; cbn; [congruence|lia]).
  assert (N2' : (1 <= length cu)%nat) by (pose proof (Nn _ _ H2); destruct cu; cbn; [congruence|lia]).
  pose proof (tdl_work_shaped _ _ _ _ _ H1 H2 E) as Sh.
  cbn in E. destruct (tdl_concat k ao t u (fst a)) as [r a2]. injection E as -> <-. cbn [snd].
  unfold tdl_work, tdl_is_empty. rewrite H1, H2, (neat_asked N1), (neat_asked N2).
  destruct Sh as [(E1 & ->)|[(E1 & E2 & ->)|(E1 & E2 & E3)]].
  - rewrite E1. split; [exists cu; auto|]. left. pose proof (neat_empty N1 E1). split; [lia|]. split; [auto|lia].
  - rewrite E1, E2. split; [exists cs; auto|]. right; left. pose proof (neat_empty N2 E2). split; [lia|]. split; [auto|lia].
  - rewrite E1, E2, (tdl_iterations_chunks _ _ H1). split; [exists (cs ++ cu); split; [exact E3|apply neat_app; auto]|].
    right; right. split; [exact E3|lia].
Qed.

Lemma list_ok_from c : list_ok (tdl_from c).
Proof. exists [c]. split; [reflexivity|]. left. cbn. lia. Qed.
Lemma list_upper t u a t' a' : list_ok t -> list_ok u -> tx_concat x t u a = (Ok t', a') ->
  list_ok t' /\ list_used a' + list_cost t + list_cost u <= list_used a + list_cost t'.
Proof.
  intros Ht Hu E. destruct (list_concat_cases _ Ht Hu E) as (cs & cu & H1 & H2 & Ns & Nu & Ok' & H3). split; [exact Ok'|].
  unfold list_used, list_cost. destruct H3 as [(L & -> & ->)|[(L & -> & ->)|(Hc & ->)]]; rewrite ?H1, ?H2, ?Hc, !count_seq, ?L.
  - cbn [pairs seq list_sum fold_right]. cbn. lia.
  - cbn. lia.
  - rewrite app_length, pairs_add. assert (1 <= length cu)%nat by (destruct cu; cbn; [congruence|lia]).
    assert (length cs <= length cs * length cu)%nat by nia. lia.
Qed.
Lemma list_accumulates : accumulates x list_used list_cost list_ok.
Proof.
  split.
  - split; [apply list_ok_from|]. cbn. lia.
  - intros c. split; [apply list_ok_from|]. cbn. lia.
  - intros t c a t' a' Ht E. destruct (list_upper _ Ht (list_ok_from c) E) as [H1 H2]. split; [exact H1|].
    unfold list_cost at 2 in H2. cbn in H2. lia.
Qed.
(** One-chunk accumulations. *)
Definition list_one (t : tdl) : Prop := exists c, t = tdl_from c.
Lemma list_lower t u a t' a' : list_ok t -> list_one u -> tx_concat x t u a = (Ok t', a') ->
  list_ok t' /\ - list_used a' + - list_cost t + 0 <= - list_used a + - list_cost t'.
Proof.
  intros Ht (c & ->) E. destruct (list_concat_cases _ Ht (list_ok_from c) E) as (cs & cu & H1 & H2 & Ns & Nu & Ok' & H3). split; [exact Ok'|].
  destruct cu as [|c1 [|? ?]]; try discriminate. clear H2.
  unfold list_used, list_cost. destruct H3 as [(L & -> & ->)|[(L & -> & ->)|(Hc & ->)]]; rewrite ?H1, ?Hc, ?count_seq, ?L.
  - cbn. lia.
  - lia.
  - rewrite app_length, pairs_add. cbn [length]. replace (pairs 1) with 0%nat by reflexivity. lia.
Qed.
End List.

(** ** Streams over one chunk *)
Section One.
Context {TT C CS Pos A : Type} (k : chunk_ops C CS Pos) (x : text_ops TT C A).
Context (used : A -> Z) (one : TT -> Prop).
(** Starting from nothing, accumulating a chunk gives it. *)
Context (H_first : forall c a t' a', tx_concat x (tx_empty x) (tx_from x c) a = (Ok t', a') -> one t' /\ used a' = used a).
Context (H_none : one (tx_empty x)).
Local Notation titer := (titer (TT:=TT) (C:=C) (CS:=CS) (Pos:=Pos)).
Definition one_chunk (s : titer) : Prop :=
  ti_next s = SEnd /\
  match ti_cur s with
  | Some _ => ti_accum s = None
  | None => match ti_accum s with Some t => one t | None => True end
  end.
Lemma one_peek s v s' : one_chunk s -> titer_peek k s = (Ok v, s') -> one_chunk s'.
Proof.
  intros [H1 H2] E. unfold titer_peek in E. destruct (ti_peeked s); [injection E as _ <-; split; auto|].
  destruct (ti_cur s) as [cs|] eqn:Ec; [|injection E as _ <-; split; auto; rewrite Ec; auto].
  destruct (cs_peek k cs). injection E as _ <-. split; auto.
Qed.
Lemma one_next s v s' : one_chunk s -> titer_next k s = (Ok v, s') -> one_chunk s'.
Proof.
  intros [H1 H2] E. unfold titer_next in E. rewrite H1 in E. destruct (ti_cur s) as [cs|]; [|injection E as _ <-; split; [auto|cbn; auto]].
  cbn [titer_next_loop] in E. destruct (cs_next k cs) as [[[it|]|[]| |] cs']; try discriminate; injection E as _ <-; split; auto; cbn; auto.
Qed.
Lemma accum_first cs a t cs' a' : accum_chunk k x None cs a = (Ok t, (cs', a')) -> one t /\ used a' = used a.
Proof.
  intros E. unfold accum_chunk in E. destruct (cs_accum_done k cs) as [[c|[]| |] cs1]; try discriminate.
  destruct (tx_concat x (tx_empty x) (tx_from x c) a) as [r b] eqn:Ec. injection E as -> -> ->. eauto.
Qed.
Lemma one_next_accum s a v s' a' : one_chunk s -> titer_next_accum k x s a = (Ok v, (s', a')) -> one_chunk s' /\ used a' = used a.
Proof.
  intros [H1 H2] E. unfold titer_next_accum in E. rewrite H1 in E. destruct (ti_cur s) as [cs|] eqn:Ec.
  - cbn [titer_next_accum_loop] in E. rewrite H2 in E.
    destruct (cs_next_accum k cs) as [[[it|]|[]| |] cs']; try discriminate.
    + injection E as _ <- <-. split; [split; cbn; auto|auto].
    + destruct (accum_chunk k x None cs' a) as [[t|e| |] [cs2 b]] eqn:Ea; try discriminate.
      injection E as _ <- <-. destruct (accum_first _ _ Ea). split; [split; cbn; auto|auto].
  - injection E as _ <- <-. split; [split; cbn; auto|auto].
Qed.
Lemma one_accum_done s a t s' a' : one_chunk s -> titer_accum_done k x s a = (Ok t, (s', a')) ->
  one_chunk s' /\ one t /\ used a' = used a.
Proof.
  intros [H1 H2] E. unfold titer_accum_done in E. destruct (ti_cur s) as [cs|] eqn:Ec.
  - rewrite H2 in E. destruct (accum_chunk k x None cs a) as [r [cs2 b]] eqn:Ea. injection E as -> <- <-.
    destruct (accum_first _ _ Ea). split; [split; cbn; auto|auto].
  - injection E as <- <- <-. split; [split; cbn; auto|]. split; [|reflexivity]. destruct (ti_accum s); auto.
Qed.
Lemma one_amortized {ET} (ao : alloc_ops A TT ET) (tc : TT -> Z) (tok : TT -> Prop) :
  tok (tx_empty x) /\ (0 <= tc (tx_empty x))%Z ->
  (forall t u a t' a', tok t -> one u -> tx_concat x t u a = (Ok t', a') -> tok t' /\ (used a' + tc t + 0 <= used a + tc t')%Z) ->
  (forall d a d' a', a_new_datum ao d a = (Ok d', a') -> d' = d /\ used a' = used a) ->
  amortized (titer_stream k x) (text_concat_ops x) ao used tc (fun _ => 0%Z) tok one (fun _ => 0%Z) one_chunk.
Proof.
  intros HE HC HN. split; auto.
  - intros s v s' Hp E. split; [exact (one_peek Hp E)|reflexivity].
  - intros s v s' Hp E. split; [exact (one_next Hp E)|reflexivity].
  - intros s a v s' a' Hp E. destruct (one_next_accum _ Hp E). split; [auto|lia].
  - intros s a v s' a' Hp E. destruct (one_accum_done _ Hp E) as (? & ? & ?). split; [auto|]. split; [auto|]. split; [auto|lia].
Qed.
End One.

(** ** [TextVec] *)
Section Vec.
Context {C CS Pos A : Type} (k : chunk_ops C CS Pos) (grow : nat -> nat -> nat).
Local Notation x := (cvec_ops (A:=A) k grow).
Local Notation cvec := (cvec C).

Lemma cvec_shaped : shaped k x.
Proof.
  intros t u a t' a' cs cu H1 H2 E. cbn in *. unfold cvec_concat, cvec_is_empty, tvec_is_empty in E. fold (cvec_chunks t) in E. fold (cvec_chunks u) in E.
  rewrite H1, H2 in E.
  destruct (all_empty k (seq_of cs)) as [[|]|[]| |]; try discriminate; [injection E as <- <-; auto|].
  destruct (all_empty k (seq_of cu)) as [[|]|[]| |]; try discriminate; [injection E as <- <-; auto|].
  right; right. split; [auto|]. split; [auto|].
  unfold cvec_chunks, tvec_chunks in *. apply seq_of_inj in H1, H2. subst cs cu.
  destruct t as [c1|v1], u as [c2|v2]; cbn in *;
    unfold vec_insert0, vec_push, vec_append in E;
    repeat match type of E with context [vec_reserve ?g ?v ?n] => destruct (vec_reserve g v n) end; injection E as <- <-; reflexivity.
Qed.

Context (G1 : forall cap need, need <= grow cap need) (G2 : forall cap need, 2 * cap <= grow cap need).
Local Open Scope Z_scope.
Definition slack (v : vec C) : Z := Z.max 0 (2 * Z.of_nat (length (v_elems v)) - Z.of_nat (v_cap v)).
Definition vec_acost (t : cvec) : Z :=
  match t with CSingle _ => 0 | CMulti v => 3 * Z.of_nat (length (v_elems v)) - slack v end.
Definition vec_tcost (t : cvec) : Z :=
  match t with CSingle _ => 0 | CMulti v => 7 * Z.of_nat (length (v_elems v)) - slack v end.
Definition vec_chunks_ok (t : cvec) : Prop :=
  neat k (tvec_slice (cvec_forget t)) /\
  match t with CSingle _ => True | CMulti v => (length (v_elems v) <= v_cap v)%nat /\ length (v_elems v) <> 1%nat end.

Lemma reserve_room (v : vec C) n cap moved : (length (v_elems v) <= v_cap v)%nat -> vec_reserve grow v n = (cap, moved) ->
  (length (v_elems v) + n <= cap)%nat /\
  ((cap = v_cap v /\ moved = 0%nat) \/
   (v_cap v < length (v_elems v) + n /\ 2 * v_cap v <= cap /\ moved = length (v_elems v))%nat).
Proof.
  intros H E. unfold vec_reserve in E. destruct (Nat.leb_spec (length (v_elems v) + n) (v_cap v)); injection E as <- <-.
  - split; [assumption|]. left. auto.
  - split; [apply G1|]. right. split; [assumption|]. split; [apply G2|reflexivity].
Qed.
Lemma neat_asked_vec t : vec_chunks_ok t -> (chunks_asked k (cvec_chunks t) - 1 = 0)%nat.
Proof. intros [H _]. apply (neat_asked H). Qed.
Lemma vec_concat_cases (t u t' : cvec) (a a' : A * nat) : vec_chunks_ok t -> vec_chunks_ok u -> tx_concat x t u a = (Ok t', a') ->
  (t' = u /\ snd a' = snd a /\ (length (tvec_slice (cvec_forget t)) <= 1)%nat) \/
  (t' = t /\ snd a' = snd a /\ (length (tvec_slice (cvec_forget u)) <= 1)%nat) \/
  (neat k (tvec_slice (cvec_forget t')) /\ tvec_slice (cvec_forget t) <> [] /\ tvec_slice (cvec_forget u) <> [] /\
   t' = fst (cvec_join grow t u) /\ snd a' = (snd a + snd (cvec_join grow t u))%nat).
Proof.
  intros Ht Hu E. assert (Sh := E). eapply cvec_shaped in Sh; [|reflexivity|reflexivity].
  cbn in E. unfold cvec_concat, cvec_is_empty, tvec_is_empty in E. rewrite (neat_asked_vec Ht), (neat_asked_vec Hu) in E.
  unfold tvec_chunks in E. destruct Ht as [N1 _], Hu as [N2 _].
  destruct Sh as [(E1 & ->)|[(E1 & E2 & ->)|(E1 & E2 & E3)]].
  - rewrite E1 in E. injection E as <-. left. cbn. pose proof (neat_empty N1 E1). split; [auto|]. split; [lia|auto].
  - rewrite E1, E2 in E. injection E as <-. right; left. cbn. pose proof (neat_empty N2 E2). split; [auto|]. split; [lia|auto].
  - rewrite E1, E2 in E. right; right. split.
    { cbn in E3. unfold cvec_chunks, tvec_chunks in E3. apply seq_of_inj in E3. rewrite E3. apply neat_app; auto. }
    split; [apply (neat_nonempty N1 E1)|]. split; [apply (neat_nonempty N2 E2)|].
    destruct (cvec_join grow t u) as [t2 n]. injection E as <- <-. cbn. split; [reflexivity|lia].
Qed.
Lemma join_costs t u : vec_chunks_ok t -> vec_chunks_ok u -> tvec_slice (cvec_forget t) <> [] -> tvec_slice (cvec_forget u) <> [] ->
  let t' := fst (cvec_join grow t u) in let n := Z.of_nat (snd (cvec_join grow t u)) in
  match t' with CSingle _ => False | CMulti v => (length (v_elems v) <= v_cap v)%nat /\ length (v_elems v) <> 1%nat end /\
  n + vec_tcost t + vec_acost u <= vec_tcost t' /\
  (forall c, u = CSingle c -> n + vec_acost t <= vec_acost t').
Proof.
  intros [_ Ht] [_ Hu] Nt Nu. unfold vec_tcost, vec_acost, slack. destruct t as [c1|v1], u as [c2|v2]; cbn [cvec_join cvec_forget tvec_slice fst snd] in *.
  - cbn [fst snd v_elems v_cap length]. split; [lia|]. split; [lia|]. intros. lia.
  - unfold vec_insert0. destruct (vec_reserve grow v2 1) as [cap moved] eqn:E. destruct (reserve_room _ _ (proj1 Hu) E) as [R1 R2].
    cbn [fst snd v_elems v_cap length]. split; [destruct (v_elems v2); cbn [length] in *; [congruence|lia]|]. split; [|intros c [=]]. destruct (v_elems v2) as [|e2 r2]; [congruence|]. cbn [length] in *. lia.
  - unfold vec_push. destruct (vec_reserve grow v1 1) as [cap moved] eqn:E. destruct (reserve_room _ _ (proj1 Ht) E) as [R1 R2].
    cbn [fst snd v_elems v_cap length]. rewrite app_length. cbn [length]. destruct (v_elems v1) as [|e1 r1]; [congruence|]. cbn [length] in *. split; [lia|]. split; [lia|]. intros. lia.
  - unfold vec_append. destruct (vec_reserve grow v1 (length (v_elems v2))) as [cap moved] eqn:E. destruct (reserve_room _ _ (proj1 Ht) E) as [R1 R2].
    cbn [fst snd v_elems v_cap length]. rewrite app_length. destruct (v_elems v1) as [|e1 r1]; [congruence|]. destruct (v_elems v2) as [|e2 r2]; [congruence|]. cbn [length] in *.
    split; [lia|]. split; [lia|]. intros c [=].
Qed.
Definition vec_used (a : A * nat) : Z := Z.of_nat (snd a).
Lemma vec_small t : vec_chunks_ok t -> (length (tvec_slice (cvec_forget t)) <= 1)%nat -> vec_tcost t <= 0 /\ vec_acost t <= 0.
Proof. unfold vec_tcost, vec_acost, slack. intros [_ H] L. destruct t as [c|v]; cbn [cvec_forget tvec_slice] in *; lia. Qed.
Lemma vec_acost_tcost t : vec_acost t <= vec_tcost t.
Proof. unfold vec_tcost, vec_acost. destruct t; lia. Qed.
Lemma vec_upper t u a t' a' : vec_chunks_ok t -> vec_chunks_ok u -> tx_concat x t u a = (Ok t', a') ->
  vec_chunks_ok t' /\ vec_used a' + vec_tcost t + vec_acost u <= vec_used a + vec_tcost t'.
Proof.
  intros Ht Hu E. unfold vec_used. destruct (vec_concat_cases a Ht Hu E) as [(-> & -> & L)|[(-> & -> & L)|(N & Nt & Nu & -> & ->)]].
  - split; [exact Hu|]. pose proof (vec_small Ht L). pose proof (vec_acost_tcost u). lia.
  - split; [exact Ht|]. pose proof (vec_small Hu L). lia.
  - destruct (join_costs Ht Hu Nt Nu) as (J1 & J2 & _). split.
    + split; [exact N|]. destruct (fst (cvec_join grow t u)); auto.
    + lia.
Qed.
Lemma vec_ok_from c : vec_chunks_ok (CSingle c).
Proof. split; [left; cbn; lia|exact I]. Qed.
Lemma vec_ok_empty : vec_chunks_ok (CMulti (Vec [] 0)).
Proof. split; [left; cbn; lia|cbn; lia]. Qed.
Lemma vec_accumulates : accumulates x vec_used vec_acost vec_chunks_ok.
Proof.
  split.
  - split; [apply vec_ok_empty|]. cbn. lia.
  - intros c. split; [apply vec_ok_from|]. cbn. lia.
  - intros t c a t' a' Ht E. unfold vec_used. pose proof (vec_ok_from c) as Hc.
    destruct (vec_concat_cases a Ht Hc E) as [(-> & -> & L)|[(-> & -> & L)|(N & Nt & Nu & -> & ->)]].
    + split; [exact Hc|]. pose proof (vec_small Ht L). cbn. lia.
    + split; [exact Ht|]. lia.
    + destruct (join_costs Ht Hc Nt Nu) as (J1 & _ & J2). specialize (J2 _ eq_refl). split.
      * split; [exact N|]. change (CSingle c) with (tx_from x c) in *. destruct (fst (cvec_join grow t (tx_from x c))); [exact I|]. exact J1.
      * cbn in *. lia.
Qed.
Lemma vec_tcost_count t : vec_tcost t <= 7 * Z.of_nat (chunk_count (cvec_chunks t)).
Proof.
  unfold vec_tcost, slack, cvec_chunks, tvec_chunks. rewrite count_seq. destruct t as [c|v]; cbn; lia.
Qed.
End Vec.
