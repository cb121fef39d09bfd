(** Texts made of ranges of the strings of a source. *)
From Coq Require Import List Arith NArith ZArith Bool Lia.
From Verif.Model Require Import Prelude Parser Utf8 Chunk PosStrish TextVec CharIter StrishIter.
From Verif.Spec Require Import Contract ChunkContract Run TextWork Slices Pieces.
From Verif.Proofs Require Import StrFacts ChunkFacts TextFacts RunFacts Amortize TextWorkFacts PiecesFacts PiecesRuns ManyPieces ManyStreams.
Import ListNotations.
Set Implicit Arguments.
Local Notation N_len r := (N.of_nat (length r)).

Lemma string_sources_nodup strs : NoDup (List.concat (parts 0 strs)).
Proof. rewrite concat_parts, <- char_source_eq. apply char_source_nodup. Qed.

Lemma in_parts : forall l1 s l2 n, In (enumerate (n + N_len (List.concat l1)) s) (parts n (l1 ++ s :: l2)).
Proof.
  induction l1 as [|s1 l1 IH]; intros s l2 n; cbn.
  - left. rewrite N.add_0_r. reflexivity.
  - right. specialize (IH s l2 (n + N_len s1)%N). rewrite app_length.
    replace (n + N.of_nat (length s1 + length (List.concat l1)))%N with (n + N_len s1 + N_len (List.concat l1))%N by lia. exact IH.
Qed.

Definition range_items (strs : list str) (r : nat * (nat * nat)) : list (item charpos) :=
  let '(i, (a, b)) := r in
  enumerate (N.of_nat (length (List.concat (firstn i strs)) + a)) (firstn (b - a) (skipn a (nth i strs []))).
Definition range_in (strs : list str) (r : nat * (nat * nat)) : Prop :=
  fst r < length strs /\ fst (snd r) < snd (snd r) <= length (nth (fst r) strs []).

Lemma mid_of {X} (pre v post : list X) : firstn (length pre + length v - length pre) (skipn (length pre) (pre ++ v ++ post)) = v.
Proof.
  rewrite skipn_app, skipn_all, Nat.sub_diag. cbn [skipn app]. replace (length pre + length v - length pre) with (length v) by lia.
  rewrite firstn_app, firstn_all, Nat.sub_diag. cbn. apply app_nil_r.
Qed.
Lemma range_of_rep strs c l : posstrish_rep (held_by strs) c l -> l <> [] ->
  exists r, c = range_at strs r /\ l = range_items strs r /\ range_in strs r.
Proof.
  intros (pre & v & post & E & -> & H) Hl. destruct H as [->|(base & (l1 & l2 & Es & ->) & Hp)]; [cbn in Hl; congruence|].
  assert (N1 : nth (length l1) strs [] = pre ++ v ++ post) by (rewrite Es, app_nth2, Nat.sub_diag by lia; reflexivity).
  assert (N2 : firstn (length l1) strs = l1) by (rewrite Es, firstn_app, firstn_all, Nat.sub_diag; apply app_nil_r).
  exists (length l1, (length pre, length pre + length v)). split; [|split].
  - unfold range_at. rewrite N1, N2. destruct c as [cv cp]. cbn in *. subst cp cv. f_equal; [|lia]. f_equal.
    + rewrite firstn_app, firstn_all, Nat.sub_diag. cbn. rewrite app_nil_r. reflexivity.
    + rewrite app_assoc, firstn_app. rewrite app_length, Nat.sub_diag. cbn. rewrite app_nil_r.
      rewrite firstn_all2 by (rewrite app_length; lia). rewrite byte_len_app. reflexivity.
  - unfold range_items. rewrite N1, N2, mid_of, Hp. f_equal. lia.
  - split; cbn; [rewrite Es, app_length; cbn; lia|]. rewrite N1, !app_length. destruct v; [cbn in Hl; congruence|cbn; lia].
Qed.

Lemma firstn_skipn_add {X} (s : list X) a b c : a <= b <= c -> firstn (b - a) (skipn a s) ++ firstn (c - b) (skipn b s) = firstn (c - a) (skipn a s).
Proof.
  intros H. rewrite <- (firstn_skipn (b - a) (firstn (c - a) (skipn a s))). rewrite firstn_firstn.
  replace (Init.Nat.min (b - a) (c - a)) with (b - a) by lia. f_equal.
  rewrite skipn_firstn_comm, skipn_add. f_equal; [lia|]. f_equal. lia.
Qed.
Lemma enumerate_part n s a b : a <= b <= length s -> part_of (enumerate n s) (enumerate (n + N.of_nat a) (firstn (b - a) (skipn a s))).
Proof.
  intros H. exists (enumerate n (firstn a s)), (enumerate (n + N.of_nat b) (skipn b s)).
  rewrite <- (firstn_skipn a s) at 1. rewrite enumerate_app, firstn_length. replace (Init.Nat.min a (length s)) with a by lia. f_equal.
  rewrite <- (firstn_skipn (b - a) (skipn a s)) at 1. rewrite enumerate_app, firstn_length, skipn_length, skipn_add.
  replace (Init.Nat.min (b - a) (length s - a)) with (b - a) by lia. f_equal.
  replace (a + (b - a)) with b by lia. f_equal. lia.
Qed.
Lemma good_ranges_of strs cs ls : Forall2 (posstrish_rep (held_by strs)) cs ls -> Forall (fun l => l <> []) ls ->
  pieces_of (parts 0 strs) ls -> exists rs, cs = map (range_at strs) rs /\ good_ranges strs rs.
Proof.
  intros H Ne [_ P].
  assert (G : exists rs, cs = map (range_at strs) rs /\ ls = map (range_items strs) rs /\ Forall (range_in strs) rs).
  { clear P. induction H as [|c l cs ls Hc _ IH]; [exists []; auto|]. inversion Ne as [|? ? Ne1 Ne2]; subst.
    destruct (IH Ne2) as (rs & -> & -> & R). destruct (range_of_rep Hc Ne1) as (r & -> & -> & Hr). exists (r :: rs). auto. }
  destruct G as (rs & -> & -> & R). exists rs. split; [reflexivity|]. split; [exact R|].
  intros a [i [a1 b1]] [i2 [a2 b2]] b -> [E1 E2]. cbn in E1, E2. subst i2 a2. rewrite map_app in P. apply (P _ _ _ _ eq_refl).
  apply Forall_app in R. destruct R as [_ R]. inversion R as [|? ? K1 R2]; inversion R2 as [|? ? K2 _]; subst. destruct K1 as [Ki K1], K2 as [_ K2]. cbn in Ki, K1, K2.
  right. exists (enumerate (N_len (List.concat (firstn i strs))) (nth i strs [])). split.
  - pose proof (in_parts (firstn i strs) (nth i strs []) (skipn (S i) strs) 0) as I. cbn [N.add] in I.
    assert (Es : strs = firstn i strs ++ nth i strs [] :: skipn (S i) strs).
    { rewrite <- (firstn_skipn i strs) at 1. f_equal. clear -Ki. revert strs Ki. induction i as [|i IH]; intros [|s strs] K; cbn in *; try lia; [reflexivity|]. apply IH. lia. }
    exact (eq_ind _ (fun z => In _ (parts 0 z)) I _ (eq_sym Es)).
  - unfold range_items.
    assert (J : part_of (enumerate (N_len (List.concat (firstn i strs))) (nth i strs []))
      (enumerate (N_len (List.concat (firstn i strs)) + N.of_nat a1) (firstn (b2 - a1) (skipn a1 (nth i strs []))))) by (apply enumerate_part; lia).
    rewrite <- (@firstn_skipn_add _ (nth i strs []) a1 b1 b2) in J by lia.
    rewrite enumerate_app, firstn_length, skipn_length in J.
    replace (Init.Nat.min (b1 - a1) (length (nth i strs []) - a1)) with (b1 - a1) in J by lia.
    replace (N.of_nat (length (List.concat (firstn i strs)) + a1)) with (N_len (List.concat (firstn i strs)) + N.of_nat a1)%N by lia.
    replace (N.of_nat (length (List.concat (firstn i strs)) + b1)) with (N_len (List.concat (firstn i strs)) + N.of_nat a1 + N.of_nat (b1 - a1))%N by lia.
    exact J.
Qed.

(** Conversely, such ranges are pieces. *)
Definition base_of (strs : list str) (i : nat) : nat := length (List.concat (firstn i strs)).
Lemma base_mono : forall strs i j, i < j -> i < length strs -> base_of strs i + length (nth i strs []) <= base_of strs j.
Proof.
  unfold base_of. induction strs as [|s strs IH]; intros i j H K; [cbn in K; lia|]. destruct j as [|j]; [lia|].
  cbn [firstn List.concat]. rewrite app_length. destruct i as [|i]; cbn [firstn List.concat length nth]; [lia|].
  rewrite app_length. specialize (IH i j). cbn in K. lia.
Qed.
Lemma base_unique strs i j x : i < length strs -> j < length strs -> base_of strs i <= x < base_of strs i + length (nth i strs []) ->
  base_of strs j <= x < base_of strs j + length (nth j strs []) -> i = j.
Proof.
  intros Hi Hj H1 H2. destruct (Nat.lt_trichotomy i j) as [K|[K|K]]; [|exact K|].
  - pose proof (@base_mono strs _ _ K Hi). lia.
  - pose proof (@base_mono strs _ _ K Hj). lia.
Qed.
Lemma in_parts_inv : forall strs n src, In src (parts n strs) ->
  exists k, k < length strs /\ src = enumerate (n + N.of_nat (base_of strs k)) (nth k strs []).
Proof.
  induction strs as [|s strs IH]; intros n src H; [destruct H|]. destruct H as [<-|H].
  - exists 0. split; [cbn; lia|]. cbn. rewrite N.add_0_r. reflexivity.
  - destruct (IH _ _ H) as (k & Hk & ->). exists (S k). split; [cbn; lia|]. unfold base_of. cbn [firstn List.concat nth].
    rewrite app_length. f_equal. lia.
Qed.
Lemma enumerate_at : forall x n s p u y, enumerate n s = x ++ enumerate p u ++ y -> u <> [] ->
  p = (n + N_len x)%N /\ length x + length u <= length s.
Proof.
  induction x as [|i x IH]; intros n s p u y E Hu.
  - destruct u as [|c u]; [congruence|]. destruct s as [|c' s]; [discriminate|]. cbn [app enumerate] in E.
    pose proof (f_equal (@length _) E) as L. cbn [length] in L. rewrite app_length, !enumerate_length in L.
    injection E as -> -> _. split; [cbn; lia|]. cbn. lia.
  - destruct s as [|c' s]; [discriminate|]. cbn [app enumerate] in E. injection E as _ E.
    destruct (IH _ _ _ _ _ E Hu) as [-> K]. split; [cbn [length]; lia|]. cbn. lia.
Qed.
Lemma range_vals strs r : range_in strs r -> exists v, range_items strs r = enumerate (N.of_nat (base_of strs (fst r) + fst (snd r))) v /\
  length v = snd (snd r) - fst (snd r).
Proof.
  destruct r as [i [a b]]. intros [H1 H2]. cbn in *. eexists. split; [reflexivity|]. rewrite firstn_length, skipn_length. lia.
Qed.
Lemma nth_split_at {X} (d : X) : forall l i, i < length l -> l = firstn i l ++ nth i l d :: skipn (S i) l.
Proof.
  induction l as [|y l IH]; intros i H; [cbn in H; lia|]. destruct i as [|i]; [reflexivity|]. cbn in *. f_equal. apply IH. lia.
Qed.
Lemma range_tight strs r : range_in strs r -> tight_rep (held_by strs) (range_at strs r) (range_items strs r).
Proof.
  intros H. pose proof (range_vals H) as (v & Ev & Lv). destruct r as [i [a b]]. destruct H as [H1 H2]. cbn in H1, H2, Lv. split.
  2:{ intros E. rewrite Ev in E. destruct v; [cbn in Lv; lia|discriminate]. }
  clear v Ev Lv. set (s := nth i strs []) in *.
  exists (firstn a s), (firstn (b - a) (skipn a s)), (skipn b s).
  assert (E1 : firstn b s = firstn a s ++ firstn (b - a) (skipn a s)).
  { rewrite <- (firstn_skipn a (firstn b s)), firstn_firstn, firstn_skipn_comm. replace (Init.Nat.min a b) with a by lia.
    replace (a + (b - a)) with b by lia. reflexivity. }
  assert (E2 : firstn a s ++ firstn (b - a) (skipn a s) ++ skipn b s = s) by (rewrite app_assoc, <- E1; apply firstn_skipn).
  rewrite E2. split; [|split].
  - cbn [range_at px_val]. fold s. rewrite E1, byte_len_app. reflexivity.
  - reflexivity.
  - right. exists (N_len (List.concat (firstn i strs))). split.
    + exists (firstn i strs), (skipn (S i) strs). split; [|reflexivity]. apply nth_split_at. exact H1.
    + cbn [range_at px_pos]. rewrite firstn_length. replace (Init.Nat.min a (length s)) with a by lia. lia.
Qed.
Lemma range_part strs r : range_in strs r -> part_of_one (parts 0 strs) (range_items strs r).
Proof.
  destruct r as [i [a b]]. intros [H1 H2]. cbn in H1, H2. right. exists (enumerate (0 + N_len (List.concat (firstn i strs))) (nth i strs [])). split.
  - pose proof (in_parts (firstn i strs) (nth i strs []) (skipn (S i) strs) 0) as I.
    exact (eq_ind _ (fun z => In _ (parts 0 z)) I _ (eq_sym (nth_split_at [] _ H1))).
  - unfold range_items. replace (N.of_nat (length (List.concat (firstn i strs)) + a)) with (0 + N_len (List.concat (firstn i strs)) + N.of_nat a)%N by lia.
    apply enumerate_part. lia.
Qed.
Lemma ranges_pieces strs rs : good_ranges strs rs -> pieces_of (parts 0 strs) (map (range_items strs) rs).
Proof.
  intros [H1 H2]. split.
  - clear H2. induction H1 as [|r rs Hr _ IH]; cbn; constructor; auto. apply range_part. exact Hr.
  - intros a l1 l2 b E K. apply map_eq_app in E. destruct E as (ra & rb & -> & <- & E).
    destruct rb as [|r1 [|r2 rb]]; try discriminate. injection E as <- <- _.
    apply (H2 _ _ _ _ eq_refl). apply Forall_app in H1. destruct H1 as [_ H1]. inversion H1 as [|? ? K1 R2]; inversion R2 as [|? ? K2 _]; subst.
    destruct (range_vals K1) as (v1 & E1 & L1), (range_vals K2) as (v2 & E2 & L2). destruct K1 as [I1 K1], K2 as [I2 K2]. rewrite E1, E2 in K.
    assert (N1 : v1 <> []) by (intros ->; cbn in L1; lia). assert (N2 : v2 <> []) by (intros ->; cbn in L2; lia).
    destruct K as [K|(src & Hs & p & q & K)]; [apply app_eq_nil in K; destruct v1; [congruence|destruct K; discriminate]|].
    destruct (in_parts_inv _ _ _ Hs) as (k & Hk & ->).
    rewrite <- app_assoc in K. destruct (enumerate_at _ _ _ _ _ K N1) as [P1 Q1].
    rewrite app_assoc in K. destruct (enumerate_at _ _ _ _ _ K N2) as [P2 Q2]. rewrite app_length, enumerate_length in P2, Q2.
    assert (fst r1 = k) by (apply (@base_unique strs _ _ (base_of strs (fst r1) + fst (snd r1))); auto; lia).
    assert (fst r2 = k) by (apply (@base_unique strs _ _ (base_of strs (fst r2) + fst (snd r2))); auto; lia).
    split; [congruence|]. replace (fst r2) with k in P2 by auto. replace (fst r1) with k in P1 by auto. lia.
Qed.

Lemma keeps_iff {A TT ET Pos CE} (P Q : TT -> Prop) (bnd : bindings A TT ET Pos CE) : (forall t, P t <-> Q t) -> keeps_texts P bnd -> keeps_texts Q bnd.
Proof.
  intros H K. assert (G : forall l, Forall P l <-> Forall Q l) by (intros l; split; apply Forall_impl; apply H).
  intros d Hd. apply G in Hd. specialize (K d Hd). destruct (bnd d) as [[f|f]|]; [| |exact I].
  - intros t a o a' Ht E. apply G. apply H in Ht. exact (K _ _ _ _ Ht E).
  - intros l a o a' Hl E. apply G. apply G in Hl. exact (K _ _ _ _ Hl E).
Qed.
Lemma made_iff {A} strs t : made_of_ranges strs t <->
  many_good (tvec_ops (A:=A) posstrish_ops) (tight_rep (held_by strs)) (parts 0 strs) t.
Proof.
  unfold many_good, chunks_are_pieces_of. cbn. unfold tvec_chunks. split.
  - intros [E|(rs & E & H)]; rewrite E.
    + exists [[]], [posstrish_empty]. split; [reflexivity|]. split; [|apply many_one; left; reflexivity].
      constructor; [|constructor]. apply (kc_empty (tight_contract (held_by strs))).
    + exists (map (range_items strs) rs), (map (range_at strs) rs). split; [reflexivity|]. split; [|apply ranges_pieces, H].
      destruct H as [H _]. clear E. induction H as [|r rs Hr _ IH]; cbn; constructor; auto. apply range_tight. exact Hr.
  - intros (ls & cs & E & H & P). apply seq_of_inj in E. destruct (List.concat ls) as [|i r] eqn:Ec.
    + assert (Hn : ls = [] \/ ls = [[]]).
      { destruct ls as [|l [|l' ls]]; [auto| |].
        - cbn in Ec. rewrite app_nil_r in Ec. subst l. auto.
        - exfalso. cbn in Ec. apply app_eq_nil in Ec. destruct Ec as [-> Ec]. apply app_eq_nil in Ec. destruct Ec as [-> _].
          destruct P as [_ P]. apply (P [] [] [] ls eq_refl). left. reflexivity. }
      destruct Hn as [->| ->].
      * right. exists []. rewrite E. destruct cs; [|inversion H]. split; [reflexivity|]. split; [constructor|]. intros a r1 r2 b K. destruct a; discriminate.
      * left. destruct cs as [|c [|c2 cs]]; [inversion H| |inversion H as [|? ? ? ? _ K]; inversion K]. rewrite E.
        inversion H as [|? ? ? ? K _]. rewrite (proj2 K eq_refl). reflexivity.
    + right. rewrite E. apply good_ranges_of with (ls := ls); [|apply (many_nonempty P); rewrite Ec; discriminate|exact P].
      clear -H. induction H as [|c l cs ls [Hc _] _ IH]; constructor; auto.
Qed.

Lemma shaped_joins {TT C CS Pos A} (k : chunk_ops C CS Pos) Rc Rcs (KC : chunk_contract k Rc Rcs) (x : text_ops TT C A) :
  shaped k x -> joins x Rc.
Proof. intros SH t u a t' a' cs ls cu lu H1 H2 H3 H4 E. eapply shaped_concat; [exact KC|exact SH|exact H1|exact H2|exact H3|exact H4|exact E]. Qed.
