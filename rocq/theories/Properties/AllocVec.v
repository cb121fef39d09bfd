(** C29 for vector texts: the memory needed by a parse when texts are on the heap. *)
From Coq Require Import List NArith Arith Bool Lia.
From Verif.Model Require Import Prelude Parser Iter Utf8 Chunk TextIter PosStr PosStrish
  TextVec CharIter StrishIter Alloc DefaultClassifier TextMethods DatumMethods Bindings Premade.
From Verif.Spec Require Import Contract Grammar ChunkContract Lawful Run Memory AbsStream.
From Verif.Proofs Require Import Sim Refine ChunkFacts TextFacts AllocFacts Transfer Instances PremadeFacts RunFacts Memory MemoryFacts CountInner
  ClassifierFacts.
From Verif.Tests Require Import Str Cases AbsCases.
Import ListNotations.
Local Notation N_len r := (N.of_nat (length r)).

Section Vec.
Context {ET CE W : Type} (umax : N) (cc : classifier).
Local Notation mem C := (slice_state (datum (tvec C) ET) * W)%type.
Local Notation none C Pos := (fun _ => @None (combiner (mem C) (tvec C) ET Pos CE)).

(** C29.  Vector texts take no slots: without bindings, parsing from any state of
    any of the three streams takes two slots for each combination and each list
    cell. *)
Theorem C29_vec_used {C CS Pos} (k : chunk_ops C CS Pos) st ds st' :
  iterates umax cc (titer_stream k (tvec_ops k)) (text_concat_ops (tvec_ops k)) slice_alloc (none C Pos) st (map inl ds) st' ->
  room (fst (ps_alloc st)) = room (fst (ps_alloc st')) + 2 * total_inner ds.
Proof.
  apply inner_used with (so2 := titer_stream k (tvec_ops k)) (co2 := text_concat_ops (tvec_ops k)).
  - intros cap. apply titer_two, tvec_two.
  - intros cap. apply (proj2 (tvec_two _ _ k)).
  - intros s a o s' a' E. apply titer_quiet1 in E; [congruence|apply tvec_quiet].
  - intros s a o s' a' E. apply titer_quiet2 in E; [congruence|apply tvec_quiet].
  - intros t u a v a' E. pose proof (tvec_quiet k t u a) as G. cbn [t_concat text_concat_ops] in E. rewrite E in G. cbn in G. congruence.
Qed.
Theorem C29_chars_used st ds st' :
  iterates umax cc (chariter_stream (tvec_ops posstrish_ops)) (text_concat_ops (tvec_ops posstrish_ops)) slice_alloc
    (none posstrish charpos) st (map inl ds) st' ->
  room (fst (ps_alloc st)) = room (fst (ps_alloc st')) + 2 * total_inner ds.
Proof.
  apply inner_used with (so2 := chariter_stream (tvec_ops posstrish_ops)) (co2 := text_concat_ops (tvec_ops posstrish_ops)).
  - intros cap. apply chariter_two, tvec_two.
  - intros cap. apply (proj2 (tvec_two _ _ posstrish_ops)).
  - intros s a o s' a' E. apply chariter_quiet1 in E. congruence.
  - intros s a o s' a' E. apply chariter_quiet2 in E. congruence.
  - intros t u a v a' E. pose proof (tvec_quiet posstrish_ops t u a) as G. cbn [t_concat text_concat_ops] in E. rewrite E in G. cbn in G. congruence.
Qed.
Theorem C29_strings_used st ds st' :
  iterates umax cc (strishiter_stream (tvec_ops posstrish_ops)) (text_concat_ops (tvec_ops posstrish_ops)) slice_alloc
    (none posstrish charpos) st (map inl ds) st' ->
  room (fst (ps_alloc st)) = room (fst (ps_alloc st')) + 2 * total_inner ds.
Proof.
  apply inner_used with (so2 := strishiter_stream (tvec_ops posstrish_ops)) (co2 := text_concat_ops (tvec_ops posstrish_ops)).
  - intros cap. apply strishiter_two, tvec_two.
  - intros cap. apply (proj2 (tvec_two _ _ posstrish_ops)).
  - intros s a o s' a' E. apply strishiter_quiet1 in E; [congruence|apply tvec_quiet].
  - intros s a o s' a' E. apply strishiter_quiet2 in E; [congruence|apply tvec_quiet].
  - intros t u a v a' E. pose proof (tvec_quiet posstrish_ops t u a) as G. cbn [t_concat text_concat_ops] in E. rewrite E in G. cbn in G. congruence.
Qed.

(** An input in the language: that many slots suffice, and with fewer there is
    an allocation error after some of the datums. *)
Definition takes_exactly {S C Pos} (so : stream_ops S (mem C) (tvec C) Pos) (co : concat_ops (mem C) (tvec C))
    (rd : tvec C -> list (item Pos) -> Prop) (s : S) (w : W) (ads : list (datum (list (item Pos)) ET)) : Prop :=
  forall slots, exists items st',
    iterates umax cc so co slice_alloc (none C Pos) (parse_iter_new s (slice_new slots, w)) items st' /\
    (2 * total_inner ads <= length slots ->
       exists ds, items = map inl ds /\ Forall2 (datum_rel rd eq) ds ads /\
         length slots = room (fst (ps_alloc st')) + 2 * total_inner ads) /\
    (length slots < 2 * total_inner ads ->
       exists ds1 e q ads1 ads2, items = map inl ds1 ++ inr (FailedAlloc e) :: q /\ ads = ads1 ++ ads2 /\
         Forall2 (datum_rel rd eq) ds1 ads1).

Lemma takes {S C Pos} (so1 : stream_ops S (mem C) (tvec C) Pos) (co1 : concat_ops (mem C) (tvec C))
    (so2 : stream_ops S (nat * W) (tvec C) Pos) (co2 : concat_ops (nat * W) (tvec C))
    (HS : forall cap, stream_two (fits cap) (over cap) so1 so2) (HC : forall cap, concat_two (fits cap) (over cap) co1 co2)
    (HU1 : forall s a r s' a', s_next_accum so2 s a = (r, (s', a')) -> a' = a)
    (HU2 : forall s a r s' a', s_accum_done so2 s a = (r, (s', a')) -> a' = a)
    (HU3 : forall t u a, snd (t_concat co2 t u a) = a) Rs1 Rt1 Rs2 Rt2 (rd : tvec C -> list (item Pos) -> Prop) s l w ads w' :
  disjoint_classes cc ->
  stream_contract True snd so1 Rs1 Rt1 -> concat_contract True snd co1 Rt1 ->
  stream_contract False snd so2 Rs2 Rt2 -> concat_contract False snd co2 Rt2 ->
  Rs1 s l [] -> Rs2 s l [] -> (N_len l <= umax)%N ->
  input (CE:=CE) cc (fun _ => None) w l ads w' -> (forall t m, Rt2 t m -> rd t m) -> takes_exactly so1 co1 rd s w ads.
Proof.
  intros DC S1 C1 S2 C2 H1 H2 Hu Hin Hrd slots.
  destruct (@inner_input S (tvec C) ET Pos CE W umax cc so1 co1 so2 co2 HS HC) with (F := True) (st := parse_iter_new s (slice_new slots, w))
    (s := l) (w := w) (ads := ads) (w' := w') (Rs1 := Rs1) (Rt1 := Rt1) (Rs2 := Rs2) (Rt2 := Rt2) as (items & st' & H & G1 & G2); auto.
  - intros s0 a o s' a' E. rewrite (HU1 _ _ _ _ _ E). reflexivity.
  - intros s0 a o s' a' E. rewrite (HU2 _ _ _ _ _ E). reflexivity.
  - intros t u a v a' E. pose proof (HU3 t u a) as G. rewrite E in G. cbn in G. congruence.
  - split; [exact S1|exact C1|apply slice_alloc_contract|reflexivity|intros d1 d2 _; exact I].
  - split; [exact S2|exact C2|apply count_contract|reflexivity|intros d1 d2 _; exact I].
  - split; [reflexivity|]. split; [exact H1|reflexivity].
  - split; [reflexivity|]. split; [exact H2|reflexivity].
  - cbn [parse_iter_new ps_alloc fst] in G1, G2. rewrite room_new in G1, G2.
    assert (MN : forall a b, Forall2 (datum_rel (E1:=ET) Rt2 eq) a b -> Forall2 (datum_rel rd eq) a b).
    { intros a b. apply Forall2_mono. apply datum_rel_mono; auto. }
    exists items, st'. split; [exact H|]. split.
    + intros Hl. destruct (G1 Hl) as (ds & -> & Hd & Hr). eauto.
    + intros Hl. destruct (G2 Hl) as (ds1 & e & q & ads1 & ads2 & -> & -> & Hd). exists ds1, e, q, ads1, ads2. auto.
Qed.

Theorem C29_vec_exact {C CS Pos} (k : chunk_ops C CS Pos) Rc Rcs (KC : chunk_contract k Rc Rcs) t l ads w w' :
  disjoint_classes cc -> text_items (tvec_ops (A:=mem C) k) Rc t l -> (N_len l <= umax)%N ->
  input (CE:=CE) cc (fun _ => None) w l ads w' ->
  exists s, titer_new k (tvec_ops (A:=mem C) k) t = Ok s /\
    takes_exactly (titer_stream k (tvec_ops k)) (text_concat_ops (tvec_ops k)) (reads k (tvec_ops (A:=mem C) k)) s w ads.
Proof.
  intros DC Ht Hu Hin. pose proof (tvec_contract KC True (snd : mem C -> W)) as X1.
  pose proof (tvec_contract KC False (snd : nat * W -> W)) as X2.
  destruct (titer_new_rep KC (x:=tvec_ops (A:=mem C) k) Ht) as (s & Es & Hs). exists s. split; [exact Es|].
  eapply takes with (so2:=titer_stream k (tvec_ops k)) (co2:=text_concat_ops (tvec_ops k)); try eassumption.
  - intros cap. apply titer_two, tvec_two.
  - intros cap. apply (proj2 (tvec_two _ _ k)).
  - apply titer_quiet1, tvec_quiet.
  - apply titer_quiet2, tvec_quiet.
  - apply tvec_quiet.
  - exact (titer_contract KC X1).
  - exact (xc_concat X1).
  - exact (titer_contract KC X2).
  - exact (xc_concat X2).
  - intros u m. exact (text_reads KC X1 (t:=u) (l:=m)).
Qed.

Let ok (_ : str) (_ : N) : Prop := True.
Theorem C29_chars_exact src ads w w' :
  disjoint_classes cc -> (N_len src <= umax)%N -> input (CE:=CE) cc (fun _ => None) w (char_source src) ads w' ->
  takes_exactly (chariter_stream (tvec_ops posstrish_ops)) (text_concat_ops (tvec_ops posstrish_ops))
    (reads posstrish_ops (tvec_ops (A:=mem posstrish) posstrish_ops)) (chariter_new src) w ads.
Proof.
  intros DC Hu Hin. pose proof (tvec_contract (posstrish_contract ok) True (snd : mem posstrish -> W)) as X1.
  pose proof (tvec_contract (posstrish_contract ok) False (snd : nat * W -> W)) as X2.
  assert (Hok : forall pre v post, src = pre ++ v ++ post -> ok v (N_len pre)) by (intros; exact I).
  rewrite char_source_eq in Hin.
  eapply takes with (so2:=chariter_stream (tvec_ops posstrish_ops)) (co2:=text_concat_ops (tvec_ops posstrish_ops)).
  - intros cap. apply chariter_two, tvec_two.
  - intros cap. apply (proj2 (tvec_two _ _ posstrish_ops)).
  - apply chariter_quiet1.
  - apply chariter_quiet2.
  - apply tvec_quiet.
  - exact DC.
  - exact (chariter_contract X1 Hok).
  - exact (xc_concat X1).
  - exact (chariter_contract X2 Hok).
  - exact (xc_concat X2).
  - apply chariter_new_rep.
  - apply chariter_new_rep.
  - rewrite enumerate_length. exact Hu.
  - exact Hin.
  - intros u m. exact (text_reads (posstrish_contract ok) X1 (t:=u) (l:=m)).
Qed.
Theorem C29_strings_exact strs ads w w' :
  disjoint_classes cc -> (N_len (List.concat strs) <= umax)%N ->
  input (CE:=CE) cc (fun _ => None) w (char_source (List.concat strs)) ads w' ->
  exists s, strishiter_new strs = Ok s /\
    takes_exactly (strishiter_stream (tvec_ops posstrish_ops)) (text_concat_ops (tvec_ops posstrish_ops))
      (reads posstrish_ops (tvec_ops (A:=mem posstrish) posstrish_ops)) s w ads.
Proof.
  intros DC Hu Hin. pose proof (tvec_contract (posstrish_contract ok) True (snd : mem posstrish -> W)) as X1.
  pose proof (tvec_contract (posstrish_contract ok) False (snd : nat * W -> W)) as X2.
  assert (Hok : forall l1 s l2, strs = l1 ++ s :: l2 -> ok s (N_len (List.concat l1))) by (intros; exact I).
  rewrite char_source_eq in Hin.
  destruct (strishiter_new_rep ok (tvec_ops (A:=mem posstrish) posstrish_ops) Hok) as (s & Es & Hs). exists s. split; [exact Es|].
  eapply takes with (so2:=strishiter_stream (tvec_ops posstrish_ops)) (co2:=text_concat_ops (tvec_ops posstrish_ops)).
  - intros cap. apply strishiter_two, tvec_two.
  - intros cap. apply (proj2 (tvec_two _ _ posstrish_ops)).
  - apply strishiter_quiet1, tvec_quiet.
  - apply strishiter_quiet2, tvec_quiet.
  - apply tvec_quiet.
  - exact DC.
  - exact (strishiter_contract X1 Hok).
  - exact (xc_concat X1).
  - exact (strishiter_contract X2 Hok).
  - exact (xc_concat X2).
  - exact Hs.
  - exact Hs.
  - rewrite enumerate_length. exact Hu.
  - exact Hin.
  - intros u m. exact (text_reads (posstrish_contract ok) X1 (t:=u) (l:=m)).
Qed.
End Vec.

Print Assumptions C29_vec_used.
Print Assumptions C29_chars_used.
Print Assumptions C29_strings_used.
Print Assumptions C29_vec_exact.
Print Assumptions C29_chars_exact.
Print Assumptions C29_strings_exact.

(** ** A case *)

(** [{a b}c\}\}]: one combination with one list cell, and a text of three chunks:
    four slots with vector texts (six with lists of chunks, C29_case).  With three the first
    datum fails; parsing then goes on. *)
Local Notation run src n :=
  (fst (iter_collect (CE:=N) usize_max default_classifier (titer_stream posstr_ops (tvec_ops posstr_ops)) (text_concat_ops (tvec_ops posstr_ops))
     slice_alloc (fun _ => None) 20 60 (parse_iter_new src (slice_new (repeat (@DEmptyList _ N) n), 0%N)))).
Example C29_vec_case :
  exists s d1 d2, titer_new posstr_ops (tvec_ops (A:=unit) posstr_ops) (tvec_from (posstr_from (lit "{a b}c\}\}"))) = Ok s /\
    run s 4 = Ok [inl d1; inl d2] /\ inner_count d1 = 2 /\ inner_count d2 = 0 /\
    run s 3 = Ok [inr (FailedAlloc AllocExhausted); inl d2] /\
    (exists ads w', input (CE:=N) (ET:=N) default_classifier (fun _ => None) 0%N (str_source (lit "{a b}c\}\}")) ads w' /\
       total_inner ads = 2).
Proof.
  do 3 eexists. split; [vm_compute; reflexivity|]. split; [vm_compute; reflexivity|]. split; [reflexivity|]. split; [reflexivity|].
  split; [vm_compute; reflexivity|].
  assert (H : exists d1 d2 st', iter_collect usize_max default_classifier im_stream (text_concat_ops im_ops) box_alloc
      (im_lookup (CE:=N) num_eq num_hash sum_hasher []) 20 60 (im_start "{a b}c\}\}" 0%N) = (Ok (map inl [d1; d2]), st') /\
      inner_count d1 = 2 /\ inner_count d2 = 0).
  { do 3 eexists. split; [vm_compute; reflexivity|split; reflexivity]. }
  destruct H as (d1 & d2 & st' & H & E1 & E2).
  destruct (iterates_sound im_none_lawful _ default_disjoint (im_start_on _ _) (ex_intro _ 20 (ex_intro _ 60 H))) as (ads & G & Hd).
  do 2 eexists. split; [exact G|]. rewrite <- (total_inner_rel _ _ Hd). unfold total_inner. cbn [map list_sum fold_right]. rewrite E1, E2. reflexivity.
Qed.
