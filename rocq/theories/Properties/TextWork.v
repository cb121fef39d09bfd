(** C58: the work of concatenating the chunks of texts: quadratic for
    [TextDatumList], linear for [TextVec]. *)
From Coq Require Import List NArith ZArith Arith Bool Lia.
From Verif.Model Require Import Prelude Parser Iter Utf8 Chunk TextIter PosStr PosStrish TextVec TextDatumList CharIter StrishIter Alloc
  DefaultClassifier Premade TextWork.
From Verif.Spec Require Import Contract ChunkContract Grammar Lawful Run Memory TextWork Pieces.
From Verif.Proofs Require Import ClassifierFacts ChunkFacts TextFacts AllocFacts Instances Transfer RunFacts Amortize PiecesRuns TextWorkFacts TextSim TextWorkRuns SourceRuns Concrete.
From Verif.Properties Require Import Pieces.
From Verif.Tests Require Import Str Cases.
Import ListNotations.
Local Notation N_len r := (N.of_nat (length r)).
Local Notation no_bindings A T ET Pos CE := (fun _ : datum T ET => @None (combiner A T ET Pos CE)).

(** A parser over any [TextDatumList] text, with any chunks and any allocator.  The same run with
    counting: for each text that is returned at most as many steps as there are pairs of chunks in it,
    and no chunks that are empty. *)
Theorem C58_list {C CS Pos A ET CE} umax cc (k : chunk_ops C CS Pos) (ao : alloc_ops A (tdl C ET) ET) t s a ds st' :
  (forall d a d' a', a_new_datum ao d a = (Ok d', a') -> d' = d) ->
  titer_new k (tdl_ops k ao) t = Ok s ->
  iterates umax cc (titer_stream k (tdl_ops k ao)) (text_concat_ops (tdl_ops k ao)) ao (no_bindings A (tdl C ET) ET Pos CE)
    (parse_iter_new s a) (map inl ds) st' ->
  exists n,
    iterates umax cc (titer_stream k (tdl_work_ops k ao)) (text_concat_ops (tdl_work_ops k ao)) (work_alloc ao)
      (no_bindings (A * nat)%type (tdl C ET) ET Pos CE)
      (parse_iter_new s (a, 0)) (map inl ds) (PState (ps_strm st') (ps_depth st') (ps_alloc st', n)) /\
    n <= list_sum (map pairs (chunk_counts (tdl_ops k ao) ds)) /\
    Forall (fun d => Forall (no_empty_chunks (tdl_ops k ao) k) (texts_in d)) ds.
Proof.
  intros HN Es E. destruct (list_run t _ Es E) as (n & fuel & m & Ec).
  exists n. split; [exists m, fuel; exact Ec|]. eapply list_bound; [exact HN| |exact Ec].
  unfold titer_new in Es. destruct (next_chunk k _) as [[]|[]| |]; try discriminate. injection Es as <-. reflexivity.
Qed.

(** Over a text of one chunk (such as a string): exactly as many. *)
Theorem C58_list_exact {C CS Pos A ET CE} umax cc (k : chunk_ops C CS Pos) Rc Rcs (ao : alloc_ops A (tdl C ET) ET) c s a ds st' :
  chunk_contract k Rc Rcs -> (forall d a d' a', a_new_datum ao d a = (Ok d', a') -> d' = d) ->
  titer_new k (tdl_ops k ao) (tdl_from c) = Ok s ->
  iterates umax cc (titer_stream k (tdl_ops k ao)) (text_concat_ops (tdl_ops k ao)) ao (no_bindings A (tdl C ET) ET Pos CE)
    (parse_iter_new s a) (map inl ds) st' ->
  iterates umax cc (titer_stream k (tdl_work_ops k ao)) (text_concat_ops (tdl_work_ops k ao)) (work_alloc ao)
    (no_bindings (A * nat)%type (tdl C ET) ET Pos CE) (parse_iter_new s (a, 0)) (map inl ds)
    (PState (ps_strm st') (ps_depth st') (ps_alloc st', list_sum (map pairs (chunk_counts (tdl_ops k ao) ds)))).
Proof.
  intros KC HN Es E. destruct (list_run _ _ Es E) as (n & fuel & m & Ec).
  assert (n = list_sum (map pairs (chunk_counts (tdl_ops k ao) ds))) as <-; [|exists m, fuel; exact Ec].
  eapply list_exact; eauto. exact (kc_is_empty KC _ _ (kc_empty KC)).
Qed.

(** [k] times an escape character and ["a"]. *)
Definition escaped_as (k : nat) : str := List.concat (repeat (lit "\a") k).

(** Parsing them takes k (k - 1) / 2 steps for the concatenations. *)
Theorem C58_list_quadratic {W ET CE} (w : W) k : (2 * N.of_nat (S k) <= usize_max)%N ->
  exists s t st,
    titer_new posstr_ops (tdl_ops posstr_ops (@box_alloc W (tdl posstr ET) ET)) (tdl_from (posstr_from (escaped_as (S k)))) = Ok s /\
    iterates usize_max default_classifier (titer_stream posstr_ops (tdl_work_ops posstr_ops (@box_alloc W (tdl posstr ET) ET)))
      (text_concat_ops (tdl_work_ops posstr_ops (@box_alloc W (tdl posstr ET) ET))) (work_alloc box_alloc)
      (no_bindings (W * nat)%type (tdl posstr ET) ET strpos CE) (parse_iter_new s (w, 0)) [inl (DText t)] st /\
    snd (ps_alloc st) = S k * k / 2.
Proof.
  intros Hk. set (input := escaped_as (S k)). set (ao := @box_alloc W (tdl posstr ET) ET). set (x := tdl_ops posstr_ops ao).
  assert (HN : forall d a d' a', a_new_datum ao d a = (Ok d', a') -> d' = d) by (cbn; intros d a d' a' [= -> _]; reflexivity).
  assert (XC := tdl_contract (posstr_contract input) (@box_alloc_contract W (tdl posstr ET) ET)).
  assert (HR : posstr_rep input (posstr_from input) (str_source input)) by (rewrite str_source_eq; apply posstr_from_rep).
  assert (Hch := str_source_ch input).
  destruct (escaped_raw default_classifier (delimiter default_classifier) 92%N 97%N (S k) eq_refl (str_source input) Hch) as (t & Hraw & Hlen & Hadj).
  assert (LW : lawful False (fun w : W => w) (titer_stream posstr_ops x) (text_concat_ops x) ao (no_bindings W (tdl posstr ET) ET strpos CE)
     (fun _ => @None (combiner W (list (item strpos)) ET strpos CE))
     (titer_rep (posstr_rep input) (posstr_state input) x) (text_items x (posstr_rep input)) eq eq).
  { split; [exact (titer_contract (posstr_contract input) XC)|exact (xc_concat XC)|apply box_alloc_contract|reflexivity|].
    intros d1 d2 _. exact I. }
  destruct (titer_new_rep (A:=W) (posstr_contract input) (x:=x) (t:=tdl_from (posstr_from input)) (l:=str_source input)) as (s & Es & Hs).
  { exists [posstr_from input], [str_source input]. cbn. rewrite app_nil_r. auto. }
  assert (Hl : length (str_source input) = 2 * S k).
  { rewrite <- (map_length it_ch), Hch. unfold input, escaped_as. clear. induction (S k) as [|n IH]; [reflexivity|].
    cbn [repeat List.concat]. rewrite app_length, IH. cbn. lia. }
  destruct (iterates_complete LW (umax:=usize_max) (cc:=default_classifier) (st:=parse_iter_new s w) (s:=str_source input) (w:=w) (ads:=[DText t]) (w':=w)
    default_disjoint) as (ds & st & E & Hd & _).
  { split; [reflexivity|]. split; [exact Hs|reflexivity]. }
  { rewrite Hl. lia. }
  { exists true. rewrite <- (app_nil_r (str_source input)). apply f_text; [|exact Hraw|constructor]. intros Q. rewrite Q in Hl. discriminate. }
  inversion Hd as [|d ? ds' ? Hu Hn]; subst. inversion Hn; subst. destruct d as [u| | | | |]; try contradiction. change (text_items x (posstr_rep input) u t) in Hu.
  assert (G := C58_list_exact usize_max default_classifier posstr_ops (posstr_rep input) (posstr_state input) ao (posstr_from input) s w [DText u] st
    (posstr_contract input) HN Es E).
  eexists s, u, _. split; [exact Es|]. split; [exact G|]. cbn [ps_alloc snd].
  assert (P := C57_list usize_max default_classifier posstr_ops (posstr_rep input) (posstr_state input) False (fun w : W => w) ao (no_bindings W (tdl posstr ET) ET strpos CE)
    (posstr_from input) (str_source input) s w [DText u] [] st (posstr_contract input) (@box_alloc_contract W _ ET) HR (str_source_nodup input) Es).
  assert (P' : Forall (fun d : datum (tdl posstr ET) ET => Forall (fun t => exists ls, chunks_are_pieces (tdl_ops posstr_ops ao) (posstr_rep input) (str_source input) t ls) (texts_in d)) [DText u]).
  { apply P; [intros d Hd'; exact I|]. rewrite app_nil_r. exact E. }
  inversion P' as [|? ? P1 _]; subst. inversion P1 as [|? ? [ls P2] _]; subst.
  assert (Hne : t <> []) by (destruct t; [discriminate|discriminate]).
  destruct (C57_fewest posstr_ops (posstr_rep input) (posstr_state input) False (fun w : W => w) x (str_source input) u ls t (posstr_contract input) XC
    (str_source_nodup input) P2) as (N1 & N2 & _ & N3); auto.
  { eapply text_reads; eauto. apply posstr_contract. }
  assert (Els : map (fun i => [i]) t = ls).
  { apply N3.
    - apply Forall_forall. intros q Hq. apply in_map_iff in Hq. destruct Hq as (i & <- & _). discriminate.
    - apply apart_pieces; [apply str_source_nodup|exact (raw_in Hraw)|exact Hadj].
    - clear. induction t; cbn; congruence. }
  unfold chunk_counts. cbn [flat_map texts_in app map list_sum fold_right]. change (tdl_ops posstr_ops ao) with x. rewrite N1, <- Els, map_length, Hlen, Nat.add_0_r. pose proof (pairs_formula (S k)) as F. replace (S k - 1) with k in F by lia.
  rewrite <- F, Nat.mul_comm, Nat.div_mul; [reflexivity|discriminate].
Qed.


(** [grow cap need]: any policy of [Vec] that at least doubles the capacity. *)
Definition grows (grow : nat -> nat -> nat) : Prop := forall cap need, need <= grow cap need /\ 2 * cap <= grow cap need.

(** A parser over any [TextVec] text.  The same run with counting: the elements moved are at
    most seven times the chunks of the texts that are returned. *)
Theorem C58_vec {C CS Pos A ET CE} umax cc (k : chunk_ops C CS Pos) grow (ao : alloc_ops A (tvec C) ET) t s a ds st' :
  grows grow -> (forall d a d' a', a_new_datum ao d a = (Ok d', a') -> d' = d) ->
  titer_new k (tvec_ops (A:=A) k) (cvec_forget t) = Ok s ->
  iterates umax cc (titer_stream k (tvec_ops k)) (text_concat_ops (tvec_ops k)) ao (no_bindings A (tvec C) ET Pos CE)
    (parse_iter_new s a) (map inl ds) st' ->
  exists sc cds stc n,
    titer_new k (cvec_ops (A:=A) k grow) t = Ok sc /\
    iterates umax cc (titer_stream k (cvec_ops k grow)) (text_concat_ops (cvec_ops k grow)) (cvec_alloc ao)
      (no_bindings (A * nat)%type (cvec C) ET Pos CE) (parse_iter_new sc (a, 0)) (map inl cds) stc /\
    map (@cvec_datum C ET) cds = ds /\ ps_alloc stc = (ps_alloc st', n) /\
    n <= 7 * list_sum (chunk_counts (tvec_ops (A:=A) k) ds) /\
    Forall (fun d => Forall (no_empty_chunks (tvec_ops (A:=A) k) k) (texts_in d)) ds.
Proof.
  intros G HN Es E.
  assert (G1 : forall cap need, need <= grow cap need) by (intros; apply G).
  assert (G2 : forall cap need, 2 * cap <= grow cap need) by (intros; apply G).
  destruct (titer_new_sim (tvec_ops (A:=A) k) (cvec_ops (A:=A) k grow) (@forgets C) k (cvec_forget t) t eq_refl Es) as (sc & Ec & Hs).
  exists sc. assert (Ha : ti_accum sc = None).
  { unfold titer_new in Ec. destruct (next_chunk k _) as [[]|[]| |]; try discriminate. injection Ec as <-. reflexivity. }
  destruct (vec_run (CE:=CE) HN (titer_sim (cvec_sim k grow) k) (vec_titer_amortized grow G1 G2 k ao) sc ds Hs ltac:(cbn; rewrite Ha; exact I) ltac:(cbn; rewrite Ha; reflexivity) E)
    as (es & st2 & n & R). exists es, st2, n. tauto.
Qed.

(** Over an iterator of characters. *)
Theorem C58_chars {A ET CE} umax cc grow (ao : alloc_ops A (tvec posstrish) ET) input a ds st' :
  grows grow -> (forall d a d' a', a_new_datum ao d a = (Ok d', a') -> d' = d) ->
  iterates umax cc (chariter_stream (tvec_ops posstrish_ops)) (text_concat_ops (tvec_ops posstrish_ops)) ao
    (no_bindings A (tvec posstrish) ET charpos CE) (parse_iter_new (chariter_new input) a) (map inl ds) st' ->
  exists cds stc n,
    iterates umax cc (chariter_stream (cvec_ops posstrish_ops grow)) (text_concat_ops (cvec_ops posstrish_ops grow)) (cvec_alloc ao)
      (no_bindings (A * nat)%type (cvec posstrish) ET charpos CE) (parse_iter_new (chariter_new input) (a, 0)) (map inl cds) stc /\
    map (@cvec_datum posstrish ET) cds = ds /\ ps_alloc stc = (ps_alloc st', n) /\
    n <= 7 * list_sum (chunk_counts (tvec_ops (A:=A) posstrish_ops) ds) /\
    Forall (fun d => Forall (no_empty_chunks (tvec_ops (A:=A) posstrish_ops) posstrish_ops) (texts_in d)) ds.
Proof.
  intros G HN E.
  assert (G1 : forall cap need, need <= grow cap need) by (intros; apply G).
  assert (G2 : forall cap need, 2 * cap <= grow cap need) by (intros; apply G).
  apply (vec_run (CE:=CE) HN (chariter_sim (cvec_sim posstrish_ops grow)) (vec_chariter_amortized grow G1 G2 ao) _ ds eq_refl I eq_refl E).
Qed.

(** Over an iterator of strings. *)
Theorem C58_strings {A ET CE} umax cc grow (ao : alloc_ops A (tvec posstrish) ET) inputs s a ds st' :
  grows grow -> (forall d a d' a', a_new_datum ao d a = (Ok d', a') -> d' = d) ->
  strishiter_new inputs = Ok s ->
  iterates umax cc (strishiter_stream (tvec_ops posstrish_ops)) (text_concat_ops (tvec_ops posstrish_ops)) ao
    (no_bindings A (tvec posstrish) ET charpos CE) (parse_iter_new s a) (map inl ds) st' ->
  exists sc cds stc n, strishiter_new inputs = Ok sc /\
    iterates umax cc (strishiter_stream (cvec_ops posstrish_ops grow)) (text_concat_ops (cvec_ops posstrish_ops grow)) (cvec_alloc ao)
      (no_bindings (A * nat)%type (cvec posstrish) ET charpos CE) (parse_iter_new sc (a, 0)) (map inl cds) stc /\
    map (@cvec_datum posstrish ET) cds = ds /\ ps_alloc stc = (ps_alloc st', n) /\
    n <= 7 * list_sum (chunk_counts (tvec_ops (A:=A) posstrish_ops) ds) /\
    Forall (fun d => Forall (no_empty_chunks (tvec_ops (A:=A) posstrish_ops) posstrish_ops) (texts_in d)) ds.
Proof.
  intros G HN Es E.
  assert (G1 : forall cap need, need <= grow cap need) by (intros; apply G).
  assert (G2 : forall cap need, 2 * cap <= grow cap need) by (intros; apply G).
  destruct (strishiter_new_sim (@forgets posstrish) _ Es) as (sc & Ec & Hs). exists sc.
  assert (Ha : si_accum sc = None).
  { unfold strishiter_new in Ec. destruct (next_posstrish_of inputs 0) as [[]]; try discriminate. injection Ec as <-. reflexivity. }
  destruct (vec_run (CE:=CE) HN (strishiter_sim (cvec_sim posstrish_ops grow)) (vec_strishiter_amortized grow G1 G2 ao) sc ds Hs ltac:(cbn; rewrite Ha; exact I) ltac:(cbn; rewrite Ha; reflexivity) E)
    as (es & st2 & n & R). exists es, st2, n. tauto.
Qed.

(** ** Any combiners, any errors, any calls *)

(** Any calls of [next] of a parser with any combiners, whatever they return, over a text of the items
    [l].  The same calls with counting, in which the combiners' own work is not counted, give the same results
    and leave the same [r] of the items to read: the work is at most the pairs of the items read. *)
Theorem C58_list_calls {C CS Pos A ET CE W} umax cc (k : chunk_ops C CS Pos) Rc Rcs F (view : A -> W) (ao : alloc_ops A (tdl C ET) ET)
  (bnd : bindings A (tdl C ET) ET Pos CE) t l s a os st' :
  chunk_contract k Rc Rcs -> alloc_contract F view ao -> text_items (tdl_ops k ao) Rc t l -> titer_new k (tdl_ops k ao) t = Ok s ->
  nexts umax cc (titer_stream k (tdl_ops k ao)) (text_concat_ops (tdl_ops k ao)) ao bnd (parse_iter_new s a) os st' ->
  exists n r,
    nexts umax cc (titer_stream k (tdl_work_ops k ao)) (text_concat_ops (tdl_work_ops k ao)) (work_alloc ao) (uncounted bnd)
      (parse_iter_new s (a, 0)) os (PState (ps_strm st') (ps_depth st') (ps_alloc st', n)) /\
    left_in (titer_stream k (tdl_ops k ao)) (ps_strm st') r /\ length r <= length l /\ n <= pairs (length l - length r).
Proof.
  intros KC AC Ht Es N. destruct (titer_new_rep KC Ht) as (s0 & E0 & HR). rewrite Es in E0. injection E0 as <-.
  refine (list_source_run KC AC HR _ N).
  unfold titer_new in Es. destruct (next_chunk k _) as [[]|[]| |]; try discriminate. injection Es as <-. reflexivity.
Qed.

(** Over a [TextVec] text: at most seven times the items read. *)
Theorem C58_vec_calls {C CS Pos A ET CE} umax cc (k : chunk_ops C CS Pos) Rc Rcs grow (ao : alloc_ops A (tvec C) ET)
  (bnd : bindings A (tvec C) ET Pos CE) t l s a os st' :
  grows grow -> (forall d a d' a', a_new_datum ao d a = (Ok d', a') -> d' = d) -> chunk_contract k Rc Rcs ->
  text_items (tvec_ops (A:=A) k) Rc (cvec_forget t) l -> titer_new k (tvec_ops (A:=A) k) (cvec_forget t) = Ok s ->
  nexts umax cc (titer_stream k (tvec_ops k)) (text_concat_ops (tvec_ops k)) ao bnd (parse_iter_new s a) os st' ->
  exists sc cos stc n r,
    titer_new k (cvec_ops (A:=A) k grow) t = Ok sc /\
    nexts umax cc (titer_stream k (cvec_ops k grow)) (text_concat_ops (cvec_ops k grow)) (cvec_alloc ao) (cvec_bindings bnd)
      (parse_iter_new sc (a, 0)) cos stc /\
    map (@cvec_item C ET Pos CE) cos = os /\ ps_alloc stc = (ps_alloc st', n) /\
    left_in (titer_stream k (tvec_ops (A:=A) k)) (ps_strm st') r /\ length r <= length l /\ n <= 7 * (length l - length r).
Proof.
  intros G HN KC Ht Es N.
  assert (G1 : forall cap need, need <= grow cap need) by (intros; apply G).
  assert (G2 : forall cap need, 2 * cap <= grow cap need) by (intros; apply G).
  destruct (titer_new_sim (tvec_ops (A:=A) k) (cvec_ops (A:=A) k grow) (@forgets C) k (cvec_forget t) t eq_refl Es) as (sc & Ec & Hs).
  destruct (titer_new_rep KC (x:=cvec_ops (A:=A) k grow) (t:=t) Ht) as (s0 & E0 & HR). rewrite Ec in E0. injection E0 as <-.
  assert (Ha : ti_accum sc = None).
  { unfold titer_new in Ec. destruct (next_chunk k _) as [[]|[]| |]; try discriminate. injection Ec as <-. reflexivity. }
  destruct (vec_titer_source G1 G2 KC HN Hs HR Ha N) as (cos & stc & n & r & R). exists sc, cos, stc, n, r. tauto.
Qed.

(** Over an iterator of characters. *)
Theorem C58_chars_calls {A ET CE} umax cc grow (ao : alloc_ops A (tvec posstrish) ET) (bnd : bindings A (tvec posstrish) ET charpos CE) input a os st' :
  grows grow -> (forall d a d' a', a_new_datum ao d a = (Ok d', a') -> d' = d) ->
  nexts umax cc (chariter_stream (tvec_ops posstrish_ops)) (text_concat_ops (tvec_ops posstrish_ops)) ao bnd
    (parse_iter_new (chariter_new input) a) os st' ->
  exists cos stc n r,
    nexts umax cc (chariter_stream (cvec_ops posstrish_ops grow)) (text_concat_ops (cvec_ops posstrish_ops grow)) (cvec_alloc ao)
      (cvec_bindings bnd) (parse_iter_new (chariter_new input) (a, 0)) cos stc /\
    map (@cvec_item posstrish ET charpos CE) cos = os /\ ps_alloc stc = (ps_alloc st', n) /\
    left_in (chariter_stream (tvec_ops (A:=A) posstrish_ops)) (ps_strm st') r /\ length r <= length input /\ n <= 7 * (length input - length r).
Proof. intros G HN N. apply (vec_chars_source grow (fun c d => proj1 (G c d)) (fun c d => proj2 (G c d)) HN N). Qed.

(** Over an iterator of strings. *)
Theorem C58_strings_calls {A ET CE} umax cc grow (ao : alloc_ops A (tvec posstrish) ET) (bnd : bindings A (tvec posstrish) ET charpos CE) inputs s a os st' :
  grows grow -> (forall d a d' a', a_new_datum ao d a = (Ok d', a') -> d' = d) ->
  strishiter_new inputs = Ok s ->
  nexts umax cc (strishiter_stream (tvec_ops posstrish_ops)) (text_concat_ops (tvec_ops posstrish_ops)) ao bnd (parse_iter_new s a) os st' ->
  exists sc cos stc n r, strishiter_new inputs = Ok sc /\
    nexts umax cc (strishiter_stream (cvec_ops posstrish_ops grow)) (text_concat_ops (cvec_ops posstrish_ops grow)) (cvec_alloc ao)
      (cvec_bindings bnd) (parse_iter_new sc (a, 0)) cos stc /\
    map (@cvec_item posstrish ET charpos CE) cos = os /\ ps_alloc stc = (ps_alloc st', n) /\
    left_in (strishiter_stream (tvec_ops (A:=A) posstrish_ops)) (ps_strm st') r /\
    length r <= length (List.concat inputs) /\ n <= 7 * (length (List.concat inputs) - length r).
Proof.
  intros G HN Es N. destruct (strishiter_new_sim (@forgets posstrish) _ Es) as (sc & Ec & _). exists sc.
  destruct (vec_strings_source grow (fun c d => proj1 (G c d)) (fun c d => proj2 (G c d)) HN inputs Es Ec N) as (cos & stc & n & r & R).
  exists cos, stc, n, r. tauto.
Qed.

Print Assumptions C58_list.
Print Assumptions C58_list_exact.
Print Assumptions C58_list_quadratic.
Print Assumptions C58_vec.
Print Assumptions C58_chars.
Print Assumptions C58_strings.
Print Assumptions C58_list_calls.
Print Assumptions C58_vec_calls.
Print Assumptions C58_chars_calls.
Print Assumptions C58_strings_calls.

(** ** Cases *)

(** The chunks of the texts and the count of the work, for sources given as chunks. *)
Definition wk_list (srcs : list str) : list nat * option nat :=
  let ao := @box_alloc unit (tdl posstr N) N in
  let t := fold_right (fun c (n : option (tdl posstr N)) => Some (TDL (posstr_from c) (option_map DText n))) None srcs in
  match titer_new posstr_ops (tdl_work_ops posstr_ops ao) (match t with Some t => t | None => tdl_empty posstr_ops end) with
  | Ok s =>
      match iter_collect (CE:=N) usize_max default_classifier (titer_stream posstr_ops (tdl_work_ops posstr_ops ao))
        (text_concat_ops (tdl_work_ops posstr_ops ao)) (work_alloc ao) (fun _ => None) 100 300 (parse_iter_new s (tt, 0)) with
      | (Ok items, st) => (chunk_counts (tdl_ops posstr_ops ao) (oks items), Some (snd (ps_alloc st)))
      | _ => ([], None)
      end
  | _ => ([], None)
  end.
(** One chunk: as many steps as pairs; several chunks: fewer. *)
Example C58_list_case :
  wk_list [lit "a\{b\}c\\d{x y\}z\{\}}"] = ([4; 1; 4], Some 12) /\ list_sum (map pairs [4; 1; 4]) = 12 /\
  wk_list [lit "ab"; lit "c\}d"; lit "e\{"; lit "f"] = ([6], Some 9) /\ pairs 6 = 15.
Proof. repeat split; vm_compute; reflexivity. Qed.

(** Sixteen escapes: 120 steps, as [C58_list_quadratic] says; thirty-two: 496. *)
Example C58_quadratic_case : wk_list [escaped_as 16] = ([16], Some 120) /\ wk_list [escaped_as 32] = ([32], Some 496) /\
  32 * 31 / 2 = 496 /\ (2 * N.of_nat 32 <= usize_max)%N.
Proof. repeat split; vm_compute; solve [reflexivity|discriminate]. Qed.

(** [Vec]'s policy in the standard library: double, at least what is needed, at least four. *)
Definition std_grow (cap need : nat) : nat := Nat.max 4 (Nat.max (2 * cap) need).
Example C58_std : grows std_grow.
Proof. intros cap need. unfold std_grow. lia. Qed.

Definition wk_vec (srcs : list str) : list nat * option nat :=
  let x := cvec_ops (A:=unit) posstr_ops std_grow in
  match titer_new posstr_ops x (CMulti (Vec (map posstr_from srcs) 0)) with
  | Ok s =>
      match iter_collect (CE:=N) (ET:=N) usize_max default_classifier (titer_stream posstr_ops x)
        (text_concat_ops x) (cvec_alloc box_alloc) (fun _ => None) 100 300 (parse_iter_new s (tt, 0)) with
      | (Ok items, st) => (chunk_counts x (oks items), Some (snd (ps_alloc st)))
      | _ => ([], None)
      end
  | _ => ([], None)
  end.
Example C58_vec_case :
  wk_vec [lit "a\{b\}c\\d{x y\}z\{\}}"] = ([4; 1; 4], Some 12) /\
  wk_vec [lit "ab"; lit "c\}d"; lit "e\{"; lit "f"] = ([6], Some 16) /\
  wk_vec [escaped_as 32] = ([32], Some 62).
Proof. repeat split; vm_compute; reflexivity. Qed.
Definition wk_chars (input : str) : list nat * option nat :=
  let x := cvec_ops (A:=unit) posstrish_ops std_grow in
  match iter_collect (CE:=N) (ET:=N) usize_max default_classifier (chariter_stream x)
        (text_concat_ops x) (cvec_alloc box_alloc) (fun _ => None) 100 300 (parse_iter_new (chariter_new input) (tt, 0)) with
  | (Ok items, st) => (chunk_counts x (oks items), Some (snd (ps_alloc st)))
  | _ => ([], None)
  end.
Example C58_chars_case : wk_chars (lit "a\{b\}c\\d{x y\}z\{\}}") = ([4; 1; 4], Some 12) /\ wk_chars (escaped_as 32) = ([32], Some 62).
Proof. repeat split; vm_compute; reflexivity. Qed.
Definition wk_strings (inputs : list str) : list nat * option nat :=
  let x := cvec_ops (A:=unit) posstrish_ops std_grow in
  match strishiter_new inputs with
  | Ok s =>
      match iter_collect (CE:=N) (ET:=N) usize_max default_classifier (strishiter_stream x)
        (text_concat_ops x) (cvec_alloc box_alloc) (fun _ => None) 100 300 (parse_iter_new s (tt, 0)) with
      | (Ok items, st) => (chunk_counts x (oks items), Some (snd (ps_alloc st)))
      | _ => ([], None)
      end
  | _ => ([], None)
  end.
Example C58_strings_case : wk_strings [lit "ab"; []; lit "c\}d"; lit "e\{"; lit "f"] = ([6], Some 16).
Proof. vm_compute. reflexivity. Qed.

(** Parsers with combiners and errors: a head of one chunk names a function that always fails, one of two
    chunks an operative that returns its text twice. *)
Definition wk_bindings {A TT C Pos} (x : text_ops TT C A) : bindings A TT N Pos N := fun d =>
  match d with
  | DText t =>
      match chunk_count (tx_chunks x t) with
      | 1 => Some (Applicative (fun _ _ a => (inr (FailedCombiner 5%N), a)))
      | 2 => Some (Operative (fun _ t a => (inl (Some (DComb (DText t) (DText t))), a)))
      | _ => None
      end
  | _ => None
  end.
Definition wk_kind {TT Pos} (o : option (datum TT N + error Pos N)) : nat :=
  match o with
  | None => 0 | Some (inl _) => 1 | Some (inr (FailedCombiner _)) => 2 | Some (inr (FailedAlloc _)) => 3 | Some (inr _) => 4
  end.
Definition wk_input : str := lit "a\{b\}{f\}x\{} {g y\}\{z}} \}\{\}{o\}".
Ltac wk_calls := repeat (eapply nexts_cons with (fuel := 60); [vm_compute; reflexivity|]); apply nexts_nil.

(** With twelve slots: seven calls, which return three datums, a combiner's error, that an end is unmatched, and twice that
    there is no memory left.  Sixteen steps for the concatenations. *)
Example C58_list_calls_case :
  let ao := @slice_alloc unit (tdl posstr N) N in let x := tdl_ops posstr_ops ao in let xw := tdl_work_ops posstr_ops ao in
  let a := (slice_new (repeat DEmptyNest 12), tt) in
  alloc_contract True snd ao /\ chunk_contract posstr_ops (posstr_rep wk_input) (posstr_state wk_input) /\
  text_items x (posstr_rep wk_input) (tdl_from (posstr_from wk_input)) (str_source wk_input) /\ length (str_source wk_input) = 37 /\
  exists s, titer_new posstr_ops x (tdl_from (posstr_from wk_input)) = Ok s /\
    (exists os st', nexts usize_max default_classifier (titer_stream posstr_ops x) (text_concat_ops x) ao (wk_bindings x) (parse_iter_new s a) os st' /\
       map wk_kind os = [1; 1; 1; 2; 4; 3; 3]) /\
    (exists os stc, nexts usize_max default_classifier (titer_stream posstr_ops xw) (text_concat_ops xw) (work_alloc ao) (uncounted (wk_bindings x))
       (parse_iter_new s (a, 0)) os stc /\ map wk_kind os = [1; 1; 1; 2; 4; 3; 3] /\ snd (ps_alloc stc) = 16).
Proof.
  split; [apply slice_alloc_contract|]. split; [apply posstr_contract|]. split.
  { exists [posstr_from wk_input], [str_source wk_input]. split; [reflexivity|]. split; [|symmetry; apply app_nil_r].
    constructor; [rewrite str_source_eq; apply posstr_from_rep|constructor]. }
  split; [vm_compute; reflexivity|]. eexists. split; [vm_compute; reflexivity|]. split.
  - eexists [_; _; _; _; _; _; _], _. split; [wk_calls|]. vm_compute. reflexivity.
  - eexists [_; _; _; _; _; _; _], _. split; [wk_calls|]. vm_compute. auto.
Qed.

Example C58_vec_calls_case :
  let x := tvec_ops (A:=unit) posstr_ops in let xc := cvec_ops (A:=unit) posstr_ops std_grow in let t := CSingle (posstr_from wk_input) in
  text_items x (posstr_rep wk_input) (cvec_forget t) (str_source wk_input) /\
  (exists s, titer_new posstr_ops x (cvec_forget t) = Ok s /\
     exists os st', nexts usize_max default_classifier (titer_stream posstr_ops x) (text_concat_ops x) box_alloc (wk_bindings x) (parse_iter_new s tt) os st' /\
       map wk_kind os = [1; 1; 1; 2; 4; 1; 4]) /\
  (exists s, titer_new posstr_ops xc t = Ok s /\
     exists os stc, nexts usize_max default_classifier (titer_stream posstr_ops xc) (text_concat_ops xc) (cvec_alloc box_alloc) (cvec_bindings (wk_bindings x))
       (parse_iter_new s (tt, 0)) os stc /\ map wk_kind os = [1; 1; 1; 2; 4; 1; 4] /\ snd (ps_alloc stc) = 23).
Proof.
  split.
  { exists [posstr_from wk_input], [str_source wk_input]. split; [reflexivity|]. split; [|symmetry; apply app_nil_r].
    constructor; [rewrite str_source_eq; apply posstr_from_rep|constructor]. }
  split; (eexists; split; [vm_compute; reflexivity|]).
  - eexists [_; _; _; _; _; _; _], _. split; [wk_calls|]. vm_compute. reflexivity.
  - eexists [_; _; _; _; _; _; _], _. split; [wk_calls|]. vm_compute. auto.
Qed.

Example C58_streams_calls_case :
  let x := tvec_ops (A:=unit) posstrish_ops in let xc := cvec_ops (A:=unit) posstrish_ops std_grow in
  (exists os st', nexts usize_max default_classifier (chariter_stream x) (text_concat_ops x) box_alloc (wk_bindings x)
     (parse_iter_new (chariter_new wk_input) tt) os st' /\ map wk_kind os = [1; 1; 1; 2; 4; 1; 4]) /\
  (exists os stc, nexts usize_max default_classifier (chariter_stream xc) (text_concat_ops xc) (cvec_alloc box_alloc) (cvec_bindings (wk_bindings x))
     (parse_iter_new (chariter_new wk_input) (tt, 0)) os stc /\ map wk_kind os = [1; 1; 1; 2; 4; 1; 4] /\ snd (ps_alloc stc) = 23) /\
  let inputs := [lit "a\{b"; lit "\}{f\}x\{} {g"; []; lit " y\}\{z}} \}\{\}{"; lit "o\}"] in
  (exists s, strishiter_new inputs = Ok s /\
     exists os st', nexts usize_max default_classifier (strishiter_stream x) (text_concat_ops x) box_alloc (wk_bindings x) (parse_iter_new s tt) os st' /\
       map wk_kind os = [1; 1; 1; 2; 4; 1; 4]) /\
  (exists s, strishiter_new inputs = Ok s /\
     exists os stc, nexts usize_max default_classifier (strishiter_stream xc) (text_concat_ops xc) (cvec_alloc box_alloc) (cvec_bindings (wk_bindings x))
       (parse_iter_new s (tt, 0)) os stc /\ map wk_kind os = [1; 1; 1; 2; 4; 1; 4] /\ snd (ps_alloc stc) = 23).
Proof.
  split; [|split; [|split; (eexists; split; [vm_compute; reflexivity|])]]; (eexists [_; _; _; _; _; _; _], _; split; [wk_calls|]); vm_compute; auto.
Qed.
