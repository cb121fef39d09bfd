(** The ready-made parsers with arbitrary bindings. *)
From Coq Require Import List NArith Arith Lia.
From Verif.Model Require Import Prelude Parser Iter Utf8 Chunk TextIter PosStr PosStrish
  TextVec TextDatumList CharIter StrishIter Alloc DefaultClassifier TextMethods DatumMethods Bindings Premade.
From Verif.Spec Require Import Contract ChunkContract.
From Verif.Proofs Require Import Wp Safety Refine StrFacts ChunkFacts TextFacts AllocFacts Transfer Instances PremadeFacts.
Import ListNotations.
Set Implicit Arguments.
Local Notation N_len r := (N.of_nat (length r)).

Section Generic.
Context {S A TT ET Pos CE W : Type}.
Context (cc : classifier) (so : stream_ops S A TT Pos) (co : concat_ops A TT)
        (ao : alloc_ops A TT ET) (bnd : bindings A TT ET Pos CE).
Context (Rs : S -> list (item Pos) -> list (item Pos) -> Prop)
        (Rt : TT -> list (item Pos) -> Prop).
Context (F : Prop) (view : A -> W).
Context (SC : stream_contract F view so Rs Rt) (TC : concat_contract F view co Rt)
        (AC : alloc_contract F view ao).

Lemma upto_len (l : list (datum TT ET + error Pos CE)) : length (upto_err l) <= length l.
Proof. destruct (upto_err_prefix l) as [r Hr]. apply (f_equal (@length _)) in Hr. rewrite app_length in Hr. lia. Qed.

Lemma upto_safe st s n : idle Rs st s -> (N_len s <= usize_max)%N -> n = length s ->
  exists items st' st'', iter_collect usize_max cc so co ao bnd (parse_calls n) (parse_fuel n) st = (Ok items, st'') /\
    collect_up_to_first_err usize_max cc so co ao bnd (parse_calls n) (parse_fuel n) st = (Ok (upto_err items), st') /\
    length items <= n.
Proof.
  intros Hi Hu ->.
  destruct (iter_collect_safe (umax:=usize_max) cc bnd SC TC AC (n:=parse_calls (length s)) (fuel:=parse_fuel (length s)) (st:=st) (r:=s))
    as (l & st' & E & Hl & _); auto.
  destruct (take_while_upto _ _ _ _ _ _ _ _ _ E) as [st'' E'].
  exists l, st'', st'. split; [exact E|]. split; [exact E'|]. exact Hl.
Qed.
End Generic.

Ltac run E :=
  match type of E with ?X = _ =>
    match goal with |- context [let (_, _) := ?Y in _] => change Y with X end
  end; rewrite E.

Section InMem.
Context {W ET CE : Type} (ET_eq : ET -> ET -> bool) (ET_hash : ET -> list hash_word)
        (hasher : list hash_word -> N).

Lemma parse_str_with_safe input (m : im_bindings (W:=W) (ET:=ET) (CE:=CE)) w : (N_len input <= usize_max)%N ->
  exists s all st st', titer_new posstr_ops (im_ops (W:=W)) (tx_from (im_ops (W:=W)) (posstr_from input)) = Ok s /\
    iter_collect usize_max default_classifier im_stream (text_concat_ops im_ops) box_alloc
      (im_lookup ET_eq ET_hash hasher m) (parse_calls (length input)) (parse_fuel (length input))
      (parse_iter_new s w) = (Ok all, st') /\
    parse_str_with ET_eq ET_hash hasher input m w = (Ok (upto_err all), Some st) /\
    length all <= length input.
Proof.
  intros Hu. pose proof (tvec_contract (posstr_contract input) False (fun w : W => w)) as XC. unfold parse_str_with.
  destruct (titer_new_rep (posstr_contract input) (xc_from XC _ _ (posstr_from_rep input))) as (s & Es & Hs).
  assert (Es' : titer_new posstr_ops (im_ops (W:=W)) (tx_from (im_ops (W:=W)) (posstr_from input)) = Ok s) by exact Es.
  rewrite Es'.
  assert (Hlen : length input = length (str_items input [] input))
    by (unfold str_items; rewrite indexed_length; reflexivity).
  destruct (upto_safe default_classifier (im_lookup ET_eq ET_hash hasher m)
    (titer_contract (posstr_contract input) XC) (xc_concat XC) (@box_alloc_contract W _ _)
    (st:=parse_iter_new s w) (s:=str_items input [] input) (n:=length input)) as (items & st' & st'' & E1 & E & Hl).
  - split; [reflexivity|]. exists []. auto.
  - rewrite <- Hlen. exact Hu.
  - exact Hlen.
  - exists s, items, st', st''. split; [reflexivity|]. split; [exact E1|]. run E. auto.
Qed.
End InMem.

Section Streams.
Context {W ET CE : Type} (ET_eq : ET -> ET -> bool) (ET_hash : ET -> list hash_word)
        (hasher : list hash_word -> N).
Let ok (_ : str) (_ : N) : Prop := True.

Lemma parse_stream_with_safe strs (m : st_bindings (W:=W) (ET:=ET) (CE:=CE)) w :
  (N_len (List.concat strs) <= usize_max)%N ->
  let n := length (List.concat strs) in
  exists s all st st', strishiter_new strs = Ok s /\
    iter_collect usize_max default_classifier st_stream (text_concat_ops st_ops) box_alloc
      (st_lookup ET_eq ET_hash hasher m) (parse_calls n) (parse_fuel n) (parse_iter_new s w) = (Ok all, st') /\
    parse_stream_with ET_eq ET_hash hasher strs m w = (Ok (upto_err all), Some st) /\
    length all <= n.
Proof.
  intros Hu n. pose proof (tvec_contract (posstrish_contract ok) False (fun w : W => w)) as XC.
  assert (Hok : forall l1 s l2, strs = l1 ++ s :: l2 -> ok s (N_len (List.concat l1))) by (intros; exact I).
  unfold parse_stream_with.
  destruct (strishiter_new_rep ok (st_ops (W:=W)) Hok) as (s & Es & Hs). rewrite Es.
  destruct (upto_safe default_classifier (st_lookup ET_eq ET_hash hasher m)
    (strishiter_contract XC Hok) (xc_concat XC) (@box_alloc_contract W _ _)
    (st:=parse_iter_new s w) (s:=enumerate 0 (List.concat strs)) (n:=n)) as (items & st' & st'' & E1 & E & Hl).
  - split; [reflexivity|]. exists []. auto.
  - rewrite enumerate_length. exact Hu.
  - rewrite enumerate_length. reflexivity.
  - exists s, items, st', st''. split; [reflexivity|]. split; [exact E1|]. subst n. run E. auto.
Qed.

Lemma parse_chars_with_safe input (m : st_bindings (W:=W) (ET:=ET) (CE:=CE)) w :
  (N_len input <= usize_max)%N ->
  let n := length input in
  exists all st st',
    iter_collect usize_max default_classifier cs_stream (text_concat_ops st_ops) box_alloc
      (st_lookup ET_eq ET_hash hasher m) (parse_calls n) (parse_fuel n)
      (parse_iter_new (chariter_new input) w) = (Ok all, st') /\
    parse_chars_with ET_eq ET_hash hasher input m w = (Ok (upto_err all), st) /\
    length all <= n.
Proof.
  intros Hu n. pose proof (tvec_contract (posstrish_contract ok) False (fun w : W => w)) as XC.
  assert (Hok : forall pre v post, input = pre ++ v ++ post -> ok v (N_len pre)) by (intros; exact I).
  unfold parse_chars_with.
  destruct (upto_safe default_classifier (st_lookup ET_eq ET_hash hasher m)
    (chariter_contract XC Hok) (xc_concat XC) (@box_alloc_contract W _ _)
    (st:=parse_iter_new (chariter_new input) w) (s:=enumerate 0 input) (n:=n)) as (items & st' & st'' & E1 & E & Hl).
  - split; [reflexivity|]. exists []. split; [apply chariter_new_rep|auto].
  - rewrite enumerate_length. exact Hu.
  - rewrite enumerate_length. reflexivity.
  - exists items, st', st''. auto.
Qed.
End Streams.

Section NoHeap.
Context {W ET CE : Type} (ET_eq : ET -> ET -> bool).
Local Notation nh_ops := (nh_ops (W:=W) (ET:=ET)).

Lemma posstr_size_eq c l : posstr_any c l -> length l = posstr_size c.
Proof.
  intros [src [[E ->]|(pre & v & post & _ & -> & ->)]]; unfold posstr_size.
  - rewrite E. reflexivity.
  - unfold str_items. rewrite indexed_length. reflexivity.
Qed.

Lemma parse_text_with_safe input l (m : nh_bindings (W:=W) (ET:=ET) (CE:=CE)) a :
  text_items nh_ops posstr_any input l -> (N_len l <= usize_max)%N ->
  exists s all st st', titer_new posstr_ops nh_ops input = Ok s /\
    iter_collect usize_max default_classifier nh_stream (text_concat_ops nh_ops) slice_alloc
      (nh_lookup ET_eq m) (parse_calls (length l)) (parse_fuel (length l)) (parse_iter_new s a) = (Ok all, st') /\
    parse_text_with ET_eq input m a = (Ok (upto_err all), Some st) /\
    length all <= length l.
Proof.
  intros Hi Hu. pose proof (tdl_contract posstr_any_contract (@slice_alloc_contract W (nh_text (ET:=ET)) ET)) as XC.
  unfold parse_text_with.
  destruct (titer_new_rep posstr_any_contract Hi) as (s & Es & Hs). rewrite Es.
  rewrite (text_size posstr_size_eq Hi).
  destruct (upto_safe default_classifier (nh_lookup ET_eq m)
    (titer_contract posstr_any_contract XC) (xc_concat XC) (@slice_alloc_contract W _ _)
    (st:=parse_iter_new s a) (s:=l) (n:=length l)) as (items & st' & st'' & E1 & E & Hl).
  - split; [reflexivity|]. exists []. auto.
  - exact Hu.
  - reflexivity.
  - exists s, items, st', st''. split; [reflexivity|]. split; [exact E1|].
    unfold collect_up_to_first_err in E. run E. auto.
Qed.
End NoHeap.
