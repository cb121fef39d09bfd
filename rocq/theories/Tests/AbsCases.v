(** The bindings of Cases.v as functions of characters with their positions. *)
From Coq Require Import List NArith Arith Lia.
From Verif.Model Require Import Prelude Parser Iter Utf8 Chunk TextIter PosStr PosStrish
  TextVec TextDatumList CharIter StrishIter Alloc DefaultClassifier TextMethods DatumMethods Bindings Premade.
From Verif.Spec Require Import Contract ChunkContract AbsStream Lawful Run.
From Verif.Proofs Require Import Sim Refine AbsIter ChunkFacts TextFacts Compose Instances PremadeFacts RunFacts.
From Verif.Tests Require Export Cases.
Import ListNotations.
Set Implicit Arguments.

Definition abs_map : list (datum (list (item strpos)) N * combiner N (list (item strpos)) N strpos N) := [
  (DText (str_source (lit "q")), Operative (fun _ t w => (inl (Some (DText t)), w)));
  (DText (str_source (lit "l")), Applicative (fun _ l w => (inl (Some l), w)));
  (DText (str_source (lit "rm")), Operative (fun _ _ w => (inl None, w)));
  (DText (str_source (lit "err")), Applicative (fun _ _ w => (inr (FailedCombiner 7), w)));
  (DText (str_source (lit "n")), Applicative (fun _ _ w => (inl (Some (DExtra w)), w + 1)))]%N.

Lemma im_from_items s : text_items (im_ops (W:=N)) posstr_any (im_from s) (str_source (lit s)).
Proof.
  exact (xc_from (tvec_contract posstr_any_contract False (fun w : N => w)) _ _ (posstr_from_any (lit s))).
Qed.

Lemma abs_map_related : str_bindings im_map abs_map.
Proof.
  unfold str_bindings, im_related, im_map, abs_map. repeat constructor; cbn [fst snd datum_rel];
    try apply im_from_items; unfold combiner_rel; intros; unfold Ra_view in *; subst; cbn; auto.
Qed.

(** Only the combiners that never fail. *)
Definition im_safe := firstn 3 im_map ++ skipn 4 im_map.
Definition abs_safe := firstn 3 abs_map ++ skipn 4 abs_map.

Lemma abs_safe_related : str_bindings im_safe abs_safe.
Proof.
  unfold str_bindings, im_related, im_safe, abs_safe, im_map, abs_map. cbn [firstn skipn app].
  repeat constructor; cbn [fst snd datum_rel];
    try apply im_from_items; unfold combiner_rel; intros; unfold Ra_view in *; subst; cbn; auto.
Qed.

Lemma abs_safe_succeed : combiners_succeed (abs_lookup num_eq abs_safe).
Proof.
  intros d c. unfold abs_lookup, abs_safe, abs_map. cbn [firstn skipn app].
  repeat (cbn [pair_lookup]; match goal with |- context [if ?b then _ else _] => destruct b end;
    [cbn; intros H; injection H as <-; intros; discriminate|]).
  cbn. discriminate.
Qed.

Definition im_run_safe (s : literal) := parse_str_with num_eq num_hash sum_hasher (lit s) im_safe 0%N.
Arguments im_run_safe _%lit.

(** Results with the texts as characters. *)
Definition im_chars (t : im_text) : list char :=
  match titer_new posstr_ops (im_ops (W:=N)) t with
  | Ok s => match titer_collect posstr_ops 1000 s with Ok l => map it_ch l | _ => [] end
  | _ => []
  end.
Fixpoint im_datum_show (d : im_datum (ET:=N)) : datum (list char) N :=
  match d with
  | DText t => DText (im_chars t)
  | DComb a b => DComb (im_datum_show a) (im_datum_show b)
  | DEmptyNest => DEmptyNest
  | DList a b => DList (im_datum_show a) (im_datum_show b)
  | DEmptyList => DEmptyList
  | DExtra x => DExtra x
  end.
Definition im_show (x : datum im_text N + error strpos N) : datum (list char) N + error strpos N :=
  match x with inl d => inl (im_datum_show d) | inr e => inr e end.
Definition im_items_show (r : res Empty_set (list (datum im_text N + error strpos N))) := res_map (map im_show) r.

(** [im_start] is a parser of a lawful configuration. *)
Lemma im_map_lawful :
  lawful False (fun w : N => w) im_stream (text_concat_ops (im_ops (W:=N))) box_alloc
    (im_lookup num_eq num_hash sum_hasher im_map) (abs_lookup num_eq abs_map)
    (titer_rep posstr_any posstr_any_state (im_ops (W:=N))) (text_items (im_ops (W:=N)) posstr_any) eq eq.
Proof. apply (str_lawful num_eq num_hash sum_hasher num_eq_hash abs_map_related). Qed.
Lemma im_safe_lawful :
  lawful False (fun w : N => w) im_stream (text_concat_ops (im_ops (W:=N))) box_alloc
    (im_lookup num_eq num_hash sum_hasher im_safe) (abs_lookup num_eq abs_safe)
    (titer_rep posstr_any posstr_any_state (im_ops (W:=N))) (text_items (im_ops (W:=N)) posstr_any) eq eq.
Proof. apply (str_lawful num_eq num_hash sum_hasher num_eq_hash abs_safe_related). Qed.
Lemma im_none_lawful :
  lawful False (fun w : N => w) im_stream (text_concat_ops (im_ops (W:=N))) box_alloc
    (im_lookup (CE:=N) num_eq num_hash sum_hasher []) (abs_lookup num_eq [])
    (titer_rep posstr_any posstr_any_state (im_ops (W:=N))) (text_items (im_ops (W:=N)) posstr_any) eq eq.
Proof. apply (str_lawful num_eq num_hash sum_hasher num_eq_hash). constructor. Qed.

Lemma im_start_on s w :
  starts_on (titer_rep posstr_any posstr_any_state (im_ops (W:=N))) (fun w : N => w) (im_start s w) (str_source (lit s)) w.
Proof.
  destruct (str_starts (lit s) w) as (t & E & H). unfold im_start.
  assert (E' : titer_new posstr_ops (im_ops (W:=N)) (im_from s) = Ok t) by exact E. rewrite E'. exact H.
Qed.

(** Iterating over the parser. *)
Definition im_iterates m st items st' := iterates usize_max default_classifier (im_stream (W:=N)) (text_concat_ops im_ops) box_alloc
  (im_lookup (ET:=N) (CE:=N) num_eq num_hash sum_hasher m) st items st'.

(** The abstract parser is itself a lawful configuration. *)
Lemma datum_rel_eq {TT ET} : forall d1 d2 : datum TT ET, datum_rel eq eq d1 d2 <-> d1 = d2.
Proof.
  split.
  - revert d2. induction d1; intros [] H; cbn in H; try contradiction; try congruence;
      destruct H; f_equal; auto.
  - intros ->. induction d2; cbn; auto.
Qed.
Lemma abs_lawful {W ET Pos CE} (bnd : bindings W (list (item Pos)) ET Pos CE) :
  lawful False (fun w : W => w) abs_stream abs_concat abs_alloc bnd bnd abs_Rs eq eq eq.
Proof.
  constructor; auto using abs_stream_contract, abs_concat_contract, abs_alloc_contract.
  assert (G : forall (o : (option (datum (list (item Pos)) ET) + error Pos CE) * W),
    cres_rel False (Ra_view (fun w : W => w)) eq eq eq eq o o).
  { intros [[[d|]|e] w]; unfold cres_rel; cbn; [split; [|reflexivity]; apply datum_rel_eq; reflexivity|split; [exact I|reflexivity]|].
    left. split; [destruct e; cbn; auto|reflexivity]. }
  intros d1 d2 H. apply datum_rel_eq in H. subst d2. destruct (bnd d1) as [[f|f]|]; cbn; auto;
    unfold Ra_view; intros a1 a2 b1 b2 c1 c2 H1 H2 ->; apply datum_rel_eq in H1; subst a2.
  - subst b2. apply G.
  - apply datum_rel_eq in H2. subst b2. apply G.
Qed.
Definition abs_start {W Pos} (s : list (item Pos)) (w : W) : pstate (@abs_state Pos) W := PState (s, []) 0 w.
Lemma abs_start_on {W Pos} (s : list (item Pos)) (w : W) : starts_on abs_Rs (fun w : W => w) (abs_start s w) s w.
Proof. unfold starts_on, abs_Rs. auto. Qed.
Definition im_nexts m st os st' := nexts usize_max default_classifier (im_stream (W:=N)) (text_concat_ops im_ops) box_alloc
  (im_lookup (ET:=N) (CE:=N) num_eq num_hash sum_hasher m) st os st'.

(** The same bindings for the positions of streams of characters. *)
Definition ch_map : list (datum (list (item charpos)) N * combiner N (list (item charpos)) N charpos N) := [
  (DText (char_source (lit "q")), Operative (fun _ t w => (inl (Some (DText t)), w)));
  (DText (char_source (lit "l")), Applicative (fun _ l w => (inl (Some l), w)));
  (DText (char_source (lit "rm")), Operative (fun _ _ w => (inl None, w)));
  (DText (char_source (lit "err")), Applicative (fun _ _ w => (inr (FailedCombiner 7), w)));
  (DText (char_source (lit "n")), Applicative (fun _ _ w => (inl (Some (DExtra w)), w + 1)))]%N.
