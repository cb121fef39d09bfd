(** The ready-made parsers are lawful configurations. *)
From Coq Require Import List Arith NArith Bool Lia.
From Verif.Model Require Import Prelude Parser Iter Utf8 Chunk TextIter PosStr PosStrish
  TextVec TextDatumList CharIter StrishIter Alloc DefaultClassifier TextMethods DatumMethods Bindings Premade.
From Verif.Spec Require Import Contract ChunkContract Grammar AbsStream Lawful.
From Verif.Proofs Require Import Sim Refine Compose Transfer ChunkFacts TextFacts MethodFacts DatumFacts
  BindingFacts AllocFacts AbsParse.
Import ListNotations.
Set Implicit Arguments.

(** A family of representations. *)
Lemma chunk_contract_any {I C CS Pos} (k : chunk_ops C CS Pos) (Rc : I -> C -> list (item Pos) -> Prop)
  (Rcs : I -> CS -> list (item Pos) -> list (item Pos) -> Prop) (i0 : I) :
  (forall i, chunk_contract k (Rc i) (Rcs i)) ->
  chunk_contract k (fun c l => exists i, Rc i c l) (fun s r p => exists i, Rcs i s r p).
Proof.
  intros H. split.
  - exists i0. apply (H i0).
  - intros c l [i Hc]. apply (kc_is_empty (H i) _ _ Hc).
  - intros c l [i Hc]. exists i. apply (kc_src_strm (H i) _ _ Hc).
  - intros s r p [i Hs]. destruct (kc_peek (H i) _ _ _ Hs) as (s' & E & H'). eauto.
  - intros s r p [i Hs]. destruct (kc_next (H i) _ _ _ Hs) as (s' & E & H'). eauto.
  - intros s r p [i Hs]. destruct (kc_next_accum (H i) _ _ _ Hs) as (s' & E & H'). eauto.
  - intros s r p [i Hs]. destruct (kc_accum_done (H i) _ _ _ Hs) as (s' & c & E & H1 & H2). eauto 8.
Qed.

(** Well-formed [PosStr]s: parts of some string, with the position in it. *)
Definition posstr_any (c : posstr) (l : list (item strpos)) : Prop := exists src, posstr_rep src c l.
Definition posstr_any_state (s : posstr_iter) (r p : list (item strpos)) : Prop :=
  exists src, posstr_state src s r p.
Lemma posstr_any_contract : chunk_contract posstr_ops posstr_any posstr_any_state.
Proof. apply (chunk_contract_any (I:=str) posstr_rep posstr_state []). apply posstr_contract. Qed.

(** Well-formed [PosStrish]s: ranges of whole characters. *)
Definition posstrish_any : posstrish -> list (item charpos) -> Prop := posstrish_rep (fun _ _ => True).
Definition posstrish_any_state := posstrish_state (fun _ _ => True).
Lemma posstrish_any_contract : chunk_contract posstrish_ops posstrish_any posstrish_any_state.
Proof. apply posstrish_contract. Qed.

Lemma indexed_length p ci bi v : length (indexed p ci bi v) = length v.
Proof. revert ci bi. induction v; intros; cbn; auto. Qed.

Lemma posstr_size_ok c l : posstr_any c l -> length l <= posstr_size c.
Proof.
  intros (src & [[E ->]|(pre & v & post & _ & -> & ->)]); [cbn; lia|].
  unfold str_items, posstr_size. cbn. rewrite indexed_length. lia.
Qed.

Lemma posstrish_size_ok ok c l : posstrish_rep ok c l -> length l <= posstrish_size c.
Proof.
  intros (pre & v & post & E & -> & _). unfold posstrish_size. rewrite E. cbn.
  rewrite enumerate_length, !app_length. lia.
Qed.

(** Equality of keys that stand for the same things agrees. *)
Definition teq_spec {TT Pos} (teq : TT -> TT -> bool) (Rt : TT -> list (item Pos) -> Prop) : Prop :=
  forall t u lt lu, Rt t lt -> Rt u lu -> (teq t u = true <-> chars lt = chars lu).

Section Agree.
Context {T1 E1 P1 T2 E2 P2 : Type} (teq1 : T1 -> T1 -> bool) (teq2 : T2 -> T2 -> bool)
  (xeq1 : E1 -> E1 -> bool) (xeq2 : E2 -> E2 -> bool)
  (Rt1 : T1 -> list (item P1) -> Prop) (Rt2 : T2 -> list (item P2) -> Prop)
  (Rt : T1 -> T2 -> Prop) (Rx : E1 -> E2 -> Prop).
Context (H1 : teq_spec teq1 Rt1) (H2 : teq_spec teq2 Rt2)
  (HR : forall t1 t2, Rt t1 t2 -> exists l1 l2, Rt1 t1 l1 /\ Rt2 t2 l2 /\ chars l1 = chars l2)
  (HX : forall x1 x2 y1 y2, Rx x1 x2 -> Rx y1 y2 -> xeq1 x1 y1 = xeq2 x2 y2).
Local Notation Rd := (datum_rel Rt Rx).

Lemma teq_agree t1 t2 u1 u2 : Rt t1 t2 -> Rt u1 u2 -> teq1 t1 u1 = teq2 t2 u2.
Proof.
  intros Ht Hu. destruct (HR Ht) as (l1 & l2 & A1 & A2 & E), (HR Hu) as (m1 & m2 & B1 & B2 & E').
  pose proof (H1 A1 B1) as G1. pose proof (H2 A2 B2) as G2. rewrite E, E' in G1.
  destruct (teq1 t1 u1), (teq2 t2 u2); intuition congruence.
Qed.

Lemma datum_eq_run_agree : forall d1 d2 k1 k2, Rd d1 d2 -> Rd k1 k2 ->
  datum_eq_run teq1 xeq1 d1 k1 = datum_eq_run teq2 xeq2 d2 k2.
Proof.
  induction d1 as [t1|o1 IHo p1 IHp| |e1 IHe n1 IHn| |x1]; intros d2 k1 k2 Hd Hk;
    destruct d2; cbn in Hd; try contradiction;
    destruct k1, k2; cbn in Hk; try contradiction; cbn; auto.
  - f_equal. apply teq_agree; auto.
  - destruct Hd as [Ho Hp], Hk as [Ho' Hp']. rewrite (IHo _ _ _ Ho Ho'), (IHp _ _ _ Hp Hp'). reflexivity.
  - destruct Hd as [Ho Hp], Hk as [Ho' Hp']. rewrite (IHe _ _ _ Ho Ho'), (IHn _ _ _ Hp Hp'). reflexivity.
  - f_equal. apply HX; auto.
Qed.

Lemma datum_eq_agree d1 d2 k1 k2 : Rd d1 d2 -> Rd k1 k2 ->
  datum_eq teq1 xeq1 d1 k1 = datum_eq teq2 xeq2 d2 k2.
Proof. intros Hd Hk. unfold datum_eq. rewrite (datum_eq_run_agree _ _ _ _ Hd Hk). reflexivity. Qed.
End Agree.

Lemma chars_eqb_spec {Pos} : teq_spec (@chars_eqb Pos) eq.
Proof.
  intros t u lt lu -> ->. unfold chars_eqb, chars. destruct (list_eq_dec _ _ _); split; intros; auto; discriminate.
Qed.

(** Hashing is consistent with equality. *)
Lemma datum_rel_all {T1 E1 T2 E2} (Rt : T1 -> T2 -> Prop) (Rx : E1 -> E2 -> Prop) d1 d2 :
  datum_rel Rt Rx d1 d2 -> datum_all (fun t => exists u, Rt t u) (fun x => True) d1.
Proof. revert d2. induction d1; intros [] H; cbn in *; try contradiction; eauto; intuition eauto. Qed.

Section Keys.
Context {TT C CS A Pos W : Type} (k : chunk_ops C CS Pos) (Rc : C -> list (item Pos) -> Prop)
        (Rcs : CS -> list (item Pos) -> list (item Pos) -> Prop) (KC : chunk_contract k Rc Rcs).
Context (F : Prop) (view : A -> W) (x : text_ops TT C A) (XC : text_contract F view x Rc).
Context (size : C -> nat) (Hsize : forall c l, Rc c l -> length l <= size c).
Context {ET : Type} (ET_eq : ET -> ET -> bool) (ET_hash : ET -> list hash_word).
Context (XH : forall a b, ET_eq a b = true -> ET_hash a = ET_hash b).
Local Notation Rt := (text_items x Rc).
Local Notation teq := (text_eqb k x size).
Local Notation wf := (datum_all (fun t => exists l, Rt t l) (fun _ : ET => True)).

Lemma teqb_spec : teq_spec teq Rt.
Proof. intros t u lt lu. apply (text_eqb_spec KC XC size Hsize). Qed.

Lemma key_hash_consistent d1 d2 : wf d1 -> wf d2 -> datum_eq teq ET_eq d1 d2 = true ->
  datum_hash (text_words k x size) ET_hash d1 = datum_hash (text_words k x size) ET_hash d2.
Proof.
  intros W1 W2 E. apply datum_eq_iff in E.
  eapply datum_hash_consistent with (Rt:=fun t u => text_words k x size t = text_words k x size u)
    (Rx:=fun a b => ET_hash a = ET_hash b); auto.
  eapply datum_rel_impl; [| |exact W1|exact W2|exact E]; cbn; auto.
  intros t u [lt Ht] [lu Hu] Et. apply (teqb_spec Ht Hu) in Et.
  rewrite (text_words_spec KC XC size Hsize Ht), (text_words_spec KC XC size Hsize Hu), Et. reflexivity.
Qed.

Lemma key_eq_refl d : (forall a, ET_eq a a = true) -> wf d -> datum_eq teq ET_eq d d = true.
Proof.
  intros HX H. apply datum_eq_iff. eapply datum_rel_refl; [| |exact H]; cbn; auto.
  intros t [l Ht]. apply (teqb_spec Ht Ht). reflexivity.
Qed.

Lemma key_eq_sym d1 d2 : (forall a b, ET_eq a b = true -> ET_eq b a = true) -> wf d1 -> wf d2 ->
  datum_eq teq ET_eq d1 d2 = true -> datum_eq teq ET_eq d2 d1 = true.
Proof.
  intros HX W1 W2 E. apply datum_eq_iff in E. apply datum_eq_iff.
  eapply datum_rel_sym; [| |exact W1|exact W2|exact E]; cbn; auto.
  intros t u [lt Ht] [lu Hu] Et. apply (teqb_spec Hu Ht). symmetry. apply (teqb_spec Ht Hu). exact Et.
Qed.

Lemma key_eq_trans d1 d2 d3 : (forall a b c, ET_eq a b = true -> ET_eq b c = true -> ET_eq a c = true) ->
  wf d1 -> wf d2 -> wf d3 ->
  datum_eq teq ET_eq d1 d2 = true -> datum_eq teq ET_eq d2 d3 = true -> datum_eq teq ET_eq d1 d3 = true.
Proof.
  intros HX W1 W2 W3 E E'. apply datum_eq_iff in E, E'. apply datum_eq_iff.
  eapply datum_rel_trans; [| |exact W1|exact W2|exact W3|exact E|exact E']; cbn; eauto.
  intros t u v [lt Ht] [lu Hu] [lv Hv] Et Eu. apply (teqb_spec Ht Hv).
  apply (teqb_spec Ht Hu) in Et. apply (teqb_spec Hu Hv) in Eu. congruence.
Qed.

(** Bindings as hash maps or as pairs, over related keys and combiners. *)
Context {T2 E2 P2 CE C2 A2 : Type} (teq2 : T2 -> T2 -> bool) (xeq2 : E2 -> E2 -> bool)
  (Rt2 : T2 -> list (item P2) -> Prop) (H2 : teq_spec teq2 Rt2)
  (R : TT -> T2 -> Prop) (Rx : ET -> E2 -> Prop) (L : Prop) (Ra : A -> A2 -> Prop)
  (Rp : Pos -> P2 -> Prop) (Re : CE -> C2 -> Prop).
Context (HR : forall t1 t2, R t1 t2 -> exists l1 l2, Rt t1 l1 /\ Rt2 t2 l2 /\ chars l1 = chars l2)
  (HX : forall x1 x2 y1 y2, Rx x1 x2 -> Rx y1 y2 -> ET_eq x1 y1 = xeq2 x2 y2).
Local Notation prel := (pairs_rel (datum_rel R Rx) (combiner_rel L Ra R Rx Rp Re)).

Lemma pair_bindings_sim m1 m2 : prel m1 m2 ->
  bindings_sim (pair_lookup (datum_eq teq ET_eq) m1) (pair_lookup (datum_eq teq2 xeq2) m2) L Ra R Rx Rp Re.
Proof.
  intros H d1 d2 Hd. eapply pairs_lookup_rel; [|exact H|exact Hd].
  intros. eapply datum_eq_agree; [exact teqb_spec|exact H2|exact HR|exact HX|auto|auto].
Qed.

Lemma rel_wf d1 d2 : datum_rel R Rx d1 d2 -> wf d1.
Proof.
  intros H. apply datum_rel_all in H. revert H. clear -HR.
  induction d1; cbn; intuition. destruct H as [u Hu]. destruct (HR Hu) as (l1 & l2 & G & _). eauto.
Qed.

Lemma hm_lookup_pair hasher m1 m2 d1 d2 : prel m1 m2 -> datum_rel R Rx d1 d2 ->
  hm_lookup (datum_eq teq ET_eq) (datum_hash (text_words k x size) ET_hash) hasher m1 d1 =
  pair_lookup (datum_eq teq ET_eq) m1 d1.
Proof.
  intros H Hd. apply (hm_lookup_pairs _ _ hasher wf).
  - intros a b Wa Wb. apply key_hash_consistent; auto.
  - clear -H HR. induction H as [|kv1 kv2 m1 m2 [Hk _] _ IH]; constructor; eauto using rel_wf.
  - eapply rel_wf. exact Hd.
Qed.

Lemma hm_bindings_sim hasher m1 m2 : prel m1 m2 ->
  bindings_sim (hm_lookup (datum_eq teq ET_eq) (datum_hash (text_words k x size) ET_hash) hasher m1)
    (pair_lookup (datum_eq teq2 xeq2) m2) L Ra R Rx Rp Re.
Proof.
  intros H d1 d2 Hd. rewrite (hm_lookup_pair hasher _ _ H Hd). apply pair_bindings_sim; auto.
Qed.
End Keys.
