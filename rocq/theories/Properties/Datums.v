(** C24-C26: equality and hashing of datums, and looking operators up. *)
From Coq Require Import List NArith Arith Bool Lia.
From Verif.Model Require Import Prelude Parser Utf8 Chunk TextIter PosStr PosStrish
  TextVec TextDatumList Alloc TextMethods DatumMethods Bindings Premade.
From Verif.Spec Require Import Contract ChunkContract Lex Paths Run.
From Verif.Proofs Require Import Sim ChunkFacts TextFacts MethodFacts DatumFacts BindingFacts AllocFacts Instances RunFacts.
From Verif.Tests Require Import Str Cases.
Import ListNotations.
Local Notation chars := (map (@it_ch _)).

(** ** Equality *)

(** C24.  [==] holds exactly if the trees have the same shape, with equal texts
    and extras at corresponding places; whatever the equality of these is. *)
Theorem C24_structural {T1 T2 E1 E2} (teq : T1 -> T2 -> bool) (xeq : E1 -> E2 -> bool) d1 d2 :
  datum_eq teq xeq d1 d2 = true <->
  datum_rel (fun t1 t2 => teq t1 t2 = true) (fun x1 x2 => xeq x1 x2 = true) d1 d2.
Proof. apply datum_eq_iff. Qed.

Section Keys.
(** Datums with any lawful texts.  [wf d]: every text in [d] consists of some
    items. *)
Context {TT C CS A Pos W : Type} (k : chunk_ops C CS Pos) (Rc : C -> list (item Pos) -> Prop)
        (Rcs : CS -> list (item Pos) -> list (item Pos) -> Prop) (KC : chunk_contract k Rc Rcs).
Context (F : Prop) (view : A -> W) (x : text_ops TT C A) (XC : text_contract F view x Rc).
Context (size : C -> nat) (Hsize : forall c l, Rc c l -> length l <= size c).
Context {ET : Type} (ET_eq : ET -> ET -> bool) (ET_hash : ET -> list hash_word).
Local Notation consists := (text_items x Rc).
Local Notation wf := (datum_all (fun t => exists l, consists t l) (fun _ : ET => True)).
Local Notation eqd := (datum_eq (text_eqb k x size) ET_eq).
Local Notation hashd := (datum_hash (text_words k x size) ET_hash).

(** Equal texts are those with equal characters, as read by iterating over
    them. *)
Theorem C24_characters d1 d2 : wf d1 -> wf d2 ->
  (eqd d1 d2 = true <->
   datum_rel (fun t1 t2 => exists u, reads_chars k x t1 u /\ reads_chars k x t2 u)
     (fun x1 x2 => ET_eq x1 x2 = true) d1 d2).
Proof.
  intros H1 H2. rewrite datum_eq_iff. split; intros H; (eapply datum_rel_impl; [| |exact H1|exact H2|exact H]); cbn; auto.
  - intros t u [lt Ht] [lu Hu] E. apply (text_eqb_spec KC XC size Hsize Ht Hu) in E. unfold MethodFacts.chars in E.
    exists (chars lt). split; [exists lt|exists lu]; (split; [|auto]).
    + apply (text_reads KC XC Ht).
    + apply (text_reads KC XC Hu).
  - intros t u [lt Ht] [lu Hu] (c & (l1 & R1 & <-) & (l2 & R2 & E)).
    rewrite (reads_det R1 (text_reads KC XC Ht)) in E. rewrite (reads_det R2 (text_reads KC XC Hu)) in E.
    apply (text_eqb_spec KC XC size Hsize Ht Hu). symmetry. exact E.
Qed.

Theorem C24_refl d : (forall a, ET_eq a a = true) -> wf d -> eqd d d = true.
Proof. apply (key_eq_refl KC XC size Hsize). Qed.
Theorem C24_sym d1 d2 : (forall a b, ET_eq a b = true -> ET_eq b a = true) -> wf d1 -> wf d2 ->
  eqd d1 d2 = true -> eqd d2 d1 = true.
Proof. apply (key_eq_sym KC XC size Hsize). Qed.
Theorem C24_trans d1 d2 d3 : (forall a b c, ET_eq a b = true -> ET_eq b c = true -> ET_eq a c = true) ->
  wf d1 -> wf d2 -> wf d3 -> eqd d1 d2 = true -> eqd d2 d3 = true -> eqd d1 d3 = true.
Proof. apply (key_eq_trans KC XC size Hsize). Qed.

(** C26.  Equal datums feed the same words to a hasher. *)
Context (XH : forall a b, ET_eq a b = true -> ET_hash a = ET_hash b).
Theorem C26_hash d1 d2 : wf d1 -> wf d2 -> eqd d1 d2 = true -> hashd d1 = hashd d2.
Proof. apply (key_hash_consistent KC XC size Hsize ET_eq ET_hash XH). Qed.

(** A hash map built by inserting [pairs] in order finds the value inserted last
    under an equal key (where [eqd] is an equivalence); whatever the hasher. *)
Context {V : Type} (hasher : list hash_word -> N).
Context (Xref : forall a, ET_eq a a = true) (Xsym : forall a b, ET_eq a b = true -> ET_eq b a = true)
        (Xtrans : forall a b c, ET_eq a b = true -> ET_eq b c = true -> ET_eq a c = true).
Local Notation lookup := (hm_lookup eqd hashd hasher).
Local Notation collect := (hm_collect (V:=V) eqd hashd hasher).
Local Notation wfs := (Forall (fun kv : datum TT ET * V => wf (fst kv))).

Theorem C26_hashmap pairs o v : wfs pairs -> wf o ->
  (lookup (collect pairs) o = Some v <->
   exists a k b, pairs = a ++ (k, v) :: b /\ eqd o k = true /\ forall k' v', In (k', v') b -> eqd o k' = false).
Proof.
  intros H Ho. rewrite (hm_collect_lookup eqd hashd hasher _
    (fun a b Ha Hb => C24_sym a b Xsym Ha Hb) (fun a b c Ha Hb Hc => C24_trans a b c Xtrans Ha Hb Hc) C26_hash _ H Ho).
  rewrite pair_lookup_some. split; intros (a & q & b & E & Eq & Hn).
  - exists (rev b), q, (rev a). split.
    + rewrite <- (rev_involutive pairs), E, rev_app_distr. cbn. rewrite <- app_assoc. reflexivity.
    + split; [exact Eq|]. intros k' v' Hi. apply Hn with v'. apply in_rev. exact Hi.
  - exists (rev b), q, (rev a). split.
    + rewrite E, rev_app_distr. cbn. rewrite <- app_assoc. reflexivity.
    + split; [exact Eq|]. intros k' v' Hi. apply Hn with v'. apply in_rev. exact Hi.
Qed.

(** It finds nothing exactly if there is no equal key. *)
Theorem C26_hashmap_none pairs o : wfs pairs -> wf o ->
  (lookup (collect pairs) o = None <-> forall k v, In (k, v) pairs -> eqd o k = false).
Proof.
  intros H Ho. rewrite (hm_collect_lookup eqd hashd hasher _
    (fun a b Ha Hb => C24_sym a b Xsym Ha Hb) (fun a b c Ha Hb Hc => C24_trans a b c Xtrans Ha Hb Hc) C26_hash _ H Ho).
  rewrite pair_lookup_none. split; intros G q v Hi; apply G with v; apply in_rev; [rewrite rev_involutive|]; exact Hi.
Qed.

(** With pairwise different keys hash maps and pairs agree. *)
Theorem C26_agree pairs o : wfs pairs -> wf o ->
  ForallOrdPairs (fun p q => eqd (fst p) (fst q) = false) pairs ->
  lookup (collect pairs) o = pair_lookup eqd pairs o.
Proof.
  apply (hm_agrees_pairs eqd hashd hasher _
    (fun a b Ha Hb => C24_sym a b Xsym Ha Hb) (fun a b c Ha Hb Hc => C24_trans a b c Xtrans Ha Hb Hc) C26_hash).
Qed.

(** Equal operators find the same, in any bindings. *)
Theorem C26_same pairs o1 o2 : wfs pairs -> wf o1 -> wf o2 -> eqd o1 o2 = true ->
  lookup (collect pairs) o1 = lookup (collect pairs) o2 /\
  pair_lookup eqd pairs o1 = pair_lookup eqd pairs o2 /\
  @empty_lookup _ V o1 = @empty_lookup _ V o2.
Proof.
  intros H H1 H2 E.
  assert (G : forall ps, wfs ps -> pair_lookup eqd ps o1 = pair_lookup eqd ps o2).
  { intros ps Hp. induction Hp as [|[q v] ps Hq _ IH]; [reflexivity|]. cbn in *. rewrite IH.
    destruct (eqd o1 q) eqn:E1, (eqd o2 q) eqn:E2; try reflexivity; exfalso.
    - rewrite (C24_trans o2 o1 q Xtrans H2 H1 Hq (C24_sym _ _ Xsym H1 H2 E) E1) in E2. discriminate.
    - rewrite (C24_trans o1 o2 q Xtrans H1 H2 Hq E E2) in E1. discriminate. }
  split; [|split; [apply G; exact H|reflexivity]].
  rewrite !(hm_collect_lookup eqd hashd hasher _
    (fun a b Ha Hb => C24_sym a b Xsym Ha Hb) (fun a b c Ha Hb Hc => C24_trans a b c Xtrans Ha Hb Hc) C26_hash) by auto.
  apply G. apply Forall_rev. exact H.
Qed.
End Keys.

(** The pair bindings find the value of the first pair with an equal key, the
    empty bindings find nothing. *)
Theorem C26_pairs {K V} (key_eq : K -> K -> bool) (pairs : list (K * V)) o :
  (forall v, pair_lookup key_eq pairs o = Some v <->
     exists a k b, pairs = a ++ (k, v) :: b /\ key_eq o k = true /\ forall k' v', In (k', v') a -> key_eq o k' = false) /\
  (pair_lookup key_eq pairs o = None <-> forall k v, In (k, v) pairs -> key_eq o k = false) /\
  @empty_lookup K V o = None.
Proof. split; [intros v; apply pair_lookup_some|]. split; [apply pair_lookup_none|reflexivity]. Qed.

(** ** Recursion *)

(** C25.  Calls of [==] nest at most as deep below the first as there are
    operands and element edges on a path in either datum. *)
Theorem C25_depth {T1 T2 E1 E2} (teq : T1 -> T2 -> bool) (xeq : E1 -> E2 -> bool) d1 d2 :
  side_edges d1 (datum_eq_depth teq xeq d1 d2) /\ side_edges d2 (datum_eq_depth teq xeq d1 d2).
Proof.
  unfold datum_eq_depth. revert d2.
  induction d1 as [t|d1 IHo b1 IHr| |e1 IHe n1 IHn| |y]; intros d2; destruct d2; cbn [datum_eq_run fst snd]; try (split; apply se_here).
  - specialize (IHr d2_2). specialize (IHo d2_1). destruct (datum_eq_run teq xeq b1 d2_2) as [b n] eqn:Eb.
    destruct b; cbn [fst snd] in *.
    + destruct (datum_eq_run teq xeq d1 d2_1) as [b' n'] eqn:Eb'. cbn [fst snd] in *.
      destruct (Nat.max_spec (S n) n') as [[_ ->]|[_ ->]]; split;
        (apply se_operator + apply se_operands); tauto.
    + split; apply se_operands; tauto.
  - specialize (IHe d2_1). specialize (IHn d2_2). destruct (datum_eq_run teq xeq e1 d2_1) as [b n] eqn:Eb.
    destruct b; cbn [fst snd] in *.
    + destruct (datum_eq_run teq xeq n1 d2_2) as [b' n'] eqn:Eb'. cbn [fst snd] in *.
      destruct (Nat.max_spec (S n) n') as [[_ ->]|[_ ->]]; split;
        (apply se_next + apply se_elem); tauto.
    + split; apply se_elem; tauto.
Qed.

Lemma leaf_edges {TT ET} (d : datum TT ET) n : leaf d -> side_edges d n -> n = 0.
Proof. intros H P. destruct P; cbn in H; try contradiction. reflexivity. Qed.
Lemma list_edges {TT ET} (ds : list (datum TT ET)) n : Forall leaf ds -> side_edges (list_datum ds) n -> n <= 1.
Proof.
  intros H. revert n. induction H as [|d ds Hd _ IH]; intros n P; cbn in P; inversion P as [| | |? ? m Pe|? ? m Pn]; subst; auto.
  rewrite (leaf_edges _ _ Hd Pe). auto.
Qed.

(** So it is at most one for lists of leaves, however long... *)
Theorem C25_lists {T1 T2 E1 E2} (teq : T1 -> T2 -> bool) (xeq : E1 -> E2 -> bool) (ds : list (datum T1 E1)) d2 :
  Forall leaf ds -> datum_eq_depth teq xeq (list_datum ds) d2 <= 1.
Proof.
  intros H. destruct (C25_depth teq xeq (list_datum ds) d2) as [P _]. exact (list_edges _ _ H P).
Qed.

(** ...and at most two for operators nested to any depth. *)
Theorem C25_operators {T1 T2 E1 E2} (teq : T1 -> T2 -> bool) (xeq : E1 -> E2 -> bool) m (d : datum T1 E1) ds d2 :
  leaf d -> Forall leaf ds -> datum_eq_depth teq xeq (operator_nests m d (list_datum ds)) d2 <= 2.
Proof.
  intros Hd H. destruct (C25_depth teq xeq (operator_nests m d (list_datum ds)) d2) as [P _]. revert P.
  generalize (datum_eq_depth teq xeq (operator_nests m d (list_datum ds)) d2).
  induction m as [|m IH]; intros n P; cbn in P; [rewrite (leaf_edges _ _ Hd P); auto|].
  inversion P as [|? ? ? Po|? ? ? Pr| |]; subst; auto. pose proof (list_edges _ _ H Pr). lia.
Qed.

(** Nests in operand position do make it recurse as deep as they are. *)
Theorem C25_operands {TT ET} (teq : TT -> TT -> bool) (xeq : ET -> ET -> bool) m t : teq t t = true ->
  datum_eq_depth teq xeq (operand_nests m (DText t)) (operand_nests m (DText t)) = 2 * m.
Proof.
  intros Ht. unfold datum_eq_depth.
  enough (datum_eq_run teq xeq (operand_nests m (DText t)) (operand_nests m (DText t)) = (true, 2 * m)) as -> by reflexivity.
  induction m as [|m IH]; cbn [operand_nests datum_eq_run]; [rewrite Ht; reflexivity|].
  rewrite IH, Ht. f_equal. lia.
Qed.

Print Assumptions C24_structural.
Print Assumptions C24_characters.
Print Assumptions C24_refl.
Print Assumptions C24_sym.
Print Assumptions C24_trans.
Print Assumptions C25_depth.
Print Assumptions C25_lists.
Print Assumptions C25_operators.
Print Assumptions C25_operands.
Print Assumptions C26_hash.
Print Assumptions C26_hashmap.
Print Assumptions C26_hashmap_none.
Print Assumptions C26_agree.
Print Assumptions C26_same.
Print Assumptions C26_pairs.

(** ** Cases *)
Local Notation im := (im_ops (W:=N)).
Definition foo_bar : im_datum (ET:=N) :=
  DComb (DText (im_from "foo")) (DList (DText (im_from "bar")) (DList (DExtra 3%N) DEmptyList)).
(** The same characters at other places, "foo" in two chunks. *)
Definition foo_bar' : im_datum (ET:=N) :=
  DComb (DText (Multi [PosStr (lit "f") (StrPos (lit "{foo bar}") 1 1); PosStr (lit "oo") (StrPos (lit "{foo bar}") 2 2)]))
    (DList (DText (Single (PosStr (lit "bar") (StrPos (lit "{foo bar}") 5 5)))) (DList (DExtra 3%N) DEmptyList)).

Lemma im_from_any s : exists l, text_items im posstr_any (im_from s) l.
Proof.
  exists (str_source (lit s)), [posstr_from (lit s)], [str_source (lit s)].
  split; [reflexivity|]. split; [|cbn; rewrite app_nil_r; reflexivity]. constructor; [apply posstr_from_any|constructor].
Qed.

Local Notation wf := (datum_all (fun t => exists l, text_items im posstr_any t l) (fun _ : N => True)).
Lemma foo_bar_wf : wf foo_bar.
Proof. unfold foo_bar. cbn [datum_all]. repeat split; apply im_from_any. Qed.
Lemma foo_bar'_wf : wf foo_bar'.
Proof.
  unfold foo_bar'. cbn [datum_all]. repeat split.
  - eexists _, [_; _], [_; _]. split; [reflexivity|]. split; [|reflexivity]. repeat constructor.
    + exists (lit "{foo bar}"). right. exists (lit "{"), (lit "f"), (lit "oo bar}"). repeat split.
    + exists (lit "{foo bar}"). right. exists (lit "{f"), (lit "oo"), (lit " bar}"). repeat split.
  - eexists _, [_], [_]. split; [reflexivity|]. split; [|reflexivity]. repeat constructor.
    exists (lit "{foo bar}"). right. exists (lit "{foo "), (lit "bar"), (lit "}"). repeat split.
Qed.

Definition names : list (im_datum (ET:=N) * N) :=
  [(foo_bar, 1%N); (DText (im_from "foo"), 2%N); (foo_bar', 3%N)].
Example C24_case : im_datum_eq (W:=N) num_eq foo_bar foo_bar' = true /\
  im_datum_eq (W:=N) num_eq foo_bar (DComb (DText (im_from "foo")) DEmptyList) = false /\
  datum_eq_depth (text_eqb posstr_ops im posstr_size) num_eq foo_bar foo_bar' = 2.
Proof. vm_compute. repeat split. Qed.

Example C26_case :
  Forall (fun kv => wf (fst kv)) names /\
  im_datum_hash (W:=N) num_hash foo_bar = im_datum_hash (W:=N) num_hash foo_bar' /\
  hm_lookup (im_datum_eq (W:=N) num_eq) (im_datum_hash (W:=N) num_hash) sum_hasher
    (hm_collect (im_datum_eq (W:=N) num_eq) (im_datum_hash (W:=N) num_hash) sum_hasher names) foo_bar = Some 3%N /\
  pair_lookup (im_datum_eq (W:=N) num_eq) names foo_bar = Some 1%N /\
  pair_lookup (im_datum_eq (W:=N) num_eq) names (DText (im_from "fo")) = None.
Proof.
  split; [|vm_compute; repeat split].
  repeat apply Forall_cons; [apply foo_bar_wf|apply im_from_any|apply foo_bar'_wf|apply Forall_nil].
Qed.
