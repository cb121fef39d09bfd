(** C53: only the classes of characters matter for how they are parsed. *)
From Coq Require Import List NArith Arith Bool Lia.
From Verif.Model Require Import Prelude Parser Iter Utf8 Chunk TextIter PosStr TextVec Alloc
  DefaultClassifier TextMethods DatumMethods Bindings Premade CustomClassifier.
From Verif.Spec Require Import Contract ChunkContract Run Lawful Classes.
From Verif.Proofs Require Import Sim Refine ChunkFacts TextFacts AllocFacts Instances RunFacts Transfer PremadeFacts Concrete
  Compose TwoRuns ClassFacts ClassMem.
From Verif.Tests Require Import Str Cases.
Import ListNotations.
Local Notation N_len r := (N.of_nat (length r)).

(** Any two parsers whose collaborators obey the contracts, with classifiers
    [cc1] and [cc2], on sources whose characters are related by [Rch]: related
    characters have the same classes.  Nothing is assumed about the classes, which
    may overlap.  All items are alike, errors too, and their texts consist of
    related characters at related positions. *)
Theorem C53_classes {S1 A1 T1 E1 P1 C1 W1 S2 A2 T2 E2 P2 C2 W2} umax cc1 cc2
    (so1 : stream_ops S1 A1 T1 P1) co1 (ao1 : alloc_ops A1 T1 E1) (bnd1 : bindings A1 T1 E1 P1 C1)
    (so2 : stream_ops S2 A2 T2 P2) co2 (ao2 : alloc_ops A2 T2 E2) (bnd2 : bindings A2 T2 E2 P2 C2)
    Rs1 Rt1 Rs2 Rt2 (view1 : A1 -> W1) (view2 : A2 -> W2) (Rch : char -> char -> Prop) Rp (Rw : W1 -> W2 -> Prop) Rx Rc
    st1 st2 l1 l2 w1 w2 items1 st1' :
  stream_contract False view1 so1 Rs1 Rt1 -> concat_contract False view1 co1 Rt1 ->
  alloc_contract False view1 ao1 -> (forall d a, a_get_mut ao1 d a = true) ->
  stream_contract False view2 so2 Rs2 Rt2 -> concat_contract False view2 co2 Rt2 ->
  alloc_contract False view2 ao2 -> (forall d a, a_get_mut ao2 d a = true) ->
  (forall c1 c2, Rch c1 c2 -> same_class cc1 cc2 c1 c2) ->
  bindings_sim bnd1 bnd2 False (RaB view1 view2 Rw) (RtB Rt1 Rt2 Rch Rp) Rx Rp Rc ->
  starts_on Rs1 view1 st1 l1 w1 -> starts_on Rs2 view2 st2 l2 w2 -> Rw w1 w2 -> Forall2 (item_by Rch Rp) l1 l2 ->
  iterates umax cc1 so1 co1 ao1 bnd1 st1 items1 st1' ->
  exists items2 st2', iterates umax cc2 so2 co2 ao2 bnd2 st2 items2 st2' /\
    Forall2 (pitem_rel (RtB Rt1 Rt2 Rch Rp) Rx Rp Rc) items1 items2 /\ Rw (view1 (ps_alloc st1')) (view2 (ps_alloc st2')).
Proof.
  intros SC1 TC1 AC1 GM1 SC2 TC2 AC2 GM2 HC BS (D1 & H1 & V1) (D2 & H2 & V2) Hw Hl (n & fuel & E).
  assert (Hst : st_rel (RsB Rs1 Rs2 Rch Rp) (RaB view1 view2 Rw) st1 st2).
  { split; [exists l1, [], l2, []; auto|]. split; [congruence|]. unfold RaB. rewrite V1, V2. exact Hw. }
  pose proof (classes_collect umax HC SC1 TC1 AC1 GM1 SC2 TC2 AC2 GM2 BS n fuel Hst) as G.
  unfold coll_rel in G. rewrite E in G. cbn [fst snd] in G.
  destruct (iter_collect umax cc2 so2 co2 ao2 bnd2 n fuel st2) as [[items2|[]| |] st2'] eqn:EQ; cbn [fst snd] in G; try contradiction.
  destruct G as (G & _ & _ & Ga). exists items2, st2'. split; [exists n, fuel; exact EQ|]. auto.
Qed.

(** In memory, with any classifiers; bindings that treat texts of related
    characters alike, and characters that are related one to one so that equal
    operators have equal counterparts. *)
Theorem C53_bound {W ET CE} ET_eq ET_hash (XH : forall a b : ET, ET_eq a b = true -> ET_hash a = ET_hash b)
    h1 h2 cc1 cc2 (Rch : char -> char -> Prop) i1 i2 (m1 m2 : im_bindings (W:=W) (ET:=ET) (CE:=CE)) w :
  (forall c1 c2, Rch c1 c2 -> same_class cc1 cc2 c1 c2) -> one_to_one Rch -> im_by_alike Rch m1 m2 ->
  Forall2 Rch i1 i2 -> (N_len i1 <= usize_max)%N ->
  exists items1 st1 items2 st2,
    collect_str ET_eq ET_hash h1 cc1 i1 m1 w = (Ok items1, Some st1) /\
    collect_str ET_eq ET_hash h2 cc2 i2 m2 w = (Ok items2, Some st2) /\
    Forall2 (pitem_rel (text_by posstr_ops (im_ops (W:=W)) posstr_ops (im_ops (W:=W)) Rch same_index) eq same_index eq)
      items1 items2 /\ ps_alloc st1 = ps_alloc st2.
Proof. intros HC O Hm Hi Hu. apply mem_classes; auto. apply im_by_sim; auto. Qed.

(** Without bindings, characters of the same classes, whichever they are, are
    parsed into the same shapes and give the same errors at the same places. *)
Theorem C53_unbound {W ET CE} ET_eq ET_hash h1 h2 cc1 cc2 (Rch : char -> char -> Prop) i1 i2 (w : W) :
  (forall c1 c2, Rch c1 c2 -> same_class cc1 cc2 c1 c2) -> Forall2 Rch i1 i2 -> (N_len i1 <= usize_max)%N ->
  exists items1 st1 items2 st2,
    collect_str (ET:=ET) (CE:=CE) ET_eq ET_hash h1 cc1 i1 [] w = (Ok items1, Some st1) /\
    collect_str ET_eq ET_hash h2 cc2 i2 [] w = (Ok items2, Some st2) /\
    Forall2 (pitem_rel (text_by posstr_ops (im_ops (W:=W)) posstr_ops (im_ops (W:=W)) Rch same_index) eq same_index eq)
      items1 items2 /\ ps_alloc st1 = ps_alloc st2.
Proof. intros HC Hi Hu. apply mem_classes; auto. intros d1 d2 _. exact I. Qed.

(** So a source can be rewritten for other delimiters: with [f] taking each
    character to one of the same class, the texts of the rewritten source are
    the texts rewritten. *)
Theorem C53_rewritten {W ET CE} ET_eq ET_hash h1 h2 cc1 cc2 (f : char -> char) input (w : W) :
  (forall c, In c input -> same_class cc1 cc2 c (f c)) -> (N_len input <= usize_max)%N ->
  exists items1 st1 items2 st2,
    collect_str (ET:=ET) (CE:=CE) ET_eq ET_hash h1 cc1 input [] w = (Ok items1, Some st1) /\
    collect_str ET_eq ET_hash h2 cc2 (map f input) [] w = (Ok items2, Some st2) /\
    Forall2 (pitem_rel (fun t1 t2 => exists u, reads_chars posstr_ops (im_ops (W:=W)) t1 u /\
        reads_chars posstr_ops (im_ops (W:=W)) t2 (map f u)) eq same_index eq)
      items1 items2.
Proof.
  intros HC Hu.
  destruct (C53_unbound (W:=W) (CE:=CE) ET_eq ET_hash h1 h2 cc1 cc2 (fun a b => b = f a /\ same_class cc1 cc2 a b) input (map f input) w)
    as (i1 & s1 & i2 & s2 & E1 & E2 & H & _); auto.
  - intros a b [_ H]. exact H.
  - clear Hu. induction input as [|c l IH]; cbn; constructor; [|apply IH; cbn in HC; auto].
    split; [reflexivity|]. apply HC. cbn. auto.
  - exists i1, s1, i2, s2. split; [exact E1|]. split; [exact E2|].
    eapply Forall2_mono; [|exact H]. intros a b. apply Diag.pitem_rel_mono.
    intros t u (l1 & l2 & R1 & R2 & HL). exists (map it_ch l1). split; [exists l1; auto|]. exists l2. split; [exact R2|].
    clear -HL. induction HL as [|x y l1 l2 [[E _] _] _ IH]; cbn; congruence.
Qed.

(** [custom_classifier] of examples/non_default_delimiters.rs: what the default
    classifier makes of a source, it makes of the source with the delimiters
    exchanged, which are exchanged in the texts too. *)
Lemma C53_swap c : same_class default_classifier custom_classifier c (swap c).
Proof.
  assert (E : forall a b : N, (a =? b)%N = true -> a = b) by (intros; apply N.eqb_eq; auto).
  unfold swap.
  destruct (c =? 0x7B)%N eqn:H1; [apply E in H1; subst; repeat split|].
  destruct (c =? 0x7D)%N eqn:H2; [apply E in H2; subst; repeat split|].
  destruct (c =? 0x5C)%N eqn:H3; [apply E in H3; subst; repeat split|].
  destruct (c =? 0x27EA)%N eqn:H4; [apply E in H4; subst; repeat split|].
  destruct (c =? 0x27EB)%N eqn:H5; [apply E in H5; subst; repeat split|].
  destruct (c =? 0x241B)%N eqn:H6; [apply E in H6; subst; repeat split|].
  unfold same_class, default_classifier, custom_classifier. cbn [is_nest_start is_nest_end is_nest_escape is_whitespace].
  rewrite !(N.eqb_sym _ c), H1, H2, H3, H4, H5, H6. auto.
Qed.
Theorem C53_custom {W ET CE} ET_eq ET_hash h1 h2 input (w : W) : (N_len input <= usize_max)%N ->
  exists items1 st1 items2 st2,
    collect_str (ET:=ET) (CE:=CE) ET_eq ET_hash h1 default_classifier input [] w = (Ok items1, Some st1) /\
    collect_str ET_eq ET_hash h2 custom_classifier (map swap input) [] w = (Ok items2, Some st2) /\
    Forall2 (pitem_rel (fun t1 t2 => exists u, reads_chars posstr_ops (im_ops (W:=W)) t1 u /\
        reads_chars posstr_ops (im_ops (W:=W)) t2 (map swap u)) eq same_index eq)
      items1 items2.
Proof. intros Hu. apply C53_rewritten; auto. intros c _. apply C53_swap. Qed.

Print Assumptions C53_classes.
Print Assumptions C53_bound.
Print Assumptions C53_unbound.
Print Assumptions C53_rewritten.
Print Assumptions C53_custom.

(** ** Cases *)

Lemma swap_swap c : swap (swap c) = c.
Proof.
  assert (E : forall a b : N, (a =? b)%N = true -> a = b) by (intros; apply N.eqb_eq; auto).
  unfold swap at 2.
  destruct (c =? 0x7B)%N eqn:H1; [apply E in H1; subst; reflexivity|].
  destruct (c =? 0x7D)%N eqn:H2; [apply E in H2; subst; reflexivity|].
  destruct (c =? 0x5C)%N eqn:H3; [apply E in H3; subst; reflexivity|].
  destruct (c =? 0x27EA)%N eqn:H4; [apply E in H4; subst; reflexivity|].
  destruct (c =? 0x27EB)%N eqn:H5; [apply E in H5; subst; reflexivity|].
  destruct (c =? 0x241B)%N eqn:H6; [apply E in H6; subst; reflexivity|].
  unfold swap. rewrite H1, H2, H3, H4, H5, H6. reflexivity.
Qed.

Definition swapped (a b : char) : Prop := b = swap a.
Example C53_swapped : one_to_one swapped.
Proof.
  intros a b c d -> ->. split; [congruence|]. intros H. rewrite <- (swap_swap a), H. apply swap_swap.
Qed.

(** [q] returns its operands text and counts, [l] returns its arguments. *)
Definition cc_map : im_bindings (W:=N) (ET:=N) (CE:=N) := [
  (DText (im_from "q"), Operative (fun _ t w => (inl (Some (DText t)), w + 1)));
  (DText (im_from "l"), Applicative (fun _ l w => (inl (Some l), w)))]%N.
Example C53_alike : im_by_alike swapped cc_map cc_map.
Proof.
  assert (K : forall s, map swap (lit s) = lit s -> im_by (W:=N) swapped (im_from s) (im_from s)).
  { intros s Hs. assert (I : text_items (im_ops (W:=N)) posstr_any (im_from s) (str_source (lit s))).
    { exact (xc_from (tvec_contract posstr_any_contract False (fun w : N => w)) _ _ (posstr_from_any (lit s))). }
    exists (str_source (lit s)), (str_source (lit s)). split; [exact I|]. split; [exact I|].
    apply by_source. rewrite <- Hs at 2. generalize (lit s). intros l. induction l; cbn; constructor; [reflexivity|auto]. }
  unfold im_by_alike, cc_map. repeat apply Forall2_cons; try apply Forall2_nil; (split; [apply K; reflexivity|]);
    cbn; intros; subst; auto.
Qed.

(** A source with every kind of form, an error, and a form after it; and it
    rewritten. *)
Definition cc_input : str := lit "a \{b{q x {y} \}}{l p{e f}q}}{z}{".
Definition run_cc cc input := fst (collect_str num_eq num_hash sum_hasher cc input cc_map 0%N).
Example C53_case : exists items1 items2,
  run_cc default_classifier cc_input = Ok items1 /\ run_cc custom_classifier (map swap cc_input) = Ok items2 /\
  length items1 = 6 /\ length items2 = 6 /\
  (exists p1 p2, nth_error items1 3 = Some (inr (UnbalancedEndChar p1)) /\
     nth_error items2 3 = Some (inr (UnbalancedEndChar p2)) /\ same_index p1 p2) /\
  nth_error items1 5 = Some (inr MissingEndChar) /\ nth_error items2 5 = Some (inr MissingEndChar).
Proof.
  do 2 eexists. split; [vm_compute; reflexivity|]. split; [vm_compute; reflexivity|]. split; [reflexivity|]. split; [reflexivity|].
  split; [do 2 eexists; split; [reflexivity|]; split; [reflexivity|]; reflexivity|]. split; reflexivity.
Qed.
