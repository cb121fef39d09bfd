(** The recursion of the derived methods of datums: C51. *)
From Coq Require Import List NArith Arith Lia.
From Verif.Model Require Import Prelude Parser Iter Utf8 Chunk TextIter PosStr TextVec Alloc DefaultClassifier TextMethods DatumMethods DatumStack Bindings Premade.
From Verif.Spec Require Import Contract ChunkContract Grammar Lawful Run Paths Nesting.
From Verif.Proofs Require Import Sim Refine ChunkFacts TextFacts Instances RunFacts GrammarRuns ClassifierFacts.
From Verif.Tests Require Import Cases AbsCases.
From Verif.Properties Require Import Grammar Datums.
Import ListNotations.
Local Notation N_len r := (N.of_nat (length r)).

Section Depth.
Context {TT ET : Type}.

Section Hash.
Context (thash : TT -> list hash_word) (xhash : ET -> list hash_word).

(** The run with the depth feeds the hasher the same. *)
Theorem C51_same_hash (d : datum TT ET) : fst (datum_hash_run thash xhash d) = datum_hash thash xhash d.
Proof.
  induction d as [t|o IHo r IHr| |e IHe l IHl| |x]; cbn [datum_hash_run datum_hash]; try reflexivity.
  - destruct (datum_hash_run thash xhash o), (datum_hash_run thash xhash r). cbn [fst] in *. subst. reflexivity.
  - destruct (datum_hash_run thash xhash e), (datum_hash_run thash xhash l). cbn [fst] in *. subst. reflexivity.
Qed.

(** C51: hashing a datum recurses as deep as its longest path, along whatever
    edges; so does cloning it if the references are boxes. *)
Theorem C51_hash_depth (d : datum TT ET) n : n <= datum_hash_depth thash xhash d <-> edges d n.
Proof.
  unfold datum_hash_depth. revert n.
  induction d as [t|o IHo r IHr| |e IHe l IHl| |x]; intros n; cbn [datum_hash_run snd];
    try (split; [intros H; assert (n = 0) as -> by lia; apply ed_here|inversion 1; subst; lia]; fail).
  - destruct (datum_hash_run thash xhash o) as [a i], (datum_hash_run thash xhash r) as [b j]. cbn [snd] in *. split.
    + intros H. destruct n as [|n]; [apply ed_here|]. destruct (Nat.max_spec (S i) (S j)) as [[_ E]|[_ E]]; rewrite E in H.
      * apply ed_operands, IHr. lia.
      * apply ed_operator, IHo. lia.
    + inversion 1 as [|? ? m P|? ? m P| |]; subst; [lia|apply IHo in P; lia|apply IHr in P; lia].
  - destruct (datum_hash_run thash xhash e) as [a i], (datum_hash_run thash xhash l) as [b j]. cbn [snd] in *. split.
    + intros H. destruct n as [|n]; [apply ed_here|]. destruct (Nat.max_spec (S i) (S j)) as [[_ E]|[_ E]]; rewrite E in H.
      * apply ed_next, IHl. lia.
      * apply ed_elem, IHe. lia.
    + inversion 1 as [| | |? ? m P|? ? m P]; subst; [lia|apply IHe in P; lia|apply IHl in P; lia].
Qed.

End Hash.

Section Clone.
Context (tclone : TT -> TT) (xclone : ET -> ET).

Theorem C51_clone_depth (d : datum TT ET) n : n <= box_clone_depth tclone xclone d <-> edges d n.
Proof.
  set (th := fun _ : TT => @nil hash_word). set (xh := fun _ : ET => @nil hash_word). rewrite <- (C51_hash_depth th xh). unfold box_clone_depth, datum_hash_depth.
  enough (snd (box_clone_run tclone xclone d) = snd (datum_hash_run th xh d)) as -> by reflexivity.
  induction d as [t|o IHo r IHr| |e IHe l IHl| |x]; cbn [datum_hash_run box_clone_run]; try reflexivity.
  - destruct (datum_hash_run th xh o), (datum_hash_run th xh r), (box_clone_run tclone xclone o), (box_clone_run tclone xclone r).
    cbn [snd] in *. subst. reflexivity.
  - destruct (datum_hash_run th xh e), (datum_hash_run th xh l), (box_clone_run tclone xclone e), (box_clone_run tclone xclone l).
    cbn [snd] in *. subst. reflexivity.
Qed.

(** The copy is [==] to what was copied, if texts and extras are to their copies. *)
Theorem C51_clone_equal (teq : TT -> TT -> bool) (xeq : ET -> ET -> bool) (d : datum TT ET) :
  (forall t, teq t (tclone t) = true) -> (forall x, xeq x (xclone x) = true) ->
  datum_eq teq xeq d (box_clone tclone xclone d) = true.
Proof.
  intros HT HX. unfold datum_eq, box_clone. induction d as [t|o IHo r IHr| |e IHe l IHl| |x]; cbn [box_clone_run]; try (cbn; auto; fail).
  - destruct (box_clone_run tclone xclone o) as [a i], (box_clone_run tclone xclone r) as [b j]. cbn [fst] in *. cbn [datum_eq_run].
    destruct (datum_eq_run teq xeq r b) as [u v]. cbn [fst] in *. subst. destruct (datum_eq_run teq xeq o a) as [u' v']. exact IHo.
  - destruct (box_clone_run tclone xclone e) as [a i], (box_clone_run tclone xclone l) as [b j]. cbn [fst] in *. cbn [datum_eq_run].
    destruct (datum_eq_run teq xeq e a) as [u v]. cbn [fst] in *. subst. destruct (datum_eq_run teq xeq l b) as [u' v']. exact IHl.
Qed.
End Clone.
End Depth.

(** ** What a parser can come across *)

(** "{{f{}{}...{}}}": a nest with [n] empty nests side by side as the operator. *)
Definition flat (n : nat) : str := lit "{{f" ++ List.concat (repeat (lit "{}") n) ++ lit "}}".

Section Flat.
Context {Pos : Type}.
Lemma map_split {A B} (f : A -> B) (l : list A) u v : map f l = u ++ v -> exists a b, l = a ++ b /\ map f a = u /\ map f b = v.
Proof. intros E. apply map_eq_app in E. destruct E as (a & b & -> & <- & <-). eauto. Qed.

Lemma empties_forms {W ET CE} (bnd : bindings W (list (item Pos)) ET Pos CE) w n :
  forall s, map it_ch s = List.concat (repeat (lit "{}") n) ->
  exists b, forms default_classifier bnd false false w s (repeat DEmptyNest n) w b.
Proof.
  induction n as [|n IH]; intros s E.
  - destruct s; [|discriminate]. exists false. apply f_nil.
  - cbn [repeat List.concat] in E. destruct (map_split _ _ _ _ E) as (a & b & -> & Ea & Eb). destruct (IH _ Eb) as (b' & F).
    destruct a as [|x [|y [|z a]]]; try discriminate Ea. injection Ea as Ex Ey. exists b'. cbn [repeat].
    eapply f_nest with (s := [x; y]); [|exact F]. apply n_empty with (l := []); [|apply l_nil|].
    + unfold starts. rewrite Ex. reflexivity.
    + unfold ends. rewrite Ey. reflexivity.
Qed.
Lemma flat_input {W ET CE} (bnd : bindings W (list (item Pos)) ET Pos CE) w n s : map it_ch s = flat n ->
  (forall x, map it_ch [x] = lit "f" -> bnd (DText [x]) = None /\ bnd (DComb (DText [x]) (list_datum (repeat DEmptyNest n))) = None) ->
  exists x, input default_classifier bnd w s [DComb (DComb (DText [x]) (list_datum (repeat DEmptyNest n))) DEmptyList] w.
Proof.
  intros E HB. unfold flat in E. destruct (map_split _ _ _ _ E) as (a & b & -> & Ea & Eb). clear E.
  destruct (map_split _ _ _ _ Eb) as (c & d & -> & Ec & Ed). clear Eb.
  destruct a as [|s1 [|s2 [|x [|]]]]; try discriminate Ea. injection Ea as E1 E2 E3.
  destruct d as [|e1 [|e2 [|]]]; try discriminate Ed. injection Ed as E4 E5.
  destruct (HB x) as [B1 B2]; [cbn [map]; rewrite E3; reflexivity|]. destruct (empties_forms bnd w n c Ec) as (b' & F).
  assert (DL : list_datum (repeat (DEmptyNest (TT := list (item Pos)) (ET := ET)) n) = dlist (repeat DEmptyNest n)).
  { generalize (repeat (DEmptyNest (TT := list (item Pos)) (ET := ET)) n) as l. induction l as [|d l IH]; cbn; [reflexivity|]. rewrite IH. reflexivity. }
  exists x, false. replace ([s1; s2; x] ++ c ++ [e1; e2]) with ((s1 :: [] ++ (s2 :: [] ++ [x] ++ [] ++ c ++ [e1]) ++ [] ++ [] ++ [e2]) ++ []).
  2:{ cbn [app]. rewrite app_nil_r. rewrite <- !app_assoc. reflexivity. }
  eapply f_nest; [|apply f_nil]. change DEmptyList with (dlist (Pos := Pos) (ET := ET) []).
  apply n_unbound with (w1 := w) (is_text := false) (w2 := w) (b' := false) (ds := []).
  - unfold starts. rewrite E1. reflexivity.
  - apply l_nil.
  - apply h_nest. rewrite DL. apply n_unbound with (w1 := w) (is_text := true) (w2 := w) (b' := b').
    + unfold starts. rewrite E2. reflexivity.
    + apply l_nil.
    + apply h_text; [discriminate|]. apply raw_plain; [rewrite E3; reflexivity| |apply raw_nil]. unfold escapes. rewrite E3. discriminate.
    + exact B1.
    + right. split; [reflexivity|]. destruct n as [|n]; [destruct c; [exact I|discriminate]|]. destruct c as [|y c]; [exact I|].
      unfold starts. cbn in Ec. injection Ec as Ey _. rewrite Ey. reflexivity.
    + exact F.
    + unfold ends. rewrite E4. reflexivity.
  - rewrite DL in B2 |- *. exact B2.
  - right. split; [reflexivity|exact I].
  - apply f_nil.
  - unfold ends. rewrite E5. reflexivity.
Qed.

Lemma flat_nesting (s : list (item Pos)) n : map it_ch s = flat n -> nesting default_classifier s <= 3.
Proof.
  intros E. unfold flat in E. destruct (map_split _ _ _ _ E) as (a & b & -> & Ea & Eb). clear E.
  destruct a as [|s1 [|s2 [|x [|]]]]; try discriminate Ea. injection Ea as E1 E2 E3. unfold nesting. cbn [app deepest].
  rewrite E1, E2, E3. cbn -[deepest].
  assert (G : forall n (b : list (item Pos)), map it_ch b = List.concat (repeat (lit "{}") n) ++ lit "}}" ->
    deepest default_classifier false 2 b <= 3).
  { clear. induction n as [|n IH]; intros b E.
    - destruct b as [|e1 [|e2 [|]]]; try discriminate E. injection E as E1 E2. cbn [deepest]. rewrite E1, E2. cbn. lia.
    - cbn [repeat List.concat] in E. destruct b as [|x [|y b]]; try discriminate E. injection E as E1 E2 E3. cbn [deepest]. rewrite E1, E2. cbn -[deepest].
      specialize (IH b E3). destruct (deepest default_classifier false 2 b) as [|[|[|]]]; lia. }
  exact (G n b Eb).
Qed.
End Flat.

Lemma flat_edges {TT ET} (d : datum TT ET) n : edges (DComb d (list_datum (repeat DEmptyNest n))) (n + 1).
Proof. rewrite Nat.add_1_r. apply ed_operands. induction n as [|n IH]; cbn; [apply ed_here|]. apply ed_next. exact IH. Qed.

(** For every number there is a source whose delimiters are nested at most three deep, so that
    the parser itself needs at most twelve stack frames (C42), in which it
    comes across an operator with a hash that recurses deeper than that number; it is hashed
    when it is looked up in a hash map with other operators.  (Comparing it with [==] does
    not recurse deeper than two.) *)
Section Lookup.
Context {W ET CE : Type} (ET_eq : ET -> ET -> bool) (ET_hash : ET -> list hash_word)
        (hasher : list hash_word -> N) (XH : forall a b, ET_eq a b = true -> ET_hash a = ET_hash b).
Local Notation im_ops := (im_ops (W:=W)).

Theorem C51_lookup n m am (w : W) : str_bindings m am -> (N_len (flat n) <= usize_max)%N ->
  (forall x, map it_ch [x] = lit "f" -> abs_lookup ET_eq am (DText [x]) = None /\
     abs_lookup ET_eq am (DComb (DText [x]) (list_datum (repeat DEmptyNest n))) = None) ->
  nesting default_classifier (str_source (flat n)) <= 3 /\
  exists rtr st, parse_str_with (CE:=CE) ET_eq ET_hash hasher (flat n) m w = (Ok [inl (DComb rtr DEmptyList)], Some st) /\
    (forall thash, n < datum_hash_depth thash ET_hash rtr) /\
    (forall (teq : im_text -> im_text -> bool) rtr', datum_eq_depth teq ET_eq rtr rtr' <= 2).
Proof.
  intros HB HN HF.
  assert (HS : map it_ch (str_source (flat n)) = flat n) by apply str_source_ch.
  split; [exact (flat_nesting _ _ HS)|].
  destruct (flat_input (abs_lookup ET_eq am) w n _ HS HF) as (x & HI).
  destruct (C04_parse_str ET_eq ET_hash hasher XH (flat n) m am w _ _ HB HN HI) as (ds & st & E & HR & _).
  inversion HR as [|d ? ds' ? Hd Hn]; subst. inversion Hn; subst. clear HR Hn.
  destruct d as [|rtr rnds| | | |]; try contradiction Hd. destruct Hd as [H1 H2]. destruct rnds; try contradiction H2. clear H2.
  destruct rtr as [|t l| | | |]; try contradiction H1. destruct H1 as [H1 H2]. destruct t as [t| | | | |]; try contradiction H1. clear H1.
  assert (l = list_datum (repeat DEmptyNest n)) as ->.
  { clear - H2. revert l H2. induction n as [|n IH]; intros l H2; destruct l; cbn in H2; try contradiction; [reflexivity|].
    destruct H2 as [H1 H2]. cbn. f_equal; [|apply IH; exact H2]. destruct l1; cbn in H1; try contradiction; reflexivity. }
  exists (DComb (DText t) (list_datum (repeat DEmptyNest n))), st. split; [exact E|]. split.
  - intros thash. assert (n + 1 <= datum_hash_depth thash ET_hash (DComb (DText t) (list_datum (repeat DEmptyNest n)))).
    { apply (proj2 (C51_hash_depth thash ET_hash _ _)). apply flat_edges. } lia.
  - intros teq rtr'. apply (C25_operators teq ET_eq 1 (DText t) (repeat DEmptyNest n) rtr' I).
    clear. induction n; cbn; constructor; [exact I|assumption].
Qed.
End Lookup.

Print Assumptions C51_same_hash.
Print Assumptions C51_hash_depth.
Print Assumptions C51_clone_depth.
Print Assumptions C51_clone_equal.
Print Assumptions C51_lookup.

(** * Cases *)

(** The source with five nests; the bindings are those of the other examples, none of
    which is for its operators. *)
Example C51_case : str_bindings im_map abs_map /\
  (forall x, map it_ch [x] = lit "f" -> abs_lookup num_eq abs_map (DText [x]) = None /\
     abs_lookup num_eq abs_map (DComb (DText [x]) (list_datum (repeat DEmptyNest 5))) = None) /\
  flat 5 = lit "{{f{}{}{}{}{}}}" /\
  match fst (parse_str_with num_eq num_hash sum_hasher (flat 5) im_map 0%N) with
  | Ok [inl (DComb rtr DEmptyList)] => datum_hash_depth (fun _ => []) num_hash rtr = 6 /\ box_clone_depth (fun t => t) (fun x => x) rtr = 6 /\
      datum_eq_depth (fun _ _ => true) num_eq rtr rtr = 2
  | _ => False
  end.
Proof.
  split; [exact abs_map_related|]. split; [intros [c p] [= ->]; split; reflexivity|]. split; [reflexivity|]. vm_compute. auto.
Qed.
