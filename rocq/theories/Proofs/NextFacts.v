(** Consecutive calls of [next]: determinism, relation to whole iterations, and
    transfer between lawful configurations and the abstract parser. *)
From Coq Require Import List NArith Arith Bool Lia.
From Verif.Model Require Import Prelude Parser Iter.
From Verif.Spec Require Import Contract Grammar Balance AbsStream Lawful Run.
From Verif.Proofs Require Import Wp Safety FuelMono Sim Refine AbsParse AbsIter Complete Transfer RunFacts.
Import ListNotations.
Set Implicit Arguments.
Local Notation N_len r := (N.of_nat (length r)).

Section Nexts.
Context {S A TT ET Pos CE : Type}.
Context (umax : N) (cc : classifier) (so : stream_ops S A TT Pos) (co : concat_ops A TT)
        (ao : alloc_ops A TT ET) (bnd : bindings A TT ET Pos CE).
Local Notation i_next := (iter_next umax cc so co ao bnd).
Local Notation collect := (iter_collect umax cc so co ao bnd).
Local Notation nexts := (nexts umax cc so co ao bnd).
Local Notation iterates := (iterates umax cc so co ao bnd).
Local Notation item_ := (datum TT ET + error Pos CE)%type.

Lemma i_next_det f1 f2 st o1 st1 o2 st2 :
  i_next f1 st = (Ok o1, st1) -> i_next f2 st = (Ok o2, st2) -> o1 = o2 /\ st1 = st2.
Proof.
  intros E1 E2. destruct (Nat.le_ge_cases f1 f2) as [L|L].
  - pose proof (iter_next_fuel umax cc so co ao bnd st L) as G. rewrite E1, E2 in G.
    specialize (G ltac:(discriminate)). injection G as -> ->. auto.
  - pose proof (iter_next_fuel umax cc so co ao bnd st L) as G. rewrite E1, E2 in G.
    specialize (G ltac:(discriminate)). injection G as -> ->. auto.
Qed.

Lemma nexts_det st os st1 os' st2 : nexts st os st1 -> nexts st os' st2 -> length os = length os' -> os = os' /\ st1 = st2.
Proof.
  intros H. revert os' st2. induction H as [st|f st o st1 os st2 E H IH]; intros os' st3 H' L.
  - destruct os'; [|discriminate]. inversion H'; subst. auto.
  - inversion H' as [|f' ? o' st1' os'' ? E' H'']; subst; [discriminate|].
    destruct (i_next_det _ _ _ E E') as [-> ->]. injection L as L.
    destruct (IH _ _ H'' L) as [-> ->]. auto.
Qed.

Lemma nexts_app st l1 st1 l2 st2 : nexts st l1 st1 -> nexts st1 l2 st2 -> nexts st (l1 ++ l2) st2.
Proof. induction 1; cbn; auto. intros H'. econstructor; eauto. Qed.

Lemma nexts_app_inv l1 : forall st l2 st2, nexts st (l1 ++ l2) st2 -> exists st1, nexts st l1 st1 /\ nexts st1 l2 st2.
Proof.
  induction l1 as [|o l1 IH]; intros st l2 st2 H.
  - exists st. split; [constructor|exact H].
  - inversion H as [|f ? ? st1 ? ? E H']; subst. destruct (IH _ _ _ H') as (st3 & H1 & H2).
    exists st3. split; [econstructor; eauto|exact H2].
Qed.

(** One fuel for all calls. *)
Lemma iterates_cons f st (x : item_) st1 l st2 : i_next f st = (Ok (Some x), st1) ->
  iterates st1 l st2 -> iterates st (x :: l) st2.
Proof.
  intros E (n & f' & H). exists (Datatypes.S n), (Nat.max f f'). cbn [iter_collect].
  rewrite (iter_next_fuel umax cc so co ao bnd st (Nat.le_max_l f f')) by (rewrite E; discriminate).
  rewrite E. rewrite (collect_mono umax cc so co ao bnd (n:=n) (n':=n) (f:=f') (f':=Nat.max f f') st1 (le_n n) (Nat.le_max_r f f') H).
  reflexivity.
Qed.

Lemma iterates_nexts (items : list item_) : forall st st', iterates st items st' <-> nexts st (map Some items ++ [None]) st'.
Proof.
  induction items as [|x l IH]; intros st st'.
  - split.
    + intros (n & f & E). destruct n as [|n]; [discriminate|]. cbn [iter_collect] in E.
      destruct (i_next f st) as [[[y|]|[]| |] s1] eqn:En; try discriminate.
      * destruct (collect n f s1) as [[r|[]| |] s2]; discriminate.
      * injection E as <-. econstructor; [exact En|constructor].
    + intros H. inversion H as [|f ? ? st1 ? ? E H']; subst. inversion H'; subst.
      exists 1, f. cbn [iter_collect]. rewrite E. reflexivity.
  - split.
    + intros (n & f & E). destruct n as [|n]; [discriminate|]. cbn [iter_collect] in E.
      destruct (i_next f st) as [[[y|]|[]| |] s1] eqn:En; try discriminate.
      destruct (collect n f s1) as [[r|[]| |] s2] eqn:Ec; try discriminate.
      injection E as -> -> ->. cbn. econstructor; [exact En|]. apply IH. exists n, f. exact Ec.
    + intros H. cbn in H. inversion H as [|f ? ? st1 ? ? E H']; subst.
      eapply iterates_cons; [exact E|]. apply IH. exact H'.
Qed.

Lemma iterates_app st l1 st1 l2 st2 : nexts st (map Some l1) st1 -> iterates st1 l2 st2 -> iterates st (l1 ++ l2) st2.
Proof.
  intros H1 H2. rewrite iterates_nexts in *. rewrite map_app, <- app_assoc. eapply nexts_app; eauto.
Qed.

Lemma iterates_app_inv st l1 l2 st2 : iterates st (l1 ++ l2) st2 ->
  exists st1, nexts st (map Some l1) st1 /\ iterates st1 l2 st2.
Proof.
  rewrite iterates_nexts, map_app, <- app_assoc. intros H.
  destruct (nexts_app_inv _ _ H) as (st1 & H1 & H2). exists st1. split; [exact H1|]. apply iterates_nexts. exact H2.
Qed.
End Nexts.

Section Lawful.
Context {S A TT ET Pos CE W AE AC : Type}.
Context (umax : N) (cc : classifier) (so : stream_ops S A TT Pos) (co : concat_ops A TT)
        (ao : alloc_ops A TT ET) (bnd : bindings A TT ET Pos CE).
Local Notation text := (list (item Pos)).
Context (view : A -> W) (abnd : bindings W text AE Pos AC).
Context (Rs : S -> text -> text -> Prop) (Rt : TT -> text -> Prop)
        (Rx : ET -> AE -> Prop) (Rc : CE -> AC -> Prop).
Local Notation Ri := (pitem_rel Rt Rx (@eq Pos) Rc).
Local Notation nexts := (nexts umax cc so co ao bnd).
Local Notation anexts := (Run.nexts umax cc (@abs_stream W Pos) abs_concat abs_alloc abnd).
Local Notation strel := (st_rel (Rs_abs Rs) (Ra_view view)).
Context (LW : lawful False view so co ao bnd abnd Rs Rt Rx Rc).

Lemma st_rel_ast st a : strel st a -> exists s p d w, a = ast s p d w /\ Rs (ps_strm st) s p /\ ps_depth st = d /\ view (ps_alloc st) = w.
Proof.
  destruct a as [[s p] d w]. intros (H1 & H2 & H3). exists s, p, d, w. unfold Rs_abs, Ra_view in *. cbn in *. auto.
Qed.

Lemma strel_starts st s w : strel st (ast s [] 0 w) <-> starts_on Rs view st s w.
Proof.
  unfold st_rel, starts_on, Rs_abs, Ra_view, ast. cbn. tauto.
Qed.

Lemma nexts_abstract st os st' : nexts st os st' -> forall a, strel st a ->
  exists aos a', anexts a aos a' /\ Forall2 (option_rel Ri) os aos /\ strel st' a'.
Proof.
  induction 1 as [st|f st o st1 os st2 E H IH]; intros a Ha.
  - exists [], a. split; [constructor|]. split; [constructor|exact Ha].
  - destruct (st_rel_ast Ha) as (s & p & d & w & -> & H1 & H2 & H3).
    pose proof (lw_next umax cc LW f st _ _ H1 H2 H3) as G. unfold next_rel in G. rewrite E in G. cbn in G.
    destruct (iter_next umax cc (@abs_stream W Pos) abs_concat abs_alloc abnd f (ast s p d w)) as [[o'|[]| |] a1] eqn:Ea;
      cbn in G; try tauto. destruct G as [[Ho Hs]|[[] _]].
    destruct (IH _ Hs) as (aos & a' & Hn & Hf & Hs'). exists (o' :: aos), a'.
    split; [econstructor; eauto|]. split; [constructor; auto|exact Hs'].
Qed.

Lemma nexts_concrete a aos a' : anexts a aos a' -> forall st, strel st a ->
  exists os st', nexts st os st' /\ Forall2 (option_rel Ri) os aos /\ strel st' a'.
Proof.
  induction 1 as [a|f a o a1 os a2 E H IH]; intros st Ha.
  - exists [], st. split; [constructor|]. split; [constructor|exact Ha].
  - destruct (st_rel_ast Ha) as (s & p & d & w & -> & H1 & H2 & H3).
    pose proof (lw_next umax cc LW f st _ _ H1 H2 H3) as G. unfold next_rel in G. rewrite E in G. cbn in G.
    destruct (iter_next umax cc so co ao bnd f st) as [[o'|[]| |] st1] eqn:Ea; cbn in G; try tauto.
    destruct G as [[Ho Hs]|[[] _]].
    destruct (IH _ Hs) as (os' & st' & Hn & Hf & Hs'). exists (o' :: os'), st'.
    split; [econstructor; eauto|]. split; [constructor; auto|exact Hs'].
Qed.

(** Items. *)
Lemma options_items os (aitems : list (datum text AE + error Pos AC)) : Forall2 (option_rel Ri) os (map Some aitems) ->
  exists items, os = map Some items /\ Forall2 Ri items aitems.
Proof.
  revert os. induction aitems as [|y l IH]; cbn; intros os H.
  - inversion H; subst. exists []. split; [reflexivity|constructor].
  - inversion H as [|o ? os' ? Ho Hos]; subst. destruct o as [x|]; [|contradiction].
    destruct (IH _ Hos) as (items & -> & Hi). exists (x :: items). split; [reflexivity|constructor; auto].
Qed.
Lemma options_items' (items : list (datum TT ET + error Pos CE)) aos : Forall2 (option_rel Ri) (map Some items) aos ->
  exists aitems, aos = map Some aitems /\ Forall2 Ri items aitems.
Proof.
  revert aos. induction items as [|y l IH]; cbn; intros os H.
  - inversion H; subst. exists []. split; [reflexivity|constructor].
  - inversion H as [|? o ? os' Ho Hos]; subst. destruct o as [x|]; [|contradiction].
    destruct (IH _ Hos) as (items & -> & Hi). exists (x :: items). split; [reflexivity|constructor; auto].
Qed.
Lemma items_app_inv (items : list (datum TT ET + error Pos CE)) l1 l2 : Forall2 Ri items (l1 ++ l2) ->
  exists i1 i2, items = i1 ++ i2 /\ Forall2 Ri i1 l1 /\ Forall2 Ri i2 l2.
Proof. intros H. destruct (Forall2_app_inv_r _ _ H) as (i1 & i2 & H1 & H2 & ->). exists i1, i2. auto. Qed.
Lemma items_app_inv' i1 i2 (l : list (datum text AE + error Pos AC)) : Forall2 Ri (i1 ++ i2) l ->
  exists l1 l2, l = l1 ++ l2 /\ Forall2 Ri i1 l1 /\ Forall2 Ri i2 l2.
Proof. intros H. destruct (Forall2_app_inv_l _ _ H) as (l1 & l2 & H1 & H2 & ->). exists l1, l2. auto. Qed.

(** What a parser started on [s] does depends on [s] and the combiners' state
    only. *)
Lemma same_results st1 st2 s w items1 st1' items2 st2' : starts_on Rs view st1 s w -> starts_on Rs view st2 s w ->
  Run.iterates umax cc so co ao bnd st1 items1 st1' -> Run.iterates umax cc so co ao bnd st2 items2 st2' ->
  (exists aitems, Forall2 Ri items1 aitems /\ Forall2 Ri items2 aitems) /\ view (ps_alloc st1') = view (ps_alloc st2').
Proof.
  intros H1 H2 E1 E2. destruct (iterates_abstract LW H1 E1) as (l1 & a1 & F1 & G1 & K1).
  destruct (iterates_abstract LW H2 E2) as (l2 & a2 & F2 & G2 & K2).
  destruct (iterates_det F1 F2) as [-> ->]. split; [exists l2; auto|].
  destruct K1 as (_ & _ & K1), K2 as (_ & _ & K2). unfold Ra_view in *. congruence.
Qed.
End Lawful.
