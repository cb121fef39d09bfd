(** From a lawful configuration to the abstract instance. *)
From Coq Require Import List Arith NArith Bool Lia.
From Verif.Model Require Import Prelude Parser Iter.
From Verif.Spec Require Import Grammar Balance AbsStream Contract Lawful.
From Verif.Proofs Require Import Sim Refine AbsParse AbsIter.
Import ListNotations.
Set Implicit Arguments.

Section TakeWhile.
Context {S A TT ET Pos CE : Type}.
Context (umax : N) (cc : classifier) (so : stream_ops S A TT Pos) (co : concat_ops A TT)
        (ao : alloc_ops A TT ET) (bnd : bindings A TT ET Pos CE).

(** The items up to and including the first error. *)
Fixpoint upto_err (l : list (@parse_item TT ET Pos CE)) : list (@parse_item TT ET Pos CE) :=
  match l with
  | [] => []
  | inl d :: l' => inl d :: upto_err l'
  | inr e :: _ => [inr e]
  end.

Lemma take_while_errored n fuel st items st' :
  iter_collect umax cc so co ao bnd n fuel st = (Ok items, st') ->
  exists st'', take_while_collect umax cc so co ao bnd n fuel true st = (Ok [], st'').
Proof.
  destruct n as [|n]; cbn [iter_collect take_while_collect]; [discriminate|].
  destruct (iter_next umax cc so co ao bnd fuel st) as [[[x|]|[]| |] s1]; try discriminate; cbn; eauto.
Qed.

Lemma take_while_upto : forall n fuel st items st',
  iter_collect umax cc so co ao bnd n fuel st = (Ok items, st') ->
  exists st'', take_while_collect umax cc so co ao bnd n fuel false st = (Ok (upto_err items), st'').
Proof.
  induction n as [|n IH]; intros fuel st items st' E; cbn [iter_collect take_while_collect] in *; [discriminate|].
  destruct (iter_next umax cc so co ao bnd fuel st) as [[[x|]|[]| |] s1]; try discriminate.
  - destruct (iter_collect umax cc so co ao bnd n fuel s1) as [[l|[]| |] s2] eqn:E2; cbn in E; try discriminate.
    injection E as <- <-. destruct x as [d|e]; cbn.
    + destruct (IH _ _ _ _ E2) as (st'' & ->). cbn. eauto.
    + destruct (take_while_errored _ _ _ E2) as (st'' & ->). cbn. eauto.
  - injection E as <- <-. eauto.
Qed.

Lemma upto_err_ok ds : upto_err (map inl ds) = map inl ds.
Proof. induction ds as [|d ds IH]; cbn; [reflexivity|]. f_equal. exact IH. Qed.

Lemma upto_err_err ds e rest : upto_err (map inl ds ++ inr e :: rest) = map inl ds ++ [inr e].
Proof. induction ds as [|d ds IH]; cbn; [reflexivity|]. f_equal. exact IH. Qed.

Lemma upto_err_cases (l : list (datum TT ET + error Pos CE)) :
  (exists ds, l = map inl ds) \/ (exists ds e rest, l = map inl ds ++ inr e :: rest).
Proof.
  induction l as [|[d|e] l [(ds & ->)|(ds & e' & rest & ->)]].
  - left. exists []. reflexivity.
  - left. exists (d :: ds). reflexivity.
  - right. exists (d :: ds), e', rest. reflexivity.
  - right. exists [], e, (map inl ds). reflexivity.
  - right. exists [], e, (map inl ds ++ inr e' :: rest). reflexivity.
Qed.

Lemma upto_err_prefix (l : list (datum TT ET + error Pos CE)) : exists rest, l = upto_err l ++ rest.
Proof.
  destruct (upto_err_cases l) as [(ds & ->)|(ds & e & rest & ->)].
  - rewrite upto_err_ok. exists []. rewrite app_nil_r. reflexivity.
  - rewrite upto_err_err. exists rest. rewrite <- app_assoc. reflexivity.
Qed.
End TakeWhile.

Lemma upto_err_rel {T1 E1 P1 C1 T2 E2 P2 C2} (R : @parse_item T1 E1 P1 C1 -> @parse_item T2 E2 P2 C2 -> Prop) :
  (forall d e, ~ R (inl d) (inr e)) -> (forall d e, ~ R (inr e) (inl d)) ->
  forall l1 l2, Forall2 R l1 l2 -> Forall2 R (upto_err l1) (upto_err l2).
Proof.
  intros H1 H2 l1 l2 H. induction H as [|[d1|e1] [d2|e2] l1 l2 Hx _ IH]; cbn; auto; exfalso; firstorder.
Qed.

Section Transfer.
Context {S A TT ET Pos CE W AE AC : Type}.
Context (umax : N) (cc : classifier) (so : stream_ops S A TT Pos) (co : concat_ops A TT)
        (ao : alloc_ops A TT ET) (bnd : bindings A TT ET Pos CE).
Local Notation text := (list (item Pos)).
Context (view : A -> W) (abnd : bindings W text AE Pos AC).
Context (Rs : S -> text -> text -> Prop) (Rt : TT -> text -> Prop)
        (Rx : ET -> AE -> Prop) (Rc : CE -> AC -> Prop).
Local Notation collect := (iter_collect umax cc so co ao bnd).
Local Notation acollect := (iter_collect umax cc (@abs_stream W Pos) abs_concat abs_alloc abnd).
Local Notation Ri := (pitem_rel Rt Rx (@eq Pos) Rc).
Local Notation N_len r := (N.of_nat (length r)).

Section Sims.
Context (F : Prop) (LW : lawful F view so co ao bnd abnd Rs Rt Rx Rc).
Lemma lw_sim_stream : stream_sim so (@abs_stream W Pos) F (Rs_abs Rs) (Ra_view view) Rt eq.
Proof. apply contract_stream_sim, LW. Qed.
Lemma lw_sim_concat : concat_sim co (@abs_concat W Pos) F (Ra_view view) Rt.
Proof. apply contract_concat_sim, LW. Qed.
Lemma lw_sim_alloc : alloc_sim ao (@abs_alloc W AE Pos) F (Ra_view view) Rt Rx.
Proof. apply contract_alloc_sim; apply LW. Qed.

Lemma lw_next fuel st s p d w : Rs (ps_strm st) s p -> ps_depth st = d -> view (ps_alloc st) = w ->
  next_rel F (Rs_abs Rs) (Ra_view view) Rt Rx eq Rc (iter_next umax cc so co ao bnd fuel st)
    (iter_next umax cc (@abs_stream W Pos) abs_concat abs_alloc abnd fuel (ast s p d w)).
Proof.
  intros H D V. apply sim_iter_next; auto using lw_sim_stream, lw_sim_concat, lw_sim_alloc.
  - apply LW.
  - repeat split; auto.
Qed.

Lemma lw_prefix n fuel st s w l1 t1 l2 t2 : starts_on Rs view st s w ->
  collect n fuel st = (Ok l1, t1) -> acollect n fuel (ast s [] 0 w) = (Ok l2, t2) ->
  prefix_rel F Rt Rx eq Rc l1 l2.
Proof.
  intros (D & H & V). eapply sim_iter_prefix.
  - apply lw_sim_stream.
  - apply lw_sim_concat.
  - apply lw_sim_alloc.
  - apply LW.
  - repeat split; auto.
Qed.

Lemma lw_total n fuel st s w : starts_on Rs view st s w -> (N_len s <= umax)%N ->
  length s < n -> 3 * length s + 3 <= fuel ->
  exists items st', collect n fuel st = (Ok items, st') /\ length items <= length s /\ idle Rs st' [].
Proof.
  intros (D & H & V) Hu Hn Hf. eapply iter_collect_safe; try apply LW; eauto.
  split; [exact D|]. exists []. auto.
Qed.
End Sims.

Context (LW : lawful False view so co ao bnd abnd Rs Rt Rx Rc).

Lemma lw_coll n fuel st s w : starts_on Rs view st s w ->
  coll_rel (Rs_abs Rs) (Ra_view view) Rt Rx eq Rc (collect n fuel st) (acollect n fuel (ast s [] 0 w)).
Proof.
  intros (D & H & V). eapply sim_iter_collect.
  - exact (lw_sim_stream LW).
  - exact (lw_sim_concat LW).
  - exact (lw_sim_alloc LW).
  - exact (lw_bnd LW).
  - tauto.
  - repeat split; auto.
Qed.

(** Both runs succeed and their items correspond. *)
Lemma lw_run n fuel st s w : starts_on Rs view st s w -> (N_len s <= umax)%N ->
  length s < n -> 3 * length s + 3 <= fuel ->
  exists items st' aitems ast', collect n fuel st = (Ok items, st') /\
    acollect n fuel (ast s [] 0 w) = (Ok aitems, ast') /\ Forall2 Ri items aitems /\
    st_rel (Rs_abs Rs) (Ra_view view) st' ast'.
Proof.
  intros H Hu Hn Hf. destruct (lw_total LW H Hu Hn Hf) as (items & st' & E & _ & _).
  pose proof (lw_coll n fuel H) as G. rewrite E in G. unfold coll_rel in G. cbn in G.
  destruct (acollect n fuel (ast s [] 0 w)) as [[aitems|[]| |] ast'] eqn:Ea; try contradiction.
  exists items, st', aitems, ast'. destruct G. auto.
Qed.

Lemma items_rel_ok items (ads : list (datum text AE)) : Forall2 Ri items (map inl ads) ->
  exists ds, items = map inl ds /\ Forall2 (datum_rel Rt Rx) ds ads.
Proof.
  revert items. induction ads as [|d ads IH]; intros items H; inversion H as [|[x|e] y l l' Hx Hl]; subst; cbn in *.
  - exists []. auto.
  - destruct (IH _ Hl) as (ds & -> & G). exists (x :: ds). auto.
  - contradiction.
Qed.

Lemma items_rel_ok' (ds : list (datum TT ET)) aitems : Forall2 Ri (map inl ds) aitems ->
  exists ads, aitems = map inl ads /\ Forall2 (datum_rel Rt Rx) ds ads.
Proof.
  revert aitems. induction ds as [|d ds IH]; intros items H; inversion H as [|x [y|e] l l' Hx Hl]; subst; cbn in *.
  - exists []. auto.
  - destruct (IH _ Hl) as (ads & -> & G). exists (y :: ads). auto.
  - contradiction.
Qed.

(** Soundness and completeness for any lawful configuration. *)
Lemma lawful_sound n fuel st s w ds st' : disjoint_classes cc -> starts_on Rs view st s w ->
  collect n fuel st = (Ok (map inl ds), st') ->
  exists ads, input cc abnd w s ads (view (ps_alloc st')) /\ Forall2 (datum_rel Rt Rx) ds ads.
Proof.
  intros DC H E. pose proof (lw_coll n fuel H) as G. rewrite E in G. unfold coll_rel in G. cbn in G.
  destruct (acollect n fuel (ast s [] 0 w)) as [[aitems|[]| |] ast'] eqn:Ea; try contradiction.
  destruct G as [Hi Hst]. destruct (items_rel_ok' _ Hi) as (ads & -> & Hd).
  destruct (parses_input _ _ DC _ _ _ _ _ Ea) as (w' & -> & Hin). exists ads. split; auto.
  destruct Hst as (_ & _ & Hw). cbn in Hw. unfold Ra_view in Hw. subst. auto.
Qed.

Lemma lawful_complete n fuel st s w ads w' : disjoint_classes cc -> starts_on Rs view st s w ->
  (N_len s <= umax)%N -> length s < n -> 3 * length s + 3 <= fuel -> input cc abnd w s ads w' ->
  exists ds st', collect n fuel st = (Ok (map inl ds), st') /\ Forall2 (datum_rel Rt Rx) ds ads /\
    view (ps_alloc st') = w'.
Proof.
  intros DC H Hu Hn Hf Hin. destruct (lw_run H Hu Hn Hf) as (items & st' & aitems & ast' & E & Ea & Hi & Hst).
  rewrite (input_parses DC Hu Hin Hn Hf) in Ea. injection Ea as <- <-.
  destruct (items_rel_ok _ Hi) as (ds & -> & Hd). exists ds, st'. repeat split; auto. apply Hst.
Qed.
End Transfer.
