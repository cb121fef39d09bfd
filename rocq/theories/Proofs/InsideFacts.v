(** Forms in forms, in the grammar and for the parser. *)
From Coq Require Import List NArith Arith Bool Lia.
From Verif.Model Require Import Prelude Parser Iter.
From Verif.Spec Require Import Contract AbsStream Grammar Balance Lawful Run Trace Fails Outcome Inside.
From Verif.Proofs Require Import Wp Sim Refine GrammarFacts AbsParse Complete AbsIter RunFacts NextFacts FormFacts
  PrefixFacts FormRuns FuelMono TraceFacts.
Import ListNotations.
Set Implicit Arguments.
Local Notation N_len r := (N.of_nat (length r)).

Section Inside.
Context {W ET Pos CE : Type}.
Local Notation source := (list (item Pos)).
Context (cc : classifier) (bnd : bindings W source ET Pos CE).
Context (DC : disjoint_classes cc).
Local Notation forms := (forms cc bnd).
Local Notation nest := (nest cc bnd).
Local Notation lead := (lead cc bnd).
Local Notation head := (head cc bnd).

Lemma lead_nest w l w1 x rest r w' : lead w l w1 -> nest w1 (x :: rest) r w' -> nest w (x :: l ++ rest) r w'.
Proof.
  intros Hl Hn. inversion Hn; subst.
  - rewrite app_assoc. eapply n_empty; eauto using lead_app.
  - rewrite app_assoc. eapply n_unbound; eauto using lead_app.
  - rewrite app_assoc. eapply n_applicative; eauto using lead_app.
  - rewrite app_assoc. eapply n_operative; eauto using lead_app.
Qed.

Lemma applied_nest w x l w1 h d tx w2 sp body ds w3 b y r w' :
  starts cc x -> lead w l w1 -> head w1 h d tx w2 -> sep cc tx sp body -> ends cc y ->
  forms false false w2 body ds w3 b -> applied bnd d ds w3 r w' ->
  nest w (x :: l ++ h ++ sp ++ body ++ [y]) r w'.
Proof.
  intros Hx Hl Hh Hs Hy Hf Ha. eapply nest_iff; eauto. unfold form_means. unfold applied in Ha.
  destruct (bnd d) as [[f|f]|]; [contradiction|eauto|]. destruct Ha as [-> ->]. eauto.
Qed.

Lemma inside_nest w1 s r1 w2 w S r w' : nest w1 s r1 w2 -> inside cc bnd w1 s r1 w2 w S r w' -> nest w S r w'.
Proof.
  intros Hn H. induction H.
  - exact Hn.
  - eapply lead_nest; [eassumption|]. eapply removed_operator; eauto.
  - eapply applied_nest; eauto. constructor; auto.
  - eapply n_operative; eauto; [constructor; eauto|]. apply quoted_iff; auto.
  - eapply applied_nest; eauto. eapply forms_app; [eassumption|].
    destruct o as [d0|]; cbn; [eapply f_nest|eapply f_removed]; eauto.
Qed.
End Inside.

(** What comes before an operator, whatever the rest of the source is. *)
Section Lead.
Context {W ET Pos CE : Type}.
Local Notation source := (list (item Pos)).
Context (umax : N) (cc : classifier) (bnd : bindings W source ET Pos CE).
Context (DC : disjoint_classes cc).
Local Notation so := (@abs_stream W Pos).
Local Notation co := (@abs_concat W Pos).
Local Notation ao := (@abs_alloc W ET Pos).
Local Notation p_next := (parse_next umax cc so co ao bnd).
Local Notation p_nested := (parse_nested umax cc so co ao bnd).
Local Notation lead := (lead cc bnd).
Local Notation aiterates := (iterates umax cc so co ao bnd).

Local Notation AM X := (M (S:=@abs_state Pos) (A:=W) (Pos:=Pos) (CE:=CE) X).
Lemma bind_eq {X Y} (m : AM X) (k : X -> AM Y) s x s1 : m s = (Ok x, s1) -> bind m k s = k x s1.
Proof. intros E. unfold bind. rewrite E. reflexivity. Qed.
Lemma bind_same {X Y} (m m' : AM X) (k : X -> AM Y) s s' : m s = m' s' -> bind m k s = bind m' k s'.
Proof. intros E. unfold bind. rewrite E. reflexivity. Qed.

Lemma nested_lead x l r w w1 d f0 o s1 : starts cc x -> lead w l w1 -> (d + N_len l <= umax)%N ->
  p_next f0 Operator (ast r [] d w1) = (o, s1) -> o <> OutOfFuel ->
  exists F, forall f, F <= f ->
    p_nested (Datatypes.S f) (ast (x :: l ++ r) [] d w) = p_nested (Datatypes.S f) (ast (x :: r) [] d w1).
Proof.
  intros Hx Hl Hd E Ho. pose proof (next_total_ev _ _ _ _ _ _ E Ho) as [f1 E1].
  destruct (proj1 (proj2 (proj2 (grammar_parses umax bnd DC))) _ _ _ Hl d r _ Hd
    (next_total_ev _ _ _ _ _ _ E Ho)) as [f2 E2].
  exists (f1 + f2). intros f Hf. rewrite !p_nested_step. unfold starts in Hx.
  assert (An : forall q v, next (CE:=CE) so (ast (x :: q) [] d v) = (Ok (Some x), ast q [] d v)) by reflexivity.
  rewrite !(@bind_eq _ _ _ _ _ _ _ (An _ _)). rewrite Hx.
  assert (As : forall (q : source) (v : W), Parser.assert (Pos:=Pos) (CE:=CE) true (ast q [] d v) = (Ok tt, ast q [] d v)) by reflexivity.
  rewrite !(@bind_eq _ _ _ _ _ _ _ (As _ _)).
  apply bind_same. rewrite E1, E2 by lia. reflexivity.
Qed.

Lemma next_lead x l r w w1 f0 o s1 : starts cc x -> lead w l w1 -> (N_len (x :: l) <= umax)%N ->
  p_next f0 Base (ast (x :: r) [] 0 w1) = (o, s1) -> o <> OutOfFuel ->
  ev (fun f => p_next f Base (ast (x :: l ++ r) [] 0 w)) (o, s1).
Proof.
  intros Hx Hl Hu E Ho. pose proof (next_total_ev _ _ _ _ _ _ E Ho) as [f1 E1]. cbn [length] in Hu.
  assert (Hd : exists f0 o s1, p_next f0 Operator (ast r [] 1 w1) = (o, s1) /\ o <> OutOfFuel).
  { specialize (E1 (Datatypes.S (Datatypes.S (f1 + 1))) ltac:(lia)). exists (f1 + 1).
    destruct (p_next (f1 + 1) Operator (ast r [] 1 w1)) as [o1 s2] eqn:E2. exists o1, s2. split; [reflexivity|].
    intros ->. rewrite p_next_base in E1. unfold next_body, bind at 1 in E1. cbn -[bind parse_nested N.ltb] in E1.
    unfold starts in Hx. rewrite Hx in E1. unfold bind at 1 in E1. unfold incr_depth in E1. cbn -[bind parse_nested N.ltb] in E1.
    replace (0 <? umax)%N with true in E1 by (symmetry; apply N.ltb_lt; lia).
    unfold bind at 1 in E1. unfold finally in E1.
    change (PState (x :: r, []) 1%N w1) with (ast (x :: r) [] 1 w1) in E1. rewrite p_nested_step in E1.
    unfold bind at 1 in E1. cbn -[bind parse_next parse_text parse_all nest_end N.add sep] in E1. rewrite Hx in E1.
    unfold bind at 1 in E1. cbn -[bind parse_next parse_text parse_all nest_end N.add sep] in E1.
    change (PState (r, []) 1%N w1) with (ast r [] 1 w1) in E1. unfold bind at 1 in E1. rewrite E2 in E1.
    cbn in E1. congruence. }
  destruct Hd as (f2 & o2 & s2 & E2 & Ho2).
  assert (Hl1 : (1 + N_len l <= umax)%N) by lia. destruct (nested_lead r 1%N f2 Hx Hl Hl1 E2 Ho2) as [f3 E3].
  exists (Datatypes.S (Datatypes.S (f1 + f3))). intros f Hf. rewrite <- (E1 f) by lia.
  destruct f as [|[|f]]; [lia|lia|]. rewrite !p_next_base. unfold next_body. unfold starts in Hx.
  assert (Ap : forall q v, peek (CE:=CE) so (ast (x :: q) [] 0 v) = (Ok (Some x), ast (x :: q) [] 0 v)) by reflexivity.
  rewrite !(@bind_eq _ _ _ _ _ _ _ (Ap _ _)). rewrite Hx.
  assert (Ei : forall (q : source) (v : W), incr_depth (Pos:=Pos) (CE:=CE) umax (ast q [] 0 v) = (Ok tt, ast q [] 1 v)).
  { intros q v. unfold incr_depth. cbn -[N.ltb N.add].
    replace (0 <? umax)%N with true by (symmetry; apply N.ltb_lt; lia). reflexivity. }
  rewrite !(@bind_eq _ _ _ _ _ _ _ (Ei _ _)). apply bind_same. unfold finally. rewrite E3 by lia. reflexivity.
Qed.

Lemma lead_iterates x l r w w1 items s1 : starts cc x -> lead w l w1 -> (N_len (x :: l) <= umax)%N ->
  aiterates (ast (x :: r) [] 0 w1) items s1 -> aiterates (ast (x :: l ++ r) [] 0 w) items s1.
Proof.
  intros Hx Hl Hu H. apply iterates_nexts in H. apply iterates_nexts.
  destruct items as [|i items]; cbn [map app] in *; inversion H as [|f ? ? s3 ? ? E H']; subst;
    unfold iter_next, do_next in E; destruct (p_next f Base (ast (x :: r) [] 0 w1)) as [o s4] eqn:En;
    (assert (Hr : o <> OutOfFuel) by (intros ->; discriminate));
    destruct (next_lead r f Hx Hl Hu En Hr) as [f' E'];
    (eapply nexts_cons with (fuel := f'); [|exact H']); unfold iter_next, do_next; rewrite E' by lia; exact E.
Qed.

Lemma removed_lead eof b w s w' b' : forms cc bnd eof b w s [] w' b' -> lead w s w'.
Proof.
  remember [] as ds eqn:E. intros H. revert E.
  induction H; intros E; try discriminate; [constructor|]. eapply l_removed; eauto.
Qed.
Lemma lead_cases w s w' : lead w s w' -> (s = [] /\ w' = w) \/ (exists z q, s = z :: q /\ white cc z) \/
  (exists s1 w1 s2, s = s1 ++ s2 /\ nest cc bnd w s1 (inl None) w1 /\ lead w1 s2 w').
Proof. intros H. destruct H; eauto 10. Qed.
End Lead.

Section Runs.
Context {S A TT ET Pos CE W AE AC : Type}.
Context (umax : N) (cc : classifier) (so : stream_ops S A TT Pos) (co : concat_ops A TT)
        (ao : alloc_ops A TT ET) (bnd : bindings A TT ET Pos CE).
Local Notation text := (list (item Pos)).
Context (view : A -> W) (abnd : bindings W text AE Pos AC).
Context (Rs : S -> text -> text -> Prop) (Rt : TT -> text -> Prop)
        (Rx : ET -> AE -> Prop) (Rc : CE -> AC -> Prop).
Local Notation iterates := (iterates umax cc so co ao bnd).
Local Notation outcome := (outcome umax cc so co ao bnd view Rs Rt Rx Rc).
Local Notation starts_on := (starts_on Rs view).
Context (LW : lawful False view so co ao bnd abnd Rs Rt Rx Rc) (DC : disjoint_classes cc).

Lemma inside_outcome w1 s r1 w2 w S0 r w' st rest : nest cc abnd w1 s r1 w2 ->
  inside cc abnd w1 s r1 w2 w S0 r w' -> starts_on st (S0 ++ rest) w -> (N_len S0 <= umax)%N -> outcome st r rest w'.
Proof. intros Hn Hi H Hl. eapply nest_outcome; eauto. eapply inside_nest; eauto. Qed.

(** A nest form of which nothing remains. *)
Lemma nothing_of_nest st x i y w st' : level cc i -> starts cc x -> ends cc y -> starts_on st (x :: i ++ [y]) w ->
  iterates st [] st' -> nest cc abnd w (x :: i ++ [y]) (inl None) (view (ps_alloc st')).
Proof.
  intros Hi Hx Hy H E. destruct (iterates_sound LW [] DC H E) as (ads & [b I1] & Hd). inversion Hd; subst ads.
  apply removed_lead in I1. destruct (lead_cases I1) as [(Eq & _)|[(z & q & Eq & Hz)|(s & w1 & s' & Eq & Hn & Hr)]].
  - discriminate.
  - injection Eq as <- _. destruct (dc_start DC _ Hx) as (_ & _ & Hw). unfold white in Hz. congruence.
  - assert (s = x :: i ++ [y] /\ s' = []) as [-> ->].
    { apply (nest_prefix DC _ Hn Hi Hy). rewrite app_nil_r. symmetry. exact Eq. }
    destruct (lead_cases Hr) as [(_ & ->)|[(z & q & Eq' & Hz)|(s & w2 & s' & Eq' & Hn' & _)]]; [exact Hn|discriminate|].
    destruct (nest_cons Hn') as (? & ? & -> & _). discriminate.
Qed.

Lemma lead_run st_f st1 st x fs v w st_f' items st1' :
  (N_len (x :: fs) <= umax)%N -> starts cc x ->
  starts_on st_f fs w -> iterates st_f [] st_f' ->
  starts_on st1 (x :: v) (view (ps_alloc st_f')) -> iterates st1 items st1' ->
  starts_on st (x :: fs ++ v) w ->
  exists items' st', iterates st items' st' /\ agree Rt Rx Rc items' items /\
    view (ps_alloc st') = view (ps_alloc st1').
Proof.
  intros Hl Hx Hf Ef H1 E1 H.
  destruct (iterates_sound LW [] DC Hf Ef) as (ads0 & [b2 I2] & Hd0). inversion Hd0; subst ads0.
  destruct (iterates_abs LW H1 E1) as (aitems & a' & Ea & Hi & Hs).
  pose proof (lead_iterates DC Hx (removed_lead I2) Hl Ea) as G.
  destruct (iterates_conc LW H G) as (items' & st' & E & Hi' & Hs'). exists items', st'. split; auto. split.
  - exists aitems. auto.
  - destruct Hs as (_ & _ & K1), Hs' as (_ & _ & K2). unfold Ra_view in *. congruence.
Qed.

(** The operands of an operator: those of [u], nothing of [fs], and those of [v]. *)
Lemma operands_run st_u st_f st_v u fs v ds ds' st_u' st_f' st_v' w :
  fs <> [] -> esc_after cc false u = false -> esc_after cc false v = false ->
  starts_on st_u u w -> iterates st_u (map inl ds) st_u' ->
  starts_on st_f fs (view (ps_alloc st_u')) -> iterates st_f [] st_f' ->
  starts_on st_v v (view (ps_alloc st_f')) -> iterates st_v (map inl ds') st_v' ->
  exists ads ads' b, Forall2 (datum_rel Rt Rx) ds ads /\ Forall2 (datum_rel Rt Rx) ds' ads' /\
    forms cc abnd false false w (u ++ fs ++ v) (ads ++ ads') (view (ps_alloc st_v')) b.
Proof.
  intros Hne Hu0 Hv0 Hu Eu Hf Ef Hv Ev.
  destruct (iterates_sound LW ds DC Hu Eu) as (ads & [b1 I1] & Hd).
  destruct (iterates_sound LW [] DC Hf Ef) as (ads0 & [b2 I2] & Hd0). inversion Hd0; subst ads0.
  destruct (iterates_sound LW ds' DC Hv Ev) as (ads' & [b3 I3] & Hd').
  exists ads, ads', b3. repeat split; auto.
  apply (forms_not_dangling DC) in I1; auto. apply (forms_not_dangling DC) in I3; auto.
  eapply forms_app; [exact I1|]. change ads' with ([] ++ ads').
  destruct (removed_forms I2 Hne) as [I2' _]. eapply forms_app; [apply I2'|exact I3].
Qed.
End Runs.

(** The log of calls before and after a form in a form. *)
Section Log.
Context {W ET Pos CE : Type}.
Local Notation source := (list (item Pos)).
Context (cc : classifier) (bnd : bindings W source ET Pos CE).

Lemma applied_log d ds w r w' : applied (logged bnd) d ds w r w' -> exists post, snd w' = snd w ++ post.
Proof.
  unfold applied, logged. destruct (bnd d) as [[f|f]|]; [contradiction| |].
  - destruct (f d (dlist ds) (fst w)) as [r0 w0]. intros [= _ <-]. cbn. eauto.
  - intros [_ ->]. exists []. rewrite app_nil_r. reflexivity.
Qed.
Lemma nest_log w s r w' : nest cc (logged bnd) w s r w' -> exists post, snd w' = snd w ++ post.
Proof.
  intros H. destruct r as [o|e].
  - destruct (calls_log (calls_nest H)) as (new & E & _). eauto.
  - destruct (nest_err_log H) as (new & ev & E & _). eauto.
Qed.

Lemma inside_log w1 s r1 w2 w S r w' : inside cc (logged bnd) w1 s r1 w2 w S r w' ->
  exists pre post, snd w1 = snd w ++ pre /\ snd w' = snd w2 ++ post.
Proof.
  induction 1.
  - exists [], []. rewrite !app_nil_r. auto.
  - destruct IHinside as (pre & post & E1 & E2). destruct (calls_log (calls_lead H0)) as (n & E3 & _).
    destruct (nest_log H2) as (n' & E4). exists (n ++ pre), (post ++ n').
    rewrite E1, E3, E4, E2, <- !app_assoc. auto.
  - destruct IHinside as (pre & post & E1 & E2). destruct (calls_log (calls_lead H0)) as (n & E3 & _).
    destruct (calls_log (calls_forms H3)) as (n1 & E5 & _).
    destruct (applied_log _ _ _ _ _ H5) as (n' & E4). exists (n ++ pre), (post ++ n1 ++ n').
    rewrite E1, E3, E4, E5, E2, <- !app_assoc. auto.
  - destruct IHinside as (pre & post & E1 & E2). destruct (calls_log (calls_lead H0)) as (n & E3 & _).
    destruct (logged_inv _ _ H2) as [(f0 & _ & [= ->])|(f0 & _ & ?)]; [|discriminate].
    destruct (f0 d (unescape cc false body) (fst wb)) as [r0 w0]. injection H7 as _ <-. cbn.
    exists (n ++ pre), (post ++ [OperativeCall d (unescape cc false body) r0]).
    rewrite E1, E3, E2, <- !app_assoc. auto.
  - destruct IHinside as (pre & post & E1 & E2). destruct (calls_log (calls_lead H0)) as (n & E3 & _).
    destruct (calls_log (calls_head H1)) as (n1 & E4 & _). destruct (calls_log (calls_forms H3)) as (n2 & E5 & _).
    destruct (calls_log (calls_forms H5)) as (n3 & E6 & _). destruct (applied_log _ _ _ _ _ H7) as (n' & E7).
    exists (n ++ n1 ++ n2 ++ pre), (post ++ n3 ++ n').
    rewrite E1, E5, E4, E3, E7, E6, E2, <- !app_assoc. auto.
Qed.
End Log.
