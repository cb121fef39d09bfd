(** Parsers over streams that panic in between: what their calls return, and what is left behind. *)
From Coq Require Import List Arith NArith Bool Lia.
From Verif.Model Require Import Prelude Parser Iter.
From Verif.Spec Require Import Contract Grammar AbsStream Interrupt.
From Verif.Proofs Require Import Sim Refine Wp Safety GrammarFacts AbsParse AbsIter Depth PanicSim CutParse.
Import ListNotations.
Set Implicit Arguments.
Local Notation any := (fun _ _ => True).

(** ** With something accumulated before *)
Section Resumed.
Context {W ET Pos CE : Type}.
Local Notation source := (list (item Pos)).
Local Notation text := (list (item Pos)).
Context (umax : N) (cc : classifier) (bnd : bindings W text ET Pos CE).
Local Notation so := (@abs_stream W Pos).
Local Notation co := (@abs_concat W Pos).
Local Notation ao := (@abs_alloc W ET Pos).
Local Notation ast := (@ast W Pos).
Local Notation loop f t := (parse_text_loop (CE:=CE) umax cc so co f Base t 0).
Local Notation p_next := (parse_next umax cc so co ao bnd).
Local Notation p_nested := (parse_nested umax cc so co ao bnd).

Lemma check_end_abs x r p d w : is_nest_end cc (it_ch x) = true ->
  check_end_char (CE:=CE) cc so d (ast (x :: r) p d w) =
  if (0 <? d)%N then (Ok tt, ast (x :: r) p d w) else (Err (UnbalancedEndChar (it_pos x)), ast r [] d w).
Proof. intros E. unfold check_end_char, bind, peek. cbn. rewrite E. cbn. destruct (0 <? d)%N; reflexivity. Qed.

Lemma text_shift q f : forall t1 p1 t2 p2 r d w, t1 ++ p1 = q ++ (t2 ++ p2) ->
  match loop f t2 (ast r p2 d w) with
  | (Ok t, s') => loop f t1 (ast r p1 d w) = (Ok (q ++ t), s')
  | (Err e, s') => loop f t1 (ast r p1 d w) = (Err e, s')
  | (Panic, _) => fst (loop f t1 (ast r p1 d w)) = Panic
  | (OutOfFuel, _) => fst (loop f t1 (ast r p1 d w)) = OutOfFuel
  end.
Proof.
  induction f as [|f IH]; intros t1 p1 t2 p2 r d w E; [reflexivity|].
  assert (DONE : forall r : source, match parse_text_done (CE:=CE) so co t2 0 (ast r p2 d w) with
    | (Ok t, s') => parse_text_done (CE:=CE) so co t1 0 (ast r p1 d w) = (Ok (q ++ t), s')
    | _ => False end).
  { intros r0. cbn. rewrite E. reflexivity. }
  cbn [parse_text_loop].
  assert (P : forall (p : text) X (k : option (item Pos) -> M X),
    bind (peek (CE:=CE) so) k (ast r p d w) = k (hd_error r) (ast r p d w)) by reflexivity.
  rewrite !P. clear P.
  destruct r as [|x r]; cbn [hd_error].
  { specialize (DONE []). destruct (parse_text_done so co t2 0 (ast [] p2 d w)) as [[] ?]; try contradiction; exact DONE. }
  change (0 =? 0)%N with true. cbn [andb is_end_char].
  destruct (is_nest_start cc (it_ch x)) eqn:E1.
  { specialize (DONE (x :: r)). destruct (parse_text_done so co t2 0 (ast (x :: r) p2 d w)) as [[] ?]; try contradiction; exact DONE. }
  destruct (is_nest_escape cc (it_ch x)).
  { pose proof (IH (t1 ++ p1) (firstn 1 r) (t2 ++ p2) (firstn 1 r) (tl r) d w) as G.
    specialize (G ltac:(rewrite E, <- !app_assoc; reflexivity)). exact G. }
  destruct (is_nest_end cc (it_ch x)) eqn:E2.
  2:{ apply (IH t1 (p1 ++ [x]) t2 (p2 ++ [x]) r d w). rewrite app_assoc, E, <- !app_assoc. reflexivity. }
  change (0 <? 0)%N with false. cbv iota.
  assert (GD : forall (p : text) X (k : N -> M X), bind (Pos:=Pos) (CE:=CE) get_depth k (ast (x :: r) p d w) = k d (ast (x :: r) p d w)) by reflexivity.
  rewrite !GD. unfold bind. rewrite !check_end_abs by exact E2. destruct (0 <? d)%N; [|reflexivity].
  specialize (DONE (x :: r)). destruct (parse_text_done so co t2 0 (ast (x :: r) p2 d w)) as [[] ?]; try contradiction; exact DONE.
Qed.

Lemma nested_pending f x r p p' d w : p_nested f (ast (x :: r) p d w) = p_nested f (ast (x :: r) p' d w) \/ f = 0.
Proof. destruct f; [right; reflexivity|left; reflexivity]. Qed.

Lemma next_unfold f : p_next (S f) Base =
  bind (ret tt) (fun _ => bind (peek so) (fun o =>
    match o with
    | None => bind get_depth (fun d => if (d =? 0)%N then ret None else raise MissingEndChar)
    | Some it =>
        if is_nest_start cc (it_ch it) then
          bind (incr_depth umax) (fun _ => bind (finally (p_nested f) decr_depth) (fun r =>
            match r with None => p_next f Base | Some d => ret (Some d) end))
        else if is_nest_end cc (it_ch it) then
          bind get_depth (fun d => bind (check_end_char cc so d) (fun _ => ret None))
        else bind (parse_text umax cc so co f Base) (fun t => ret (Some (DText t)))
    end)).
Proof. reflexivity. Qed.

Definition kept_state (r p : text) (d : N) (w : W) (s' s'' : pstate (@abs_state Pos) W) : Prop :=
  s'' = s' \/ (s' = ast r [] d w /\ s'' = ast r p d w).
Lemma next_resumed f r p d w :
  match p_next f Base (ast r [] d w) with
  | (Ok o, s') => exists s'', p_next f Base (ast r p d w) =
       (Ok match r, o with
           | x :: _, Some (DText t) => if delimiter cc (it_ch x) then o else Some (DText (p ++ t))
           | _, _ => o
           end, s'') /\ kept_state r p d w s' s''
  | (Err e, s') => exists s'', p_next f Base (ast r p d w) = (Err e, s'') /\ kept_state r p d w s' s''
  | (Panic, _) => fst (p_next f Base (ast r p d w)) = Panic
  | (OutOfFuel, _) => fst (p_next f Base (ast r p d w)) = OutOfFuel
  end.
Proof.
  destruct f as [|f]; [reflexivity|]. rewrite next_unfold.
  assert (P : forall (p : text) X (k : option (item Pos) -> M X),
    bind (ret tt) (fun _ => bind (peek (CE:=CE) so) k) (ast r p d w) = k (hd_error r) (ast r p d w)) by reflexivity.
  rewrite !P. clear P. destruct r as [|x r]; cbn [hd_error].
  { unfold bind, get_depth. cbn [ps_depth AbsParse.ast]. destruct (d =? 0)%N; cbn; eexists; (split; [reflexivity|]); right; auto. }
  cbv zeta. unfold delimiter. destruct (is_nest_start cc (it_ch x)) eqn:E1.
  { cbn [orb]. 
    assert (EQ : forall k : option (datum text ET) -> M (option (datum text ET)),
      bind (incr_depth umax) (fun _ => bind (finally (p_nested f) decr_depth) k) (ast (x :: r) p d w) =
      bind (incr_depth umax) (fun _ => bind (finally (p_nested f) decr_depth) k) (ast (x :: r) [] d w) \/
      (fst (bind (incr_depth umax) (fun _ => bind (finally (p_nested f) decr_depth) k) (ast (x :: r) p d w)) =
       fst (bind (incr_depth umax) (fun _ => bind (finally (p_nested f) decr_depth) k) (ast (x :: r) [] d w)) /\
       (fst (bind (incr_depth umax) (fun _ => bind (finally (p_nested f) decr_depth) k) (ast (x :: r) [] d w)) = Panic \/
        fst (bind (incr_depth umax) (fun _ => bind (finally (p_nested f) decr_depth) k) (ast (x :: r) [] d w)) = OutOfFuel))).
    { intros k.
      assert (IB : forall (p0 : text) X (k0 : unit -> M X), bind (Pos:=Pos) (CE:=CE) (incr_depth umax) k0 (ast (x :: r) p0 d w) =
        if (d <? umax)%N then k0 tt (ast (x :: r) p0 (d + 1) w) else (Panic, ast (x :: r) p0 d w)).
      { intros. unfold bind, incr_depth. cbn. destruct (d <? umax)%N; reflexivity. }
      rewrite !IB. destruct (d <? umax)%N; [|right; auto].
      destruct (nested_pending f x r p [] (d + 1) w) as [E| ->].
      - left. unfold bind, finally. rewrite E. reflexivity.
      - right. split; [|right]; reflexivity. }
    match goal with |- context [bind (incr_depth umax) (fun _ => bind (finally (p_nested f) decr_depth) ?k)] => specialize (EQ k) end.
    match goal with |- context [bind (incr_depth umax) ?k (ast (x :: r) [] d w)] => destruct (bind (incr_depth umax) k (ast (x :: r) [] d w)) as [o s'] end.
    destruct EQ as [EQ|(EQ & H)]; [rewrite EQ|].
    - destruct o as [o|e| |]; auto.
      + exists s'. split; [|left; reflexivity]. destruct o as [[]|]; reflexivity.
      + exists s'. split; [reflexivity|left; reflexivity].
    - cbn [fst] in EQ, H. destruct H as [H|H]; rewrite H in *; exact EQ. }
  cbn [orb]. destruct (is_nest_end cc (it_ch x)) eqn:E2.
  { assert (GD : forall (p : text) X (k : N -> M X), bind (Pos:=Pos) (CE:=CE) get_depth k (ast (x :: r) p d w) = k d (ast (x :: r) p d w)) by reflexivity.
    rewrite !GD. unfold bind. rewrite !check_end_abs by exact E2.
    destruct (0 <? d)%N; eexists; (split; [reflexivity|]); [right; auto|left; reflexivity]. }
  pose proof (text_shift p f [] p [] [] (x :: r) d w) as G. rewrite !app_nil_r in G. specialize (G eq_refl).
  unfold bind, parse_text. change (t_empty co) with (@nil (item Pos)).
  destruct (loop f [] (ast (x :: r) [] d w)) as [[t|e| |] s'].
  - rewrite G. exists s'. split; [reflexivity|left; reflexivity].
  - rewrite G. exists s'. split; [reflexivity|left; reflexivity].
  - destruct (loop f [] (ast (x :: r) p d w)) as [[]]; try discriminate. reflexivity.
  - destruct (loop f [] (ast (x :: r) p d w)) as [[]]; try discriminate. reflexivity.
Qed.

Lemma iter_resumed f r p d w :
  match iter_next umax cc so co ao bnd f (ast r [] d w) with
  | (Ok o, s') => exists s'', iter_next umax cc so co ao bnd f (ast r p d w) = (Ok (resumed cc p r o), s'') /\
       kept_state r p d w s' s''
  | (Panic, _) => fst (iter_next umax cc so co ao bnd f (ast r p d w)) = Panic
  | (OutOfFuel, _) => fst (iter_next umax cc so co ao bnd f (ast r p d w)) = OutOfFuel
  | _ => False
  end.
Proof.
  pose proof (next_resumed f r p d w) as G. unfold iter_next, do_next.
  destruct (p_next f Base (ast r [] d w)) as [[[o|]|e| |] s'].
  - destruct G as (s'' & -> & G). exists s''. split; [|exact G]. destruct r as [|x r], o; try reflexivity.
    cbn. destruct (delimiter cc (it_ch x)); reflexivity.
  - destruct G as (s'' & -> & G). exists s''. split; [|exact G]. destruct r; reflexivity.
  - destruct G as (s'' & -> & G). exists s''. split; [|exact G]. destruct r; reflexivity.
  - destruct (p_next f Base (ast r p d w)) as [[[]| | |]]; try discriminate; reflexivity.
  - destruct (p_next f Base (ast r p d w)) as [[[]| | |]]; try discriminate; reflexivity.
Qed.
End Resumed.

Lemma values_some X (u : list X) evs : values (map Some u ++ evs) = u ++ values evs.
Proof. induction u as [|x u IH]; cbn; congruence. Qed.

Section Calls.
Context {S A TT ET Pos CE W AE AC : Type}.
Local Notation text := (list (item Pos)).
Local Notation events := (list (option (item Pos))).
Context (umax : N) (cc : classifier) (so : stream_ops S A TT Pos) (co : concat_ops A TT)
        (ao : alloc_ops A TT ET) (bnd : bindings A TT ET Pos CE).
Context (view : A -> W) (abnd : bindings W text AE Pos AC).
Context (Rs : S -> events -> text -> Prop) (Rt : TT -> text -> Prop)
        (Rx : ET -> AE -> Prop) (Rc : CE -> AC -> Prop).
Context (PL : panic_lawful view so co ao bnd abnd Rs Rt Rx Rc).
Local Notation Ri := (pitem_rel Rt Rx (@eq Pos) Rc).
Local Notation i_next := (iter_next umax cc so co ao bnd).
Local Notation a_next := (iter_next umax cc (@abs_stream W Pos) (@abs_concat W Pos) (@abs_alloc W AE Pos) abnd).
Local Notation e_next := (iter_next umax cc (@ev_stream W Pos) (@abs_concat W Pos) (@abs_alloc W AE Pos) abnd).
Local Notation ast := (@ast W Pos).

(** *** The panics too *)
Definition Rs_ev (s : S) (x : @ev_state Pos) : Prop := Rs s (fst x) (snd x).
Lemma stream_ev K : stream_kept so (@ev_stream W Pos) K Rs_ev (Ra_view view) Rt eq.
Proof.
  pose proof (pl_stream PL) as C. split; unfold Rs_ev, Ra_view.
  - intros s [r p] H. cbn in H. destruct (pc_peek C _ _ _ H) as (s' & -> & H').
    unfold kept. cbn. destruct r as [|[x|] r]; cbn; auto.
    + exists None. repeat split; auto.
    + exists (Some x). repeat split; auto.
  - intros s [r p] H. cbn in H. destruct (pc_next C _ _ _ H) as (s' & -> & H').
    unfold kept. cbn. destruct r as [|[x|] r]; cbn; auto.
    + exists None. repeat split; auto.
    + exists (Some x). repeat split; auto.
  - intros s [r p] a w H V. cbn in H. destruct (pc_next_accum C _ a _ _ H) as (s' & a' & -> & V' & H').
    unfold kept, Rsa. cbn. destruct r as [|[x|] r]; cbn in *.
    + exists None. repeat split; auto; congruence.
    + exists (Some x). repeat split; auto; congruence.
    + intros _. repeat split; auto; congruence.
  - intros s [r p] a w H V. cbn in H. destruct (pc_accum_done C _ a _ _ H) as (s' & a' & t & -> & V' & T & H').
    unfold kept, Rsa. cbn. exists p. repeat split; auto; congruence.
Qed.

(** *** Only the values *)
Definition Rs_val (evs0 : events) (s : S) (x : @abs_state Pos) : Prop :=
  exists u evs, evs0 = map Some u ++ evs /\ Rs s evs (snd x) /\ fst x = values evs.
Lemma stream_val evs0 : stream_kept so (@abs_stream W Pos) False (Rs_val evs0) (Ra_view view) Rt eq.
Proof.
  pose proof (pl_stream PL) as C. split; unfold Rs_val, Ra_view.
  - intros s [r p] (u & evs & E & H & Er). cbn in *. subst r. destruct (pc_peek C _ _ _ H) as (s' & -> & H').
    unfold kept. cbn. destruct evs as [|[x|] evs]; cbn in *; [| |tauto].
    + exists None. repeat split; auto. exists u, []. auto.
    + exists (Some x). repeat split; auto. exists u, (Some x :: evs). auto.
  - intros s [r p] (u & evs & E & H & Er). cbn in *. subst r. destruct (pc_next C _ _ _ H) as (s' & -> & H').
    unfold kept. cbn. destruct evs as [|[x|] evs]; cbn in *; [| |tauto].
    + exists None. repeat split; auto. exists u, []. auto.
    + exists (Some x). repeat split; auto. exists (u ++ [x]), evs. rewrite map_app, <- app_assoc. auto.
  - intros s [r p] a w (u & evs & E & H & Er) V. cbn in *. subst r. destruct (pc_next_accum C _ a _ _ H) as (s' & a' & -> & V' & H').
    unfold kept, Rsa. cbn. destruct evs as [|[x|] evs]; cbn in *; [| |tauto].
    + exists None. repeat split; auto; [|congruence]. exists u, []. auto.
    + exists (Some x). repeat split; auto; [|congruence]. exists (u ++ [x]), evs. rewrite map_app, <- app_assoc. auto.
  - intros s [r p] a w (u & evs & E & H & Er) V. cbn in *. subst r. destruct (pc_accum_done C _ a _ _ H) as (s' & a' & t & -> & V' & T & H').
    unfold kept, Rsa. cbn. exists p. repeat split; auto; [|congruence]. exists u, evs. auto.
Qed.

Lemma concat_ev K : concat_kept co (@abs_concat W Pos) K (Ra_view view) Rt.
Proof.
  pose proof (pl_concat PL) as C. split; [apply (tc_empty C)|]. unfold Ra_view. intros t1 t1' l1 l1' a w H H' V.
  destruct (tc_concat C _ _ _ _ a H H') as [(t & a' & -> & V' & T)|([] & _)].
  unfold kept. cbn. eexists. repeat split; [exact T|congruence].
Qed.
Lemma alloc_ev K : alloc_kept ao (@abs_alloc W AE Pos) K (Ra_view view) Rt Rx.
Proof.
  split; unfold Ra_view.
  - intros d1 d2 a w H V. destruct (pl_alloc PL d1 a) as [(a' & -> & V')|([] & _)].
    unfold kept. cbn. eexists. repeat split; [exact H|congruence].
  - intros d1 d2 a w _ _. apply (pl_get_mut PL).
Qed.

Lemma calls_panic (DC : disjoint_classes cc) fuel st st' evs p0 : Rs (ps_strm st) evs p0 ->
  (ps_depth st + N.of_nat (length evs) <= umax)%N -> i_next fuel st = (Panic, st') ->
  exists s rest n p, evs = map Some s ++ None :: rest /\ Rs (ps_strm st') rest p /\
    ps_depth st' = (ps_depth st + N.of_nat n)%N /\
    cut cc abnd p0 n (view (ps_alloc st)) s (view (ps_alloc st')) p.
Proof.
  intros HR HU E.
  assert (H : st_rel Rs_ev (Ra_view view) st (est evs p0 (ps_depth st) (view (ps_alloc st)))) by (repeat split; exact HR).
  pose proof (psim_iter_next umax cc (stream_ev True) (concat_ev True) (alloc_ev True) (pl_bnd PL) fuel H) as G.
  rewrite E in G. cbn in G. destruct (G I) as (E2 & G1 & G2 & G3). clear G.
  assert (P : wp (parse_next umax cc ev_stream abs_concat abs_alloc abnd fuel Base) (next_post cc abnd Base p0 (ps_depth st) evs (view (ps_alloc st)))
    (est evs p0 (ps_depth st) (view (ps_alloc st)))).
  { apply (proj1 (parser_cut umax abnd DC fuel)); [discriminate|discriminate|exact HU]. }
  unfold wp in P. unfold iter_next, do_next in *.
  destruct (parse_next umax cc ev_stream abs_concat abs_alloc abnd fuel Base (est evs p0 (ps_depth st) (view (ps_alloc st)))) as [[[o|]|e| |] s2];
    try discriminate E2.
  cbn in P. destruct P as (u & rest & n & w' & p & -> & -> & P). cbn in G1, G2, G3.
  exists u, rest, n, p. unfold Ra_view in G3. rewrite G3. auto.
Qed.

Lemma calls_return fuel st st' evs p0 o : Rs (ps_strm st) evs p0 -> i_next fuel st = (Ok o, st') ->
  exists u evs' p p' oa w, evs = map Some u ++ evs' /\ Rs (ps_strm st') evs' p /\
    a_next fuel (ast (values evs) [] (ps_depth st) (view (ps_alloc st))) = (Ok oa, ast (values evs') p' (ps_depth st') w) /\
    view (ps_alloc st') = w /\ option_rel Ri o (resumed cc p0 (values evs) oa) /\
    (p = p' \/ u = [] /\ p = p0 /\ p' = []).
Proof.
  intros HR E.
  assert (H : st_rel (Rs_val evs) (Ra_view view) st (ast (values evs) p0 (ps_depth st) (view (ps_alloc st)))).
  { repeat split. exists [], evs. auto. }
  pose proof (psim_iter_next umax cc (stream_val evs) (concat_ev False) (alloc_ev False) (pl_bnd PL) fuel H) as G.
  rewrite E in G. cbn in G. destruct G as (ob & E2 & Ho & G1 & G2 & G3).
  pose proof (iter_resumed umax cc abnd fuel (values evs) p0 (ps_depth st) (view (ps_alloc st))) as R.
  destruct (a_next fuel (ast (values evs) p0 (ps_depth st) (view (ps_alloc st)))) as [r2 s2]. cbn in E2. subst r2. cbn [snd fst] in *.
  destruct (a_next fuel (ast (values evs) [] (ps_depth st) (view (ps_alloc st)))) as [[oa|e| |] s1]; try (destruct R; fail); try discriminate R.
  destruct R as (s3 & R & K). injection R as -> <-.
  destruct G1 as (u & evs' & Eu & G1 & G4). destruct s1 as [[r1 q1] d1 w1], s2 as [[r2 q2] d2 w2]. cbn in G1, G2, G3, G4.
  destruct K as [K|(K1 & K2)].
  - injection K as -> -> -> ->. exists u, evs', q1, q1, oa, w1. unfold AbsParse.ast. rewrite G2, <- G4. auto 10.
  - unfold AbsParse.ast in K1, K2. injection K1 as J1 J2 J3 J4. injection K2 as L1 L2 L3 L4.
    assert (Hu : u = []).
    { assert (K : length (values evs') = length (values evs)) by congruence. rewrite Eu, values_some, app_length in K.
      destruct u; [reflexivity|cbn in K; lia]. }
    exists u, evs', p0, [], oa, (view (ps_alloc st)). unfold AbsParse.ast. unfold Ra_view in G3. subst q2 q1.
    repeat split; auto; try congruence. rewrite G2, L3, J1, J3, J4, <- G4, L1. reflexivity.
Qed.

Lemma calls_fuel fuel st evs p0 : Rs (ps_strm st) evs p0 -> 3 * length (values evs) + 3 <= fuel ->
  (ps_depth st + N.of_nat (length (values evs)) <= umax)%N -> fst (i_next fuel st) <> OutOfFuel.
Proof.
  intros HR HF HU E.
  assert (H : st_rel (Rs_val evs) (Ra_view view) st (ast (values evs) p0 (ps_depth st) (view (ps_alloc st)))).
  { repeat split. exists [], evs. auto. }
  pose proof (psim_iter_next umax cc (stream_val evs) (concat_ev False) (alloc_ev False) (pl_bnd PL) fuel H) as G.
  destruct (i_next fuel st) as [r1 s1]. cbn in E. subst r1. cbn [kept fst] in G.
  pose proof (iter_resumed umax cc abnd fuel (values evs) p0 (ps_depth st) (view (ps_alloc st))) as R.
  assert (P : wp (parse_next umax cc (@abs_stream W Pos) (@abs_concat W Pos) (@abs_alloc W AE Pos) abnd fuel Base)
    (Safety.next_post cc abs_Rs Base (values evs) (ps_depth st)) (ast (values evs) [] (ps_depth st) (view (ps_alloc st)))).
  { apply (proj1 (parser_safe umax cc abnd abs_stream_contract abs_concat_contract abs_alloc_contract (length (values evs))));
      auto; [discriminate|reflexivity]. }
  unfold wp in P. unfold iter_next at 1, do_next in R.
  destruct (parse_next umax cc abs_stream abs_concat abs_alloc abnd fuel Base (ast (values evs) [] (ps_depth st) (view (ps_alloc st)))) as [[[x|]|e| |] s2];
    try (destruct P; fail); destruct R as (s3 & R & _); rewrite R in G; discriminate G.
Qed.
End Calls.
