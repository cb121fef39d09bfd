(** The abstract parser when combiners panic. *)
From Coq Require Import List NArith Arith Bool Lia.
From Verif.Model Require Import Prelude Parser Iter Unwind.
From Verif.Spec Require Import Contract Grammar Balance AbsStream Trace Fails Unclosed Run Lawful Unwind.
From Verif.Proofs Require Import Wp FuelMono Sim Refine GrammarFacts AbsParse AbsIter Complete RunFacts NextFacts FormFacts PrefixFacts
  UnclosedFacts UnwindSim.
Import ListNotations.
Set Implicit Arguments.
Local Notation N_len r := (N.of_nat (length r)).

(** More fuel does not change a result. *)
Section Fuel.
Context {S A TT ET Pos CE : Type}.
Context (umax : N) (cc : classifier) (so : stream_ops S A TT Pos) (co : concat_ops A TT)
        (ao : alloc_ops A TT ET) (bnd : bindings A TT ET Pos (option CE)).

Lemma fle_unless X (m1 m2 : M (S:=S) (A:=A) (Pos:=Pos) X) fin :
  fle m1 m2 -> fle (unless_unwinding (CE:=CE) m1 fin) (unless_unwinding m2 fin).
Proof.
  intros Hm st. unfold unless_unwinding. destruct (Hm st) as [H|H].
  - destruct (m1 st) as [[| | |] ?]; cbn in H; try discriminate. left; reflexivity.
  - rewrite H. right. reflexivity.
Qed.

Ltac fle := repeat first
  [ assumption
  | solve [apply fle_refl]
  | solve [apply fle_nofuel]
  | apply fle_bind; [|intros ?]
  | apply fle_unless
  | match goal with
    | |- fle (if ?b then _ else _) _ => destruct b
    | |- fle (match ?b with _ => _ end) _ => destruct b
    | H : _ |- _ => solve [apply H]
    end ].

Lemma fle_unw fuel :
  (forall m, fle (unw_next umax cc so co ao bnd fuel m) (unw_next umax cc so co ao bnd (Datatypes.S fuel) m)) /\
  fle (unw_nested umax cc so co ao bnd fuel) (unw_nested umax cc so co ao bnd (Datatypes.S fuel)) /\
  (forall m, fle (unw_all umax cc so co ao bnd fuel m) (unw_all umax cc so co ao bnd (Datatypes.S fuel) m)).
Proof.
  induction fuel as [|f (IH1 & IH2 & IH3)].
  { repeat split; intros; apply fle_nofuel. }
  pose proof (fun m => fle_parse_text_loop (CE:=option CE) umax cc so co f m (t_empty co) 0) as IHt.
  pose proof (fle_skip_whitespace (CE:=option CE) cc so f) as IHs.
  remember (Datatypes.S f) as f' eqn:E.
  split; [|split].
  - intros m. rewrite E at 1. cbn [unw_next]. cbv zeta. unfold parse_text. fle.
  - rewrite E at 1. cbn [unw_nested]. unfold parse_text. fle.
  - intros m. rewrite E at 1. cbn [unw_all]. fle.
Qed.

Lemma unw_next_fuel f f' m st : f <= f' ->
  fst (unw_next umax cc so co ao bnd f m st) <> OutOfFuel ->
  unw_next umax cc so co ao bnd f' m st = unw_next umax cc so co ao bnd f m st.
Proof.
  intros H Hn. induction H as [|f' H IH]; [reflexivity|].
  destruct (proj1 (fle_unw f') m st) as [E|E]; congruence.
Qed.

Lemma unw_iter_next_fuel f f' st : f <= f' ->
  fst (unw_iter_next umax cc so co ao bnd f st) <> OutOfFuel ->
  unw_iter_next umax cc so co ao bnd f' st = unw_iter_next umax cc so co ao bnd f st.
Proof.
  intros H Hn. unfold unw_iter_next in *.
  rewrite (unw_next_fuel Base st H); [reflexivity|].
  destruct (unw_next umax cc so co ao bnd f Base st) as [[[]| | |] ?]; cbn in *; congruence.
Qed.

(** What is no panic of a combiner is the same with the parser. *)
Definition no_unwind {X} (o : res (error Pos (option CE)) X) : Prop :=
  match o with Err e => unwinding e = false | _ => True end.

Lemma same_ev X (m1 m2 : nat -> M (S:=S) (A:=A) (Pos:=Pos) (CE:=option CE) X) st o st1 :
  (forall f, same (m1 f) (m2 f)) -> no_unwind o ->
  ev (fun f => m2 f st) (o, st1) -> ev (fun f => m1 f st) (o, st1).
Proof.
  intros Hs Hn [f0 H]. exists f0. intros f Hf. specialize (H f Hf). destruct (Hs f st) as [E1 E2].
  rewrite H in *. cbn in *. destruct (m1 f st) as [o1 s1]. cbn in *. subst o1.
  destruct E2 as [->|((e & -> & Hu) & _)]; [reflexivity|]. cbn in Hn. congruence.
Qed.
End Fuel.

Section Unwind.
Context {W ET Pos CE : Type}.
Local Notation source := (list (item Pos)).
Local Notation text := (list (item Pos)).
Context (umax : N) (cc : classifier) (bnd : bindings W text ET Pos (option CE)).
Context (DC : disjoint_classes cc).
Local Notation forms := (forms cc bnd).
Local Notation nest := (nest cc bnd).
Local Notation lead := (lead cc bnd).
Local Notation head := (head cc bnd).
Local Notation fails := (fails cc bnd).
Local Notation fails_at := (fails_at cc bnd).
Local Notation unclosed := (unclosed cc bnd).
Local Notation so := (@abs_stream W Pos).
Local Notation co := (@abs_concat W Pos).
Local Notation ao := (@abs_alloc W ET Pos).
Local Notation p_next := (parse_next umax cc so co ao bnd).
Local Notation p_nested := (parse_nested umax cc so co ao bnd).
Local Notation p_all := (parse_all umax cc so co ao bnd).
Local Notation p_text := (parse_text (CE:=option CE) umax cc so co).
Local Notation u_next := (unw_next umax cc so co ao bnd).
Local Notation u_nested := (unw_nested umax cc so co ao bnd).
Local Notation u_all := (unw_all umax cc so co ao bnd).
Local Notation u_iter := (unw_iter_next umax cc so co ao bnd).
Local Notation unexts := (unw_nexts umax cc so co ao bnd).
Local Notation oks ds := (map (fun d => Some (inl d)) ds).
Local Notation panics := (@FailedCombiner Pos (option CE) None).

Lemma u_of_next m s o s1 : no_unwind o -> ev (fun f => p_next f m s) (o, s1) -> ev (fun f => u_next f m s) (o, s1).
Proof. intros Hn. apply (same_ev (fun f => u_next f m) (fun f => p_next f m)); auto. intros f. apply same_parser. Qed.
Lemma u_of_all s o s1 : no_unwind o -> ev (fun f => p_all f Base s) (o, s1) -> ev (fun f => u_all f Base s) (o, s1).
Proof. intros Hn. apply (same_ev (fun f => u_all f Base) (fun f => p_all f Base)); auto. intros f. apply same_parser. Qed.
Lemma u_of_nested s o s1 : no_unwind o -> ev (fun f => p_nested f s) (o, s1) -> ev (fun f => u_nested f s) (o, s1).
Proof. intros Hn. apply (same_ev (fun f => u_nested f) (fun f => p_nested f)); auto. intros f. apply same_parser. Qed.

(** In one step. *)
Definition u_body (f : nat) (m : mode) :=
  bind (peek so) (fun o => match o with
    | None => bind get_depth (fun d => if (d =? 0)%N then ret None else raise MissingEndChar)
    | Some it =>
        if is_nest_start cc (it_ch it) then
          bind (incr_depth umax) (fun _ => bind (unless_unwinding (u_nested f) decr_depth) (fun r =>
            match r with None => u_next f m | Some d => ret (Some d) end))
        else if is_nest_end cc (it_ch it) then
          bind get_depth (fun d => bind (check_end_char cc so d) (fun _ => ret None))
        else bind (p_text f m) (fun t => ret (Some (DText t)))
    end).

Lemma u_next_operator f s : u_next (S f) Operator s = bind (skip_whitespace cc so f) (fun _ => u_body f Operator) s.
Proof. reflexivity. Qed.

Lemma u_all_step f m s : u_all (S f) m s =
  bind (u_next f m) (fun it => match it with
    | Some next_it =>
        bind (new_datum ao next_it) (fun e =>
        bind (new_datum ao DEmptyList) (fun n =>
        bind (fun st => (Ok (a_get_mut ao n (ps_alloc st)), st)) (fun st_ok : bool =>
        if st_ok
        then bind (u_all f m) (fun rest => ret (DList e rest))
        else raise FailedDerefTryMut)))
    | None => ret DEmptyList
    end) s.
Proof. reflexivity. Qed.

Lemma u_nested_step f s : u_nested (S f) s =
  bind (next so) (fun start =>
  bind (assert (match start with Some it => is_nest_start cc (it_ch it) | None => false end)) (fun _ =>
  bind (u_next f Operator) (fun operator =>
  bind (peek so) (fun o =>
  bind (match o with
       | Some it => if is_whitespace cc (it_ch it)
                    then bind (next so) (fun _ => ret tt) else ret tt
       | None => ret tt
       end) (fun _ =>
  match operator with
  | Some operator => match bnd operator with
          | Some (Operative opr) =>
              bind (p_text f Operands) (fun operands =>
              bind (nest_end cc so) (fun _ => call (opr operator operands)))
          | Some (Applicative apl) =>
              bind (u_all f Base) (fun arguments =>
              bind (nest_end cc so) (fun _ => call (apl operator arguments)))
          | None =>
              bind (u_all f Base) (fun operands =>
              bind (nest_end cc so) (fun _ =>
              bind (new_datum ao operator) (fun r1 =>
              bind (new_datum ao operands) (fun r2 => ret (Some (DComb r1 r2))))))
          end
  | None => bind (nest_end cc so) (fun _ => ret (Some DEmptyNest))
  end))))) s.
Proof. reflexivity. Qed.

(** Entering a nest. *)
Lemma u_next_nest m s d w o s1 :
  (d + 1 <= umax)%N -> (exists x s', s = x :: s' /\ starts cc x) ->
  ev (fun f => u_nested f (ast s [] (d + 1) w)) (o, s1) ->
  match o with
  | Ok None => forall r' w', s1 = ast r' [] (d + 1) w' -> forall out, ev (fun f => u_next f m (ast r' [] d w')) out ->
      ev (fun f => u_body f m (ast s [] d w)) out
  | Err e => unwinding e = true -> ev (fun f => u_body f m (ast s [] d w)) (Err e, s1)
  | _ => True
  end.
Proof.
  intros Hd (x & s' & -> & Hx) [f0 H].
  assert (E : forall f, u_body f m (ast (x :: s') [] d w) =
    bind (unless_unwinding (u_nested f) decr_depth) (fun r =>
            match r with None => u_next f m | Some d => ret (Some d) end) (ast (x :: s') [] (d + 1) w)).
  { intros f. unfold u_body, bind at 1. cbn -[bind N.ltb incr_depth]. unfold starts in Hx. rewrite Hx.
    rewrite bind_incr. cbn -[bind N.ltb N.add].
    replace (d <? umax)%N with true by (symmetry; apply N.ltb_lt; lia). reflexivity. }
  destruct o as [[y|]|e| |]; auto.
  - intros r' w' -> out [f1 H1]. exists (f0 + f1). intros f Hf. rewrite E. unfold bind at 1, unless_unwinding.
    rewrite H by lia. unfold bind, decr_depth. cbn -[N.add N.sub N.ltb u_next].
    replace (0 <? d + 1)%N with true by (symmetry; apply N.ltb_lt; lia).
    replace (d + 1 - 1)%N with d by lia. apply H1. lia.
  - intros Hu. exists f0. intros f Hf. rewrite E. unfold bind at 1, unless_unwinding.
    rewrite H by lia. rewrite Hu. reflexivity.
Qed.

Lemma u_next_total_ev m s f o s' : u_next f m s = (o, s') -> o <> OutOfFuel -> ev (fun f => u_next f m s) (o, s').
Proof.
  intros E Ho. exists f. intros f' Hf'. rewrite <- E. apply unw_next_fuel; [exact Hf'|]. rewrite E. exact Ho.
Qed.

Lemma u_next_base s out : ev (fun f => u_body f Base s) out -> ev (fun f => u_next f Base s) out.
Proof. intros H. apply ev_S. exact H. Qed.

Lemma u_next_op r d w out : match r with [] => True | x :: _ => ~ white cc x end ->
  ev (fun f => u_body f Operator (ast r [] d w)) out ->
  ev (fun f => u_next f Operator (ast r [] d w)) out.
Proof.
  intros Hr H. apply ev_S. eapply ev_ext; [intros f; apply u_next_operator|].
  eapply ev_bind; [apply skip_complete; exact Hr|exact H].
Qed.

Lemma u_next_op_white x r d w out : white cc x ->
  ev (fun f => u_next f Operator (ast r [] d w)) out ->
  ev (fun f => u_next f Operator (ast (x :: r) [] d w)) out.
Proof.
  intros Hx [f0 H]. destruct (skip_ends (CE:=option CE) cc r d w) as [r1 [f1 H1]].
  exists (S (S (f0 + f1))). intros [|[|f]] Hf; try lia.
  rewrite u_next_operator. unfold bind at 1. cbn [skip_whitespace]. unfold bind at 1.
  cbn -[bind skip_whitespace u_body]. unfold white in Hx. rewrite Hx.
  unfold bind at 1. cbn -[skip_whitespace u_body].
  change (PState (r, []) d w) with (ast r [] d w).
  rewrite H1 by lia. rewrite <- (H (S (S f))) by lia.
  rewrite u_next_operator. unfold bind. rewrite H1 by lia. reflexivity.
Qed.

(** A removed nest form. *)
Lemma u_removed m s r' d w w' : m <> Operands -> (d + N_len s <= umax)%N -> nest w s (inl None) w' ->
  forall out, ev (fun f => u_next f m (ast r' [] d w')) out -> ev (fun f => u_next f m (ast (s ++ r') [] d w)) out.
Proof.
  intros Hm Hd Hn out Ho. pose proof (nest_cons Hn) as (z & s0 & Es & Hz).
  assert (0 < length s) by (subst s; cbn; lia).
  assert (B : ev (fun f => u_body f m (ast (s ++ r') [] d w)) out).
  { refine (u_next_nest (o:=Ok None) m (d) w _ _ _ r' w' eq_refl out Ho).
    - lia.
    - subst s. cbn. eauto.
    - apply u_of_nested; [exact I|]. apply (proj1 (proj2 (grammar_parses umax bnd DC)) _ _ _ _ Hn d r'). lia. }
  destruct m; [apply u_next_base; exact B| |congruence].
  apply u_next_op; [|exact B]. subst s. cbn. destruct (starts_facts DC Hz) as (_ & _ & _ & E). unfold white. congruence.
Qed.

Lemma u_lead w l w1 : lead w l w1 -> forall d r out, (d + N_len l <= umax)%N ->
  ev (fun f => u_next f Operator (ast r [] d w1)) out -> ev (fun f => u_next f Operator (ast (l ++ r) [] d w)) out.
Proof.
  induction 1 as [w|w x s w' Hx _ IH|w s w1 s' w' Hns _ IH]; intros d r out Hd H.
  - exact H.
  - cbn [length app] in *. apply u_next_op_white; auto. apply IH; auto. lia.
  - rewrite app_length in Hd. rewrite <- app_assoc.
    eapply u_removed; [discriminate|lia|exact Hns|]. apply IH; auto. lia.
Qed.

(** Data one after the other. *)
Lemma u_all_err s e s1 : ev (fun f => u_next f Base s) (Err e, s1) -> ev (fun f => u_all f Base s) (Err e, s1).
Proof.
  intros [f0 H]. apply ev_S. exists f0. intros f Hf. rewrite u_all_step. unfold bind at 1.
  rewrite H by exact Hf. reflexivity.
Qed.
Lemma u_all_some_err s d s1 e s2 :
  ev (fun f => u_next f Base s) (Ok (Some d), s1) ->
  ev (fun f => u_all f Base s1) (Err e, s2) -> ev (fun f => u_all f Base s) (Err e, s2).
Proof.
  intros [f0 H] [f1 H1]. apply ev_S. exists (f0 + f1). intros f Hf.
  rewrite u_all_step. unfold bind at 1. rewrite H by lia. unfold bind at 1 2 3. cbn -[bind unw_all].
  unfold bind. destruct s1 as [s1 dd w1]. cbn -[unw_all]. rewrite H1 by lia. reflexivity.
Qed.
Lemma u_all_same_err s s1 e s2 :
  (forall out, ev (fun f => u_next f Base s1) out -> ev (fun f => u_next f Base s) out) ->
  ev (fun f => u_all f Base s1) (Err e, s2) -> ev (fun f => u_all f Base s) (Err e, s2).
Proof.
  intros Hs [f0 H].
  assert (exists o s', ev (fun f => u_next f Base s1) (o, s')) as (o & s' & E1).
  { pose proof (H (S f0) ltac:(lia)) as E. rewrite u_all_step in E. unfold bind at 1 in E.
    destruct (u_next f0 Base s1) as [o s'] eqn:En. exists o, s'.
    apply (u_next_total_ev _ _ _ En). intros ->. discriminate. }
  pose proof (Hs _ E1) as [f2 E2]. destruct E1 as [f1 E1].
  apply ev_S. exists (f0 + f1 + f2). intros f Hf.
  rewrite <- (H (S f)) by lia. rewrite !u_all_step. unfold bind at 1. symmetry. unfold bind at 1.
  rewrite E1, E2 by lia. reflexivity.
Qed.

Definition item_of (o : res (error Pos (option CE)) (option (datum text ET))) :=
  match o with
  | Ok None => Ok None
  | Ok (Some d) => Ok (Some (inl d))
  | Err e => Ok (Some (inr e))
  | Panic => Panic
  | OutOfFuel => OutOfFuel (E:=Empty_set)
  end.
Lemma u_iter_eq f s : u_iter f s = (item_of (fst (u_next f Base s)), snd (u_next f Base s)).
Proof. unfold unw_iter_next. destruct (u_next f Base s) as [[[d|]|e| |] s1]; reflexivity. Qed.

Lemma unexts_ev s o x s1 os s2 : ev (fun f => u_next f Base s) (o, s1) -> item_of o = Ok x ->
  unexts s1 os s2 -> unexts s (x :: os) s2.
Proof.
  intros [f H] Hx Hn. apply unexts_cons with (fuel := f) (st1 := s1); [|exact Hn].
  rewrite u_iter_eq, H by lia. cbn. rewrite Hx. reflexivity.
Qed.
Lemma unexts_same s s1 o os s2 :
  (forall out, ev (fun f => u_next f Base s1) out -> ev (fun f => u_next f Base s) out) ->
  unexts s1 (o :: os) s2 -> unexts s (o :: os) s2.
Proof.
  intros Hs H. inversion H as [|f ? ? s3 ? ? E H']; subst.
  rewrite u_iter_eq in E. destruct (u_next f Base s1) as [r s4] eqn:En. cbn [fst snd] in E. injection E as E <-.
  assert (Hr : r <> OutOfFuel) by (intros ->; discriminate).
  eapply unexts_ev; [apply Hs, (u_next_total_ev _ _ _ En Hr)|exact E|exact H'].
Qed.
Lemma unexts_app s xs s1 ys s2 : unexts s xs s1 -> unexts s1 ys s2 -> unexts s (xs ++ ys) s2.
Proof. induction 1; [auto|]. cbn. intros. econstructor; eauto. Qed.

Lemma u_forms b w s ds w' b' : forms false b w s ds w' b' ->
  forall d r', (d + N_len s <= umax)%N -> (b' = true -> text_stop cc Base d r') ->
  (b = true -> text_stop cc Base d (s ++ r')) /\
  (forall e s1, ev (fun f => u_all f Base (ast r' [] d w')) (Err e, s1) ->
     ev (fun f => u_all f Base (ast (s ++ r') [] d w)) (Err e, s1)) /\
  (forall o os s1, unexts (ast r' [] d w') (o :: os) s1 ->
     unexts (ast (s ++ r') [] d w) (oks ds ++ o :: os) s1).
Proof.
  remember false as eof eqn:Eeof. intros H. revert Eeof.
  induction H as [eof b w|eof w s t s' ds w' b' Hn Hr _ IH| |eof b w s x w1 s' ds w' b' Hns _ IH
                 |eof b w s w1 s' ds w' b' Hns _ IH]; intros Eeof d r' Hd Hb'.
  - split; [exact Hb'|]. split; auto.
  - rewrite app_length, Nat2N.inj_add in Hd.
    destruct (IH Eeof d r') as (IS & I1 & I2); [lia|auto|]. split; [discriminate|].
    rewrite <- app_assoc.
    assert (Ht : ev (fun f => u_next f Base (ast (s ++ s' ++ r') [] d w))
                    (Ok (Some (DText t)), ast (s' ++ r') [] d w)).
    { apply u_of_next; [exact I|]. apply next_base. apply body_text; auto. discriminate. }
    split.
    + intros e s1 He. eapply u_all_some_err; [exact Ht|auto].
    + intros o os s1 Ho. cbn. eapply unexts_ev; [exact Ht|reflexivity|auto].
  - discriminate.
  - rewrite app_length, Nat2N.inj_add in Hd.
    destruct (IH Eeof d r') as (_ & I1 & I2); [lia|auto|].
    pose proof (nest_cons Hns) as Hco.
    assert (0 < length s) by (destruct Hco as (? & ? & -> & _); cbn; lia).
    split.
    { intros _. destruct Hco as (z & s0 & -> & Hz). apply (starts_stop DC). exact Hz. }
    rewrite <- app_assoc.
    assert (Ht : ev (fun f => u_next f Base (ast (s ++ s' ++ r') [] d w))
                    (Ok (Some x), ast (s' ++ r') [] d w1)).
    { apply u_of_next; [exact I|]. apply next_base. apply (next_nest (umax:=umax) bnd Base d w (inl (Some x))); auto; [lia|].
      apply (proj1 (proj2 (grammar_parses umax bnd DC)) _ _ _ _ Hns d). lia. }
    split.
    + intros e s1 He. eapply u_all_some_err; [exact Ht|auto].
    + intros o os s1 Ho. cbn. eapply unexts_ev; [exact Ht|reflexivity|auto].
  - rewrite app_length, Nat2N.inj_add in Hd.
    destruct (IH Eeof d r') as (_ & I1 & I2); [lia|auto|].
    pose proof (nest_cons Hns) as Hco.
    split.
    { intros _. destruct Hco as (z & s0 & -> & Hz). apply (starts_stop DC). exact Hz. }
    rewrite <- app_assoc.
    assert (Ht : forall out, ev (fun f => u_next f Base (ast (s' ++ r') [] d w1)) out ->
      ev (fun f => u_next f Base (ast (s ++ s' ++ r') [] d w)) out).
    { intros out Ho. eapply u_removed; eauto; [discriminate|lia]. }
    split.
    + intros e s1 He. eapply u_all_same_err; [exact Ht|auto].
    + intros o os s1 Ho. specialize (I2 _ _ _ Ho). destruct ds as [|d0 ds]; cbn in *;
        (eapply unexts_same; [exact Ht|exact I2]).
Qed.

(** A panic. *)
Lemma u_nested_operator_err x r w d e s1 : starts cc x ->
  ev (fun f => u_next f Operator (ast r [] d w)) (Err e, s1) ->
  ev (fun f => u_nested f (ast (x :: r) [] d w)) (Err e, s1).
Proof.
  intros Hx [f0 Hop]. apply ev_S. exists f0. intros f Hf.
  rewrite u_nested_step. unfold bind at 1. cbn -[bind unw_next parse_text unw_all nest_end].
  unfold starts in Hx. rewrite Hx. unfold bind at 1. cbn -[bind unw_next parse_text unw_all nest_end].
  unfold bind at 1. change (PState (r, []) d w) with (ast r [] d w). rewrite Hop by lia. reflexivity.
Qed.

(** [parse_nested] behind the operator. *)
Lemma u_nested_rest x r dd sp rest w w2 d out : starts cc x ->
  ev (fun f => p_next f Operator (ast r [] d w)) (Ok (Some dd), ast (sp ++ rest) [] d w2) ->
  ((exists z, sp = [z] /\ white cc z) \/ (sp = [] /\ match rest with [] => True | z :: _ => ~ white cc z end)) ->
  ev (fun f => match bnd dd with
          | Some (Operative opr) =>
              bind (p_text f Operands) (fun operands =>
              bind (nest_end cc so) (fun _ => call (opr dd operands)))
          | Some (Applicative apl) =>
              bind (u_all f Base) (fun arguments =>
              bind (nest_end cc so) (fun _ => call (apl dd arguments)))
          | None =>
              bind (u_all f Base) (fun operands =>
              bind (nest_end cc so) (fun _ =>
              bind (new_datum ao dd) (fun r1 =>
              bind (new_datum ao operands) (fun r2 => ret (Some (DComb r1 r2))))))
          end (ast rest [] d w2)) out ->
  ev (fun f => u_nested f (ast (x :: r) [] d w)) out.
Proof.
  intros Hx Hop Hsp H. apply u_of_next in Hop; [|exact I]. destruct Hop as [f0 Hop].
  assert (Hpk : bind (peek so) (fun o => match o with
       | Some it => if is_whitespace cc (it_ch it)
                    then bind (next so) (fun _ => ret (CE:=option CE) tt) else ret tt
       | None => ret tt
       end) (ast (sp ++ rest) [] d w2) = (Ok tt, ast rest [] d w2)).
  { destruct Hsp as [(z & -> & Hz)|(-> & Hz)]; unfold bind; cbn.
    - unfold white in Hz. rewrite Hz. reflexivity.
    - destruct rest as [|z rest]; [reflexivity|]. cbn.
      unfold white in Hz. apply not_true_is_false in Hz. rewrite Hz. reflexivity. }
  unfold bind at 1 in Hpk. cbn -[bind next ret] in Hpk.
  destruct H as [f1 H]. apply ev_S. exists (f0 + f1). intros f Hf.
  rewrite u_nested_step. unfold bind at 1. cbn -[bind unw_next parse_text unw_all nest_end].
  unfold starts in Hx. rewrite Hx. unfold bind at 1. cbn -[bind unw_next parse_text unw_all nest_end].
  unfold bind at 1. change (PState (r, []) d w) with (ast r [] d w). rewrite Hop by lia.
  rewrite <- (H f) by lia.
  unfold bind at 1. cbn -[bind unw_next parse_text unw_all nest_end next ret call new_datum].
  unfold bind at 1. change (PState (sp ++ rest, []) d w2) with (ast (sp ++ rest) [] d w2) in *.
  rewrite Hpk. reflexivity.
Qed.

Lemma fails_at_cons n w s e w' : fails_at n w s e w' -> exists x s', s = x :: s' /\ starts cc x.
Proof. destruct 1; eauto. eapply nest_cons; eauto. Qed.

Lemma u_operator l w1 h dd tx w2 sp body y r w d : lead w l w1 -> head w1 h dd tx w2 -> sep cc tx sp body -> ends cc y ->
  (d + N_len (l ++ h) <= umax)%N ->
  ev (fun f => p_next f Operator (ast (l ++ h ++ sp ++ body ++ y :: r) [] d w)) (Ok (Some dd), ast (sp ++ body ++ y :: r) [] d w2) /\
  ((exists z, sp = [z] /\ white cc z) \/ (sp = [] /\ match body ++ y :: r with [] => True | z :: _ => ~ white cc z end)).
Proof.
  intros Hl Hh Hsp Hy Hd. rewrite app_length in Hd.
  destruct (grammar_parses umax bnd DC) as (_ & _ & GL & GH). split.
  - apply (GL _ _ _ Hl); [lia|]. apply (GH _ _ _ _ _ Hh); [lia|]. intros E. eapply sep_stop; eauto.
  - destruct Hsp as [Hsp|(-> & Hz)]; [left; exact Hsp|right]. split; [reflexivity|].
    destruct body as [|z body]; cbn.
    + destruct (ends_facts DC Hy) as (_ & _ & _ & E). unfold white. congruence.
    + destruct tx; [|exact Hz]. destruct (starts_facts DC Hz) as (_ & _ & _ & E). unfold white. congruence.
Qed.

Lemma u_here w s e w' : nest w s (inr e) w' -> forall d r, (d + N_len s <= umax)%N ->
  ev (fun f => u_nested f (ast (s ++ r) [] (d + 1) w)) (Err e, ast r [] (d + 1) w').
Proof.
  intros H d r Hd. destruct (grammar_parses umax bnd DC) as (GF & _).
  inversion H as [| |w0 x l w1 h dd tx w2 fn sp body ds w3 b' y o w4 Hx Hl Hh Hb Hsp Hf Hy Hc
                 |w0 x l w1 h dd tx w2 fn sp body t y o w4 Hx Hl Hh Hb Hsp Hq Hy Hc]; subst;
    cbn [length] in Hd; rewrite !app_length in Hd; cbn [length] in Hd;
    (destruct (u_operator r (d + 1) Hl Hh Hsp Hy) as [Hop Hsp']; [rewrite app_length; lia|]);
    replace ((x :: l ++ h ++ sp ++ body ++ [y]) ++ r) with (x :: l ++ h ++ sp ++ body ++ y :: r)
      by (cbn; rewrite <- !app_assoc; reflexivity);
    (eapply u_nested_rest; [exact Hx|exact Hop|exact Hsp'|]); rewrite Hb.
  - destruct (GF _ _ _ _ _ _ _ Hf (d + 1)%N (y :: r)) as (_ & I1 & _); [lia|cbn; split; [auto|lia]|discriminate|].
    eapply ev_bind; [apply u_of_all; [exact I|apply I1; lia]|]. apply ev_const. intros f. unfold bind at 1.
    rewrite nest_end_ends by exact Hy. unfold call. cbn -[N.add]. rewrite Hc. reflexivity.
  - eapply ev_bind; [apply operands_complete; eauto; lia|]. apply ev_const. intros f. unfold bind at 1.
    rewrite nest_end_ends by exact Hy. unfold call. cbn -[N.add]. rewrite Hc. reflexivity.
Qed.

Lemma u_fails_at n w s e w' : fails_at n w s e w' -> unwinding e = true -> forall d r, (d + N_len s <= umax)%N ->
  ev (fun f => u_nested f (ast (s ++ r) [] (d + 1) w)) (Err e, ast r [] (d + N.of_nat n) w').
Proof.
  intros H He.
  induction H as [w s e w' Hn|n w x l w1 s e w' Hx Hl Hf IH|n w x l w1 h dd tx w2 sp body ds w3 b s e w' Hx Hl Hh Hb Hs Hfo Hf IH];
    intros d r Hd.
  - apply u_here; auto.
  - cbn [length] in Hd. rewrite app_length in Hd. destruct (fails_at_cons Hf) as (z & s0 & Es & Hz).
    assert (0 < length s) by (subst s; cbn; lia).
    replace ((x :: l ++ s) ++ r) with (x :: l ++ s ++ r) by (cbn; rewrite <- app_assoc; reflexivity).
    apply u_nested_operator_err; [exact Hx|]. eapply u_lead; [exact Hl|lia|].
    apply u_next_op.
    + subst s. cbn. destruct (starts_facts DC Hz) as (_ & _ & _ & E). unfold white. congruence.
    + refine (u_next_nest (o:=Err e) Operator (d + 1) w1 _ _ _ He); [lia|subst s; cbn; eauto|].
      replace (d + N.of_nat (S n))%N with (d + 1 + N.of_nat n)%N by lia. apply IH; [exact He|lia].
  - cbn [length] in Hd. rewrite !app_length in Hd. destruct (fails_at_cons Hf) as (z & s0 & Es & Hz).
    assert (0 < length s) by (subst s; cbn; lia).
    replace ((x :: l ++ h ++ sp ++ body ++ s) ++ r) with (x :: l ++ h ++ sp ++ (body ++ s ++ r))
      by (cbn; rewrite <- !app_assoc; reflexivity).
    assert (Hs' : sep cc tx sp (body ++ s ++ r)).
    { destruct Hs as [Hs|(-> & Hs)]; [left; exact Hs|right]. split; [reflexivity|].
      destruct body; [|exact Hs]. subst s. exact Hs. }
    destruct (operator_found (umax:=umax) DC (d:=d + 1) Hl Hh Hs') as [Hop Hsp']; [rewrite app_length; lia|lia|].
    eapply u_nested_rest; [exact Hx|exact Hop|exact Hsp'|].
    assert (HA : ev (fun f => u_all f Base (ast (body ++ s ++ r) [] (d + 1) w2)) (Err e, ast r [] (d + N.of_nat (S n)) w')).
    { destruct (u_forms Hfo (d + 1)%N (s ++ r)) as (_ & G & _).
      - lia.
      - intros _. subst s. apply starts_stop; auto.
      - apply G. apply u_all_err. apply u_next_base.
        refine (u_next_nest (o:=Err e) Base (d + 1) w3 _ _ _ He); [lia|subst s; cbn; eauto|].
        replace (d + N.of_nat (S n))%N with (d + 1 + N.of_nat n)%N by lia. apply IH; [exact He|lia]. }
    destruct (bnd dd) as [[f2|f2]|]; [contradiction| |]; (apply (ev_bind_err (fun f => u_all f Base)); exact HA).
Qed.

(** A sequence of forms, then anything. *)
Lemma u_forms_then w u ds w1 b d r : forms false false w u ds w1 b -> (d + N_len u <= umax)%N ->
  (b = true -> text_stop cc Base d r) -> forall o os s1, unexts (ast r [] d w1) (o :: os) s1 ->
  unexts (ast (u ++ r) [] d w) (oks ds ++ o :: os) s1.
Proof. intros Hf Hu Hb. apply (u_forms Hf d r); auto. Qed.

Lemma u_panics w u ds w1 b n f w2 r d os s1 : (d + N_len (u ++ f) <= umax)%N -> forms false false w u ds w1 b ->
  fails_at n w1 f panics w2 -> unexts (ast r [] (d + N.of_nat n) w2) os s1 ->
  unexts (ast (u ++ f ++ r) [] d w) (oks ds ++ Some (inr panics) :: os) s1.
Proof.
  intros Hu Hf Hx Ho. rewrite app_length in Hu. destruct (fails_at_cons Hx) as (z & s0 & Es & Hz).
  assert (0 < length f) by (subst f; cbn; lia).
  eapply u_forms_then; [exact Hf|lia|intros _; subst f; apply starts_stop; auto|].
  eapply unexts_ev with (o := Err panics); [|reflexivity|exact Ho]. apply u_next_base.
  refine (u_next_nest (o:=Err panics) Base d w1 _ _ _ eq_refl); [lia|subst f; cbn; eauto|].
  apply (u_fails_at Hx); [reflexivity|lia].
Qed.

Lemma u_fails w u ds w1 b f e w2 r d os s1 : (d + N_len (u ++ f) <= umax)%N -> forms false false w u ds w1 b ->
  fails w1 f e w2 -> unwinding e = false -> unexts (ast r [] d w2) os s1 ->
  unexts (ast (u ++ f ++ r) [] d w) (oks ds ++ Some (inr e) :: os) s1.
Proof.
  intros Hu Hf Hx He Ho. rewrite app_length in Hu. destruct (fails_cons Hx) as (z & s0 & Es & Hz).
  assert (0 < length f) by (subst f; cbn; lia).
  eapply u_forms_then; [exact Hf|lia|intros _; subst f; apply starts_stop; auto|].
  eapply unexts_ev with (o := Err e); [|reflexivity|exact Ho]. apply u_of_next; [exact He|]. apply next_base.
  apply (next_nest (umax:=umax) bnd Base d w1 (inr e)); [lia|eauto|]. apply (fails_parse (umax:=umax) DC Hx d). lia.
Qed.

Lemma u_unmatched w u ds w1 b x r os s1 : (N_len u <= umax)%N -> forms false false w u ds w1 b -> ends cc x ->
  unexts (ast r [] 0 w1) os s1 ->
  unexts (ast (u ++ x :: r) [] 0 w)
    (oks (if b then removelast ds else ds) ++ Some (inr (UnbalancedEndChar (it_pos x))) :: os) s1.
Proof.
  intros Hu Hf Hx Ho.
  assert (G : forall u0 v t ds0, (N_len u0 <= umax)%N -> forms false false w u0 ds0 w1 false -> raw cc (delimiter cc) v t ->
    unexts (ast ((u0 ++ v) ++ x :: r) [] 0 w) (oks ds0 ++ Some (inr (UnbalancedEndChar (it_pos x))) :: os) s1).
  { intros u0 v t ds0 Hu0 Hf0 Hv. rewrite <- app_assoc.
    eapply u_forms_then; [exact Hf0|lia|discriminate|].
    eapply unexts_ev with (o := Err (UnbalancedEndChar (it_pos x))); [|reflexivity|exact Ho]. apply u_of_next; [reflexivity|]. apply next_base.
    eapply body_unmatched; eauto. }
  destruct b.
  - destruct (forms_last_text Hf eq_refl) as [(_ & H & _)|(u0 & v & t & ds0 & -> & -> & Hf0 & Hv & _)]; [discriminate|].
    rewrite removelast_last. rewrite app_length in Hu. eapply G; eauto. lia.
  - rewrite <- (app_nil_r u). eapply G; eauto. constructor.
Qed.

Lemma u_unclosed w u ds w1 b f w' d : (d + N_len (u ++ f) <= umax)%N -> forms false false w u ds w1 b ->
  unclosed w1 f w' -> exists p, forall os s1, unexts (ast [] p d w') os s1 ->
  unexts (ast (u ++ f) [] d w) (oks ds ++ Some (inr MissingEndChar) :: os) s1.
Proof.
  intros Hu Hf Hx. rewrite app_length in Hu. destruct (unclosed_cons Hx) as (z & s0 & Es & Hz).
  assert (0 < length f) by (subst f; cbn; lia).
  destruct (unclosed_parse (umax:=umax) DC Hx d) as (p & Hp); [lia|]. exists p. intros os s1 Ho.
  eapply u_forms_then; [exact Hf|lia|intros _; subst f; apply starts_stop; auto|].
  eapply unexts_ev with (o := Err MissingEndChar); [|reflexivity|exact Ho]. apply u_of_next; [reflexivity|]. apply next_base.
  apply nest_missing; [lia|eauto|exact Hp].
Qed.

(** What is given for ever. *)
Lemma u_repeat s t : (exists o, ev (fun f => u_next f Base s) (o, s) /\ item_of o = Ok t) ->
  forall m, unexts s (repeat t m) s.
Proof. intros (o & H & Ho). induction m as [|m IH]; [constructor|]. cbn. eapply unexts_ev; eauto. Qed.

Lemma u_repeat_eof p w m : unexts (ast [] p 0 w) (repeat None m) (ast [] p 0 w).
Proof. apply u_repeat. exists (Ok None). split; [|reflexivity]. apply ev_S, ev_const. reflexivity. Qed.
Lemma u_repeat_missing p d w m : (0 < d)%N ->
  unexts (ast [] p d w) (repeat (Some (inr MissingEndChar)) m) (ast [] p d w).
Proof.
  intros Hd. apply u_repeat. exists (Err MissingEndChar). split; [|reflexivity]. apply ev_S, ev_const.
  intros f. cbn -[N.eqb]. unfold bind. cbn -[N.eqb]. apply N.lt_neq, N.neq_sym, N.eqb_neq in Hd. rewrite Hd. reflexivity.
Qed.
Lemma u_repeat_end x r d w m : ends cc x -> (0 < d)%N ->
  unexts (ast (x :: r) [] d w) (repeat None m) (ast (x :: r) [] d w).
Proof.
  intros Hx Hd. apply u_repeat. exists (Ok None). split; [|reflexivity]. apply u_of_next; [exact I|].
  apply next_at_end; auto.
Qed.

Lemma u_input w s ds w' d t m : input cc bnd w s ds w' -> (d + N_len s <= umax)%N ->
  unexts (ast [] [] d w') (repeat t (S m)) (ast [] [] d w') ->
  unexts (ast s [] d w) (oks ds ++ repeat t (S m)) (ast [] [] d w').
Proof.
  intros [b H] Hu Ho. destruct (forms_true_cases H) as [Hf|(u & v & c & z & ds0 & -> & -> & Hf & Hv & Hz)].
  - rewrite <- (app_nil_r s). eapply u_forms_then; eauto. intros _. exact I.
  - rewrite app_length in Hu. rewrite map_app, <- app_assoc. cbn [map app].
    eapply u_forms_then; [exact Hf|lia|discriminate|].
    eapply unexts_ev with (o := Ok (Some (DText c))); [|reflexivity|exact Ho]. apply u_of_next; [exact I|]. apply next_base.
    apply (body_dangling umax bnd DC (m:=Base)); [discriminate|exact Hv|exact Hz].
Qed.

Lemma fails_at_length n w s e w' : fails_at n w s e w' -> n <= length s.
Proof.
  induction 1 as [w s e w' H| |]; cbn; rewrite ?app_length; try lia.
  destruct (nest_cons H) as (x & s' & -> & _). cbn. lia.
Qed.

Lemma caught_parse k w s items w' t rest : caught_run cc bnd k w s items w' t rest ->
  (N.of_nat k + N_len s <= umax)%N -> forall m,
  exists p d, unexts (ast s [] (N.of_nat k) w) (map Some items ++ repeat t (S m)) (ast rest p d w').
Proof.
  intros H Hu m. revert Hu.
  induction H as [w s ds w' Hi|k w s ds w' Hi|k w u ds w1 b f e w2 r items w' t rest Hf Hx He _ IH
    |k w u ds w1 b n f w2 r items w' t rest Hf Hx _ IH|w u ds w1 b x r items w' t rest Hf Hx _ IH
    |k w u ds w' b x r Hf Hx|w u ds w1 b s w' Hf Hx|k w u ds w1 b s w' Hf Hx]; intros Hu;
    rewrite ?map_app, ?map_map, <- ?app_assoc; cbn [map app].
  - exists [], 0%N. eapply u_input; eauto. apply u_repeat_eof.
  - exists [], (N.of_nat (S k)). eapply u_input; eauto. apply u_repeat_missing. lia.
  - rewrite !app_length in Hu. destruct IH as (p & d & IH); [lia|]. exists p, d.
    eapply u_fails; eauto; [rewrite app_length; lia|]. destruct e; try reflexivity; match goal with c : option CE |- _ => destruct c; [reflexivity|congruence] end.
  - pose proof (fails_at_length Hx). rewrite !app_length in Hu. destruct IH as (p & d & IH); [lia|]. exists p, d.
    eapply u_panics; eauto; [rewrite app_length; lia|].
    replace (N.of_nat k + N.of_nat n)%N with (N.of_nat (k + n)) by lia. exact IH.
  - rewrite !app_length in Hu. cbn [length] in Hu. destruct IH as (p & d & IH); [lia|]. exists p, d.
    cbn [N.of_nat]. eapply u_unmatched; eauto. lia.
  - rewrite app_length in Hu. exists [], (N.of_nat (S k)). cbn [repeat].
    eapply u_forms_then; [exact Hf|lia|intros _|change (None :: repeat None m) with (repeat (@None (datum text ET + error Pos (option CE))) (S m)); apply u_repeat_end; auto; lia].
    cbn. unfold delimiter. unfold ends in *. rewrite Hx, orb_true_r. split; [reflexivity|lia].
  - destruct (u_unclosed 0 Hu Hf Hx) as (p & G). exists p, 0%N. apply G, u_repeat_eof.
  - destruct (u_unclosed _ Hu Hf Hx) as (p & G). exists p, (N.of_nat (S k)). apply G, u_repeat_missing. lia.
Qed.
End Unwind.

(** Every source. *)
Section Total.
Context {W ET Pos CE : Type} (cc : classifier) (bnd : bindings W (list (item Pos)) ET Pos (option CE)).

Lemma fails_somewhere w s e w' : fails cc bnd w s e w' -> exists n, fails_at cc bnd n w s e w'.
Proof.
  induction 1 as [|w x l w1 s e w' Hx Hl _ (n & IH)|w x l w1 h d tx w2 sp body ds w3 b s e w' Hx Hl Hh Hb Hs Hf _ (n & IH)].
  - exists 1. constructor. assumption.
  - exists (S n). eapply fails_at_operator; eauto.
  - exists (S n). eapply fails_at_operand; eauto.
Qed.

Lemma fails_at_fails n w s e w' : fails_at cc bnd n w s e w' -> fails cc bnd w s e w' /\ 1 <= n.
Proof.
  induction 1 as [|n w x l w1 s e w' Hx Hl _ [IH _]|n w x l w1 h d tx w2 sp body ds w3 b s e w' Hx Hl Hh Hb Hs Hf _ [IH _]];
    (split; [|lia]).
  - constructor. assumption.
  - eapply fails_operator; eauto.
  - eapply fails_operand; eauto.
Qed.

Lemma caught_total w s items w' : run cc bnd w s items w' -> forall k, exists items' w1 t rest, caught_run cc bnd k w s items' w1 t rest.
Proof.
  induction 1 as [w s ds w' Hi|w u ds w1 b f e w2 r items w' Hf Hx _ IH|w u ds w1 b x r items w' Hf Hx _ IH
    |w u ds w1 b s w' Hf Hx]; intros k.
  - destruct k; eexists _, _, _, _; [eapply cr_all|eapply cr_all_open]; eauto.
  - assert (e = FailedCombiner None \/ e <> FailedCombiner None) as [->|He].
    { destruct e as [| | | |[|]]; (left; reflexivity) || (right; discriminate). }
    + destruct (fails_somewhere Hx) as (n & Hn). destruct (IH (k + n)) as (i & w3 & t & rest & H).
      eexists _, _, _, _. eapply cr_panics; eauto.
    + destruct (IH k) as (i & w3 & t & rest & H). eexists _, _, _, _. eapply cr_fails; eauto.
  - destruct k.
    + destruct (IH 0) as (i & w3 & t & rest & H). eexists _, _, _, _. eapply cr_unmatched; eauto.
    + eexists _, _, _, _. eapply cr_end; eauto.
  - destruct k; eexists _, _, _, _; [eapply cr_unclosed|eapply cr_unclosed_open]; eauto.
Qed.

Lemma caught_stuck k w s items w' t rest : caught_run cc bnd k w s items w' t rest ->
  0 < k \/ In (inr (FailedCombiner None)) items -> t <> None \/ rest <> [].
Proof.
  assert (NI : forall ds : list (datum (list (item Pos)) ET), ~ In (inr (@FailedCombiner Pos (option CE) None)) (map inl ds)).
  { intros ds H. apply in_map_iff in H. destruct H as (d & H & _). discriminate. }
  induction 1 as [w s ds w' Hi|k w s ds w' Hi|k w u ds w1 b f e w2 r items w' t rest Hf Hx He _ IH
    |k w u ds w1 b n f w2 r items w' t rest Hf Hx _ IH|w u ds w1 b x r items w' t rest Hf Hx _ IH
    |k w u ds w' b x r Hf Hx|w u ds w1 b s w' Hf Hx|k w u ds w1 b s w' Hf Hx]; intros H;
    try (left; discriminate); try (right; discriminate).
  - destruct H as [H|H]; [lia|apply NI in H; contradiction].
  - apply IH. destruct H as [H|H]; [auto|right]. apply in_app_or in H. destruct H as [H|[H|H]]; auto.
    + apply NI in H. contradiction.
    + exfalso. apply He. congruence.
  - apply IH. left. pose proof (fails_at_fails Hx). lia.
  - apply IH. destruct H as [H|H]; [lia|right]. apply in_app_or in H. destruct H as [H|[H|H]]; auto.
    + apply NI in H. contradiction.
    + discriminate.
  - exfalso. destruct H as [H|H]; [lia|]. apply in_app_or in H. destruct H as [H|[H|[]]]; [apply NI in H; contradiction|discriminate].
Qed.
End Total.

(** Any lawful configuration. *)
Section Concrete.
Context {S A TT ET Pos CE W AE AC : Type}.
Context (umax : N) (cc : classifier) (so : stream_ops S A TT Pos) (co : concat_ops A TT)
        (ao : alloc_ops A TT ET) (bnd : bindings A TT ET Pos (option CE)).
Local Notation text := (list (item Pos)).
Context (view : A -> W) (abnd : bindings W text AE Pos (option AC)).
Context (Rs : S -> text -> text -> Prop) (Rt : TT -> text -> Prop)
        (Rx : ET -> AE -> Prop) (Rc : option CE -> option AC -> Prop).
Context (RN : forall c1 c2, Rc c1 c2 -> (c1 = None <-> c2 = None)).
Local Notation Ri := (pitem_rel Rt Rx (@eq Pos) Rc).
Local Notation unexts := (unw_nexts umax cc so co ao bnd).
Local Notation aunexts := (unw_nexts umax cc (@abs_stream W Pos) abs_concat abs_alloc abnd).
Local Notation strel := (st_rel (Rs_abs Rs) (Ra_view view)).
Context (LW : lawful False view so co ao bnd abnd Rs Rt Rx Rc).

Lemma unexts_concrete a aos a' : aunexts a aos a' -> forall st, strel st a ->
  exists os st', unexts st os st' /\ Forall2 (option_rel Ri) os aos /\ strel st' a'.
Proof.
  induction 1 as [a|f a o a1 os a2 E H IH]; intros st Ha.
  - exists [], st. split; [constructor|]. split; [constructor|exact Ha].
  - pose proof (sim_unw_iter_next umax cc (contract_stream_sim (lw_stream LW)) (contract_concat_sim (lw_concat LW))
      (contract_alloc_sim Rt Rx (lw_alloc LW) (lw_get_mut LW)) (lw_bnd LW) RN f Ha) as G.
    unfold next_rel in G. rewrite E in G. cbn in G.
    destruct (unw_iter_next umax cc so co ao bnd f st) as [[o'|[]| |] st1] eqn:Ea; cbn in G; try tauto.
    destruct G as [[Ho Hs]|[[] _]].
    destruct (IH _ Hs) as (os' & st' & Hn & Hf & Hs'). exists (o' :: os'), st'.
    split; [econstructor; eauto|]. split; [constructor; auto|exact Hs'].
Qed.

Lemma unexts_det st os st1 : unexts st os st1 -> forall os' st2, unexts st os' st2 -> length os <= length os' ->
  os = firstn (length os) os'.
Proof.
  induction 1 as [st|f st o st1 os st2 E H IH]; intros os' st3 H' L; [reflexivity|].
  inversion H' as [|f' ? o' st1' os'' ? E' H'']; subst; cbn in L; [lia|].
  assert (Ho : o = o' /\ st1 = st1').
  { pose proof (unw_iter_next_fuel umax cc so co ao bnd st (Nat.le_max_l f f')) as E1.
    pose proof (unw_iter_next_fuel umax cc so co ao bnd st (Nat.le_max_r f f')) as E2.
    rewrite E in E1. rewrite E' in E2. rewrite E1 in E2 by discriminate. 
    specialize (E2 ltac:(discriminate)). injection E2 as -> ->. auto. }
  destruct Ho as [-> ->]. cbn. f_equal. eapply IH; eauto. lia.
Qed.
End Concrete.
