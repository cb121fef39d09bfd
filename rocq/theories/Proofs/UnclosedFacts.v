(** The parser on a source that ends inside a nest form, and on any source. *)
From Coq Require Import List NArith Arith Bool Lia.
From Verif.Model Require Import Prelude Parser Iter.
From Verif.Spec Require Import Contract Grammar Balance AbsStream Trace Fails Unclosed Run.
From Verif.Proofs Require Import Wp GrammarFacts AbsParse AbsIter FuelMono Safety Complete RunFacts NextFacts FormFacts PrefixFacts.
Import ListNotations.
Set Implicit Arguments.
Local Notation N_len r := (N.of_nat (length r)).

Section Unclosed.
Context {W ET Pos CE : Type}.
Local Notation source := (list (item Pos)).
Local Notation text := (list (item Pos)).
Context (umax : N) (cc : classifier) (bnd : bindings W text ET Pos CE).
Context (DC : disjoint_classes cc).
Local Notation forms := (forms cc bnd).
Local Notation nest := (nest cc bnd).
Local Notation lead := (lead cc bnd).
Local Notation head := (head cc bnd).
Local Notation raw := (@raw Pos cc).
Local Notation fails := (fails cc bnd).
Local Notation unclosed := (unclosed cc bnd).
Local Notation run := (run cc bnd).
Local Notation so := (@abs_stream W Pos).
Local Notation co := (@abs_concat W Pos).
Local Notation ao := (@abs_alloc W ET Pos).
Local Notation p_next := (parse_next umax cc so co ao bnd).
Local Notation p_nested := (parse_nested umax cc so co ao bnd).
Local Notation p_all := (parse_all umax cc so co ao bnd).
Local Notation p_text := (parse_text (CE:=CE) umax cc so co).
Local Notation i_next := (iter_next umax cc so co ao bnd).
Local Notation anexts := (nexts umax cc so co ao bnd).
Local Notation aiterates := (iterates umax cc so co ao bnd).
Local Notation oks ds := (map (fun d => Some (inl d)) ds).
Local Notation MEC := (@MissingEndChar Pos CE).

(** The end of the source inside a nest. *)
Lemma body_missing m d w : (0 < d)%N -> ev (fun f => next_body umax cc bnd f m (ast [] [] d w)) (Err MEC, ast [] [] d w).
Proof.
  intros Hd. apply ev_const. intros f. unfold next_body, bind. cbn -[N.eqb].
  apply N.lt_neq, N.neq_sym, N.eqb_neq in Hd. rewrite Hd. reflexivity.
Qed.
Lemma next_missing m d w : m <> Operands -> (0 < d)%N -> ev (fun f => p_next f m (ast [] [] d w)) (Err MEC, ast [] [] d w).
Proof.
  intros Hm Hd. destruct m; [|apply next_operator; [exact I|]|congruence].
  - apply next_base. apply body_missing. exact Hd.
  - apply body_missing. exact Hd.
Qed.
Lemma all_missing_end d w : (0 < d)%N -> ev (fun f => p_all f Base (ast [] [] d w)) (Err MEC, ast [] [] d w).
Proof. intros Hd. apply all_err, next_missing; [discriminate|exact Hd]. Qed.

(** Leaving a nest with an error at the end of the source. *)
Lemma nest_missing m s d w e p w' : (d + 1 <= umax)%N -> (exists x s', s = x :: s' /\ starts cc x) ->
  ev (fun f => p_nested f (ast s [] (d + 1) w)) (Err e, ast [] p (d + 1) w') ->
  ev (fun f => next_body umax cc bnd f m (ast s [] d w)) (Err e, ast [] p d w').
Proof.
  intros Hd (x & s' & -> & Hx) [f0 H]. exists f0. intros f Hf.
  unfold next_body, bind at 1. cbn -[bind N.ltb]. unfold starts in Hx. rewrite Hx.
  unfold bind at 1. unfold incr_depth. cbn -[bind N.ltb N.add].
  replace (d <? umax)%N with true by (symmetry; apply N.ltb_lt; lia).
  unfold bind at 1. unfold finally.
  change (PState (x :: s', []) (d + 1) w) with (ast (x :: s') [] (d + 1) w).
  rewrite (H f Hf). unfold bind, decr_depth. cbn -[N.add N.sub N.ltb].
  replace (0 <? d + 1)%N with true by (symmetry; apply N.ltb_lt; lia).
  replace (d + 1 - 1)%N with d by lia. reflexivity.
Qed.

(** Unparsed operands up to the end of the source. *)
Lemma operands_missing r d w : (0 < d)%N -> (N_len r <= umax)%N -> (forall q, balance cc r <> Unmatched q) ->
  (exists p, ev (fun f => p_text f Operands (ast r [] d w)) (Err MEC, ast [] p d w)) \/
  (exists t, ev (fun f => p_text f Operands (ast r [] d w)) (Ok t, ast [] [] d w)).
Proof.
  intros Hd Hu Hb. set (f0 := S (length r)).
  pose proof (operands_loop_spec (CE:=CE) umax DC f0 [] 0 r [] w Hd) as G. unfold wp in G.
  pose proof (@parse_text_safe (@abs_state Pos) W text Pos CE umax cc so co abs_Rs eq W False (fun w => w)
    abs_stream_contract abs_concat_contract f0 Operands r (ast r [] d w) d (le_n _) Hu) as H. unfold wp in H.
  assert (NF : forall f, f0 <= f -> fst (p_text f0 Operands (ast r [] d w)) <> OutOfFuel ->
    p_text f Operands (ast r [] d w) = p_text f0 Operands (ast r [] d w)).
  { intros f Hf Hn. induction Hf as [|f Hf IH]; [reflexivity|].
    destruct (fle_parse_text_loop (CE:=CE) umax cc so co f Operands [] 0 (ast r [] d w)) as [E|E];
      unfold parse_text in *; cbn [t_empty abs_concat] in *; congruence. }
  specialize (H ltac:(split; auto) eq_refl).
  change (N.of_nat 0) with 0%N in G.
  change (parse_text_loop umax cc so co f0 Operands [] 0 (ast r [] d w)) with (p_text f0 Operands (ast r [] d w)) in G.
  destruct (p_text f0 Operands (ast r [] d w)) as [[t|e| |] s'] eqn:E; cbn [fst snd] in *; try contradiction.
  - right. exists t. destruct G as (u & c & r' & -> & _ & -> & _ & [[-> _]|(HQ & y & r2 & -> & Hy)]).
    + exists f0. intros f Hf. apply NF; [exact Hf|discriminate].
    + exfalso. apply qn_quoted in HQ. apply (Hb (it_pos y)).
      unfold balance. rewrite (scan_quoted DC HQ). apply scan_unmatched; auto.
  - left. destruct G as (-> & p & -> & _). exists p. exists f0. intros f Hf. apply NF; [exact Hf|discriminate].
Qed.

(** The end of a sequence of forms at the end of the source. *)
Lemma forms_true_cases b w s ds w' b' : forms true b w s ds w' b' ->
  forms false b w s ds w' b' \/
  exists u v t z ds0, s = u ++ v ++ [z] /\ ds = ds0 ++ [DText t] /\ forms false b w u ds0 w' false /\ raw (delimiter cc) v t /\ escapes cc z.
Proof.
  remember true as eof eqn:E. intros H. revert E.
  induction H as [eof b w|eof w s t s' ds w' b' Hn Hr _ IH|w s t x Hr Hx|eof b w s x w1 s' ds w' b' Hns _ IH
                 |eof b w s w1 s' ds w' b' Hns _ IH]; intros E.
  - left. constructor.
  - destruct (IH E) as [H|(u & v & t' & z & ds0 & -> & -> & H & Hv & Hz)].
    + left. eapply f_text; eauto.
    + right. exists (s ++ u), v, t', z, (DText t :: ds0). rewrite <- app_assoc. repeat split; auto.
      eapply f_text; eauto.
  - right. exists [], s, t, x, []. repeat split; auto. constructor.
  - destruct (IH E) as [H|(u & v & t' & z & ds0 & -> & -> & H & Hv & Hz)].
    + left. eapply f_nest; eauto.
    + right. exists (s ++ u), v, t', z, (x :: ds0). rewrite <- app_assoc. repeat split; auto.
      eapply f_nest; eauto.
  - destruct (IH E) as [H|(u & v & t' & z & ds0 & -> & -> & H & Hv & Hz)].
    + left. eapply f_removed; eauto.
    + right. exists (s ++ u), v, t', z, ds0. rewrite <- app_assoc. repeat split; auto.
      eapply f_removed; eauto.
Qed.

(** Operands up to the end of the source. *)
Lemma operands_end w s ds w' b d : forms true false w s ds w' b -> (0 < d)%N -> (d + N_len s <= umax)%N ->
  ev (fun f => p_all f Base (ast s [] d w)) (Err MEC, ast [] [] d w').
Proof.
  intros H Hd Hu. destruct (forms_true_cases H) as [Hf|(u & v & t & z & ds0 & -> & _ & Hf & Hv & Hz)].
  - destruct (forms_prefix (umax:=umax) DC Hf d []) as (_ & G & _); [exact Hu|intros _; exact I|].
    rewrite app_nil_r in G. apply G, all_missing_end, Hd.
  - rewrite app_length in Hu.
    destruct (forms_prefix (umax:=umax) DC Hf d (v ++ [z])) as (_ & G & _); [lia|discriminate|].
    apply G. eapply all_some_err; [|apply all_missing_end, Hd].
    apply next_base. apply (body_dangling umax bnd DC (m:=Base)); [discriminate|exact Hv|exact Hz].
Qed.

(** [parse_nested] behind the operator, to the end of the source. *)
Definition rest_ends (dd : datum text ET) (rest : source) (d : N) (w : W) s1 : Prop :=
  match bnd dd with
  | Some (Operative _) =>
      ev (fun f => p_text f Operands (ast rest [] d w)) (Err MEC, s1) \/
      (exists t w1, ev (fun f => p_text f Operands (ast rest [] d w)) (Ok t, ast [] [] d w1) /\ s1 = ast [] [] d w1)
  | _ => ev (fun f => p_all f Base (ast rest [] d w)) (Err MEC, s1)
  end.

Lemma nested_ends x r dd sp rest w w2 d s1 : starts cc x ->
  ev (fun f => p_next f Operator (ast r [] d w)) (Ok (Some dd), ast (sp ++ rest) [] d w2) ->
  ((exists z, sp = [z] /\ white cc z) \/ (sp = [] /\ match rest with [] => True | z :: _ => ~ white cc z end)) ->
  rest_ends dd rest d w2 s1 ->
  ev (fun f => p_nested f (ast (x :: r) [] d w)) (Err MEC, s1).
Proof.
  intros Hx [f0 Hop] Hsp Hr.
  assert (Hpk : bind (peek so) (fun o => match o with
       | Some it => if is_whitespace cc (it_ch it)
                    then bind (next so) (fun _ => ret (CE:=CE) tt) else ret tt
       | None => ret tt
       end) (ast (sp ++ rest) [] d w2) = (Ok tt, ast rest [] d w2)).
  { destruct Hsp as [(z & -> & Hz)|(-> & Hz)]; unfold bind; cbn.
    - unfold white in Hz. rewrite Hz. reflexivity.
    - destruct rest as [|z rest]; [reflexivity|]. cbn.
      unfold white in Hz. apply not_true_is_false in Hz. rewrite Hz. reflexivity. }
  unfold bind at 1 in Hpk. cbn -[bind next ret] in Hpk.
  assert (H : ev (fun f => match bnd dd with
          | Some (Operative opr) =>
              bind (p_text f Operands) (fun operands =>
              bind (nest_end cc so) (fun _ => call (opr dd operands)))
          | Some (Applicative apl) =>
              bind (p_all f Base) (fun arguments =>
              bind (nest_end cc so) (fun _ => call (apl dd arguments)))
          | None =>
              bind (p_all f Base) (fun operands =>
              bind (nest_end cc so) (fun _ =>
              bind (new_datum ao dd) (fun r1 =>
              bind (new_datum ao operands) (fun r2 => ret (Some (DComb r1 r2))))))
          end (ast rest [] d w2)) (Err MEC, s1)).
  { unfold rest_ends in Hr. destruct (bnd dd) as [[f|f]|].
    - destruct Hr as [Hr|(t & w1 & Hr & ->)]; [apply ev_bind_err; exact Hr|].
      eapply ev_bind; [exact Hr|]. apply ev_const. intros f'. reflexivity.
    - apply (ev_bind_err (fun f => p_all f Base)). exact Hr.
    - apply (ev_bind_err (fun f => p_all f Base)). exact Hr. }
  destruct H as [f1 H]. apply ev_S. exists (f0 + f1). intros f Hf.
  rewrite p_nested_step. unfold bind at 1. cbn -[bind parse_next parse_text parse_all nest_end].
  unfold starts in Hx. rewrite Hx. unfold bind at 1. cbn -[bind parse_next parse_text parse_all nest_end].
  unfold bind at 1. change (PState (r, []) d w) with (ast r [] d w). rewrite Hop by lia.
  rewrite <- (H f) by lia.
  unfold bind at 1. cbn -[bind parse_next parse_text parse_all nest_end next ret call new_datum].
  unfold bind at 1. change (PState (sp ++ rest, []) d w2) with (ast (sp ++ rest) [] d w2) in *.
  rewrite Hpk. reflexivity.
Qed.

Lemma nested_operator_err x r w d e s1 : starts cc x ->
  ev (fun f => p_next f Operator (ast r [] d w)) (Err e, s1) ->
  ev (fun f => p_nested f (ast (x :: r) [] d w)) (Err e, s1).
Proof.
  intros Hx [f0 Hop]. apply ev_S. exists f0. intros f Hf.
  rewrite p_nested_step. unfold bind at 1. cbn -[bind parse_next parse_text parse_all nest_end].
  unfold starts in Hx. rewrite Hx. unfold bind at 1. cbn -[bind parse_next parse_text parse_all nest_end].
  unfold bind at 1. change (PState (r, []) d w) with (ast r [] d w). rewrite Hop by lia. reflexivity.
Qed.

(** The operator and its separator. *)
Lemma operator_found l w1 h dd tx w2 sp rest w d : lead w l w1 -> head w1 h dd tx w2 -> sep cc tx sp rest ->
  (d + N_len (l ++ h) <= umax)%N -> (0 < d)%N ->
  ev (fun f => p_next f Operator (ast (l ++ h ++ sp ++ rest) [] d w)) (Ok (Some dd), ast (sp ++ rest) [] d w2) /\
  ((exists z, sp = [z] /\ white cc z) \/ (sp = [] /\ match rest with [] => True | z :: _ => ~ white cc z end)).
Proof.
  intros Hl Hh Hsp Hd H0. rewrite app_length in Hd. replace d with (d - 1 + 1)%N by lia.
  destruct (grammar_parses umax bnd DC) as (_ & _ & GL & GH). split.
  - apply (GL _ _ _ Hl); [lia|]. apply (GH _ _ _ _ _ Hh); [lia|]. intros ->.
    destruct Hsp as [(z & -> & Hz)|(-> & Hz)]; cbn.
    + unfold operator_delimiter. unfold white in Hz. rewrite Hz. split; [reflexivity|discriminate].
    + destruct rest as [|z rest]; [exact I|]. cbn. unfold operator_delimiter, delimiter.
      unfold starts in Hz. rewrite Hz, orb_true_r. split; [reflexivity|discriminate].
  - destruct Hsp as [Hsp|(-> & Hz)]; [left; exact Hsp|right]. split; [reflexivity|].
    destruct rest as [|z rest]; [exact I|]. destruct tx; [|exact Hz].
    destruct (starts_facts DC Hz) as (_ & _ & _ & E). unfold white. congruence.
Qed.

Lemma unclosed_parse w s w' : unclosed w s w' -> forall d, (d + N_len s <= umax)%N ->
  exists p, ev (fun f => p_nested f (ast s [] (d + 1) w)) (Err MEC, ast [] p (d + 1) w').
Proof.
  destruct (grammar_parses umax bnd DC) as (_ & _ & GL & GH).
  induction 1 as [w x l w' Hx Hl|w x l w1 s w' Hx Hl Hs IH|w x l w' h t z Hx Hl Hh Hz
    |w x l w1 h dd tx w2 sp body ds w' b Hx Hl Hh Hb Hsp Hf
    |w x l w1 h dd tx w2 sp body ds w3 b s w' Hx Hl Hh Hb Hsp Hf Hs IH
    |w x l w1 h dd tx w' f sp body Hx Hl Hh Hb Hsp HU]; intros d Hd;
    cbn [length] in Hd; rewrite ?app_length in Hd.
  - exists []. apply nested_operator_err; auto. rewrite <- (app_nil_r l). apply (GL _ _ _ Hl); [lia|].
    apply next_missing; [discriminate|lia].
  - destruct (unclosed_cons Hs) as (y & s0 & Es & Hy). assert (0 < length s) by (subst s; cbn; lia).
    destruct (IH (d + 1)%N) as (p & G); [lia|]. exists p. apply nested_operator_err; auto.
    apply (GL _ _ _ Hl); [lia|]. apply next_operator.
    + subst s. destruct (starts_facts DC Hy) as (_ & _ & _ & E). unfold white. congruence.
    + apply nest_missing; [lia|eauto|exact G].
  - cbn [length] in Hd. exists []. eapply nested_ends with (dd := DText t) (sp := []) (rest := []) (w2 := w'); auto.
    + cbn [app]. apply (GL _ _ _ Hl); [lia|]. apply next_operator; [|apply (body_dangling umax bnd DC (m:=Operator)); auto; discriminate].
      assert (NW : forall y : item Pos, escapes cc y -> ~ white cc y).
      { intros y Hy E. unfold escapes, white in *. rewrite (dc_escape DC _ Hy) in E. discriminate. }
      destruct Hh as [|y s t Hy Hne _|y y' s t Hy _]; cbn; auto.
      unfold operator_delimiter in Hy. apply orb_false_iff in Hy. unfold white. destruct Hy as [-> _]. discriminate.
    + unfold rest_ends. destruct (bnd (DText t)) as [[f|f]|]; [right| |]; try (apply all_missing_end; lia).
      exists [], w'. split; auto. apply ev_S, ev_const. reflexivity.
  - exists []. destruct (operator_found (d:=d + 1) Hl Hh Hsp) as [Hop Hsp']; [rewrite app_length; lia|lia|].
    eapply nested_ends; [exact Hx|exact Hop|exact Hsp'|]. unfold rest_ends.
    assert (H : ev (fun f => p_all f Base (ast body [] (d + 1) w2)) (Err MEC, ast [] [] (d + 1)%N w')).
    { eapply operands_end; eauto; lia. }
    destruct (bnd dd) as [[f|f]|]; [contradiction|exact H|exact H].
  - destruct (unclosed_cons Hs) as (y & s0 & Es & Hy). assert (0 < length s) by (subst s; cbn; lia).
    destruct (IH (d + 1)%N) as (p & G); [lia|]. exists p.
    destruct (operator_found (d:=d + 1) Hl Hh Hsp) as [Hop Hsp']; [rewrite app_length; lia|lia|].
    eapply nested_ends; [exact Hx|exact Hop|exact Hsp'|]. unfold rest_ends.
    assert (H1 : ev (fun f => p_all f Base (ast (body ++ s) [] (d + 1) w2)) (Err MEC, ast [] p (d + 1)%N w')).
    { destruct (forms_prefix (umax:=umax) DC Hf (d + 1)%N s) as (_ & G' & _).
      - lia.
      - intros _. subst s. apply starts_stop; auto.
      - apply G'. apply all_err. apply next_base. apply nest_missing; [lia|eauto|exact G]. }
    destruct (bnd dd) as [[f|f]|]; [contradiction|exact H1|exact H1].
  - destruct (operator_found (d:=d + 1) Hl Hh Hsp) as [Hop Hsp']; [rewrite app_length; lia|lia|].
    destruct (operands_missing (d:=d + 1) body w') as [(p & G)|(t & G)]; [lia|lia|exact HU| |].
    + exists p. eapply nested_ends; [exact Hx|exact Hop|exact Hsp'|]. unfold rest_ends. rewrite Hb. auto.
    + exists []. eapply nested_ends; [exact Hx|exact Hop|exact Hsp'|]. unfold rest_ends. rewrite Hb. eauto.
Qed.

(** A text before an end delimiter that does not match. *)
Lemma text_unmatched u c : raw (delimiter cc) u c -> forall f t0 p x r w, length u < f -> ends cc x ->
  parse_text_loop (CE:=CE) umax cc so co f Base t0 0 (ast (u ++ x :: r) p 0 w)
    = (Err (UnbalancedEndChar (it_pos x)), ast r [] 0 w).
Proof.
  induction 1 as [|y s t Hy Hne _ IH|y z s t Hy _ IH]; intros f t0 p x r w Hf Hx;
    (destruct f as [|f]; [cbn in Hf; lia|]); cbn in Hf.
  - cbn [app parse_text_loop]. unfold bind at 1. cbn -[N.eqb N.ltb parse_text_done check_end_char bind].
    change (0 =? 0)%N with true. cbn [andb]. unfold ends in Hx. destruct (dc_end DC _ Hx) as [E _].
    assert (is_nest_start cc (it_ch x) = false) as E2.
    { destruct (is_nest_start cc (it_ch x)) eqn:E2; auto. destruct (dc_start DC _ E2) as (? & _). congruence. }
    rewrite E, E2, Hx. change (0 <? 0)%N with false. unfold bind, get_depth, check_end_char, bind. cbn.
    rewrite Hx. reflexivity.
  - cbn [app parse_text_loop]. unfold bind at 1. cbn -[N.eqb N.ltb parse_text_done check_end_char parse_text_loop bind].
    change (0 =? 0)%N with true. cbn [andb].
    unfold delimiter in Hy. apply orb_false_iff in Hy. destruct Hy as [E1 E2].
    unfold escapes in Hne. apply not_true_is_false in Hne. rewrite Hne, E1, E2.
    unfold bind. cbn -[parse_text_loop].
    change (PState (s ++ x :: r, p ++ [y]) 0 w) with (ast (s ++ x :: r) (p ++ [y]) 0 w).
    apply IH; auto. lia.
  - cbn [app parse_text_loop]. unfold bind at 1. cbn -[N.eqb N.ltb parse_text_done check_end_char parse_text_loop bind].
    change (0 =? 0)%N with true. cbn [andb].
    unfold escapes in Hy. pose proof (delimiter_escape DC _ Hy) as Hdel. unfold delimiter in Hdel.
    apply orb_false_iff in Hdel. destruct Hdel as [E1 E2]. rewrite E1, Hy.
    unfold bind. cbn -[parse_text_loop].
    change (PState (s ++ x :: r, [z]) 0 w) with (ast (s ++ x :: r) [z] 0 w).
    apply IH; auto. lia.
Qed.

Lemma body_unmatched u c x r w : raw (delimiter cc) u c -> ends cc x ->
  ev (fun f => next_body umax cc bnd f Base (ast (u ++ x :: r) [] 0 w)) (Err (UnbalancedEndChar (it_pos x)), ast r [] 0 w).
Proof.
  intros Hr Hx. exists (S (length u)). intros f Hf.
  pose proof (raw_first DC (stop_delim cc Base) Hr) as Hd.
  pose proof (text_unmatched Hr (f:=f) [] [] r w Hf Hx) as E.
  destruct u as [|y u].
  - unfold next_body, bind at 1. cbn -[bind parse_text check_end_char].
    unfold ends in Hx.
    assert (is_nest_start cc (it_ch x) = false) as ->.
    { destruct (is_nest_start cc (it_ch x)) eqn:E2; auto. destruct (dc_start DC _ E2) as (? & _). congruence. }
    rewrite Hx. unfold bind, get_depth, check_end_char, bind. cbn. rewrite Hx. reflexivity.
  - destruct Hd as [E1 E2]. unfold next_body, bind at 1. cbn -[bind parse_text]. rewrite E1, E2.
    unfold bind at 1, parse_text. cbn [t_empty abs_concat].
    change (PState (y :: u ++ x :: r, []) 0 w) with (ast ((y :: u) ++ x :: r) [] 0 w). rewrite E. reflexivity.
Qed.

Lemma forms_last_text b w s ds w' b' : forms false b w s ds w' b' -> b' = true ->
  (s = [] /\ b = true /\ ds = []) \/
  exists u v t ds0, s = u ++ v /\ ds = ds0 ++ [DText t] /\ forms false b w u ds0 w' false /\ raw (delimiter cc) v t /\ v <> [].
Proof.
  intros H. remember false as eof eqn:E. revert E.
  induction H as [eof b w|eof w s t s' ds w' b' Hn Hr Hf IH|w s t x Hr Hx|eof b w s d w1 s' ds w' b' Hns Hf IH
    |eof b w s w1 s' ds w' b' Hns Hf IH]; intros E Eb; subst; try discriminate; auto.
  - right. destruct (IH eq_refl eq_refl) as [(-> & _ & ->)|(u & v & t2 & ds0 & -> & -> & H1 & H2 & H3)].
    + exists [], s, t, []. rewrite app_nil_r. inversion Hf; subst; repeat split; auto; try constructor.
      all: match goal with H : _ ++ _ = [] |- _ => apply app_eq_nil in H; destruct H; subst end.
      all: destruct (nest_cons ltac:(eassumption)) as (? & ? & ? & _); discriminate.
    + exists (s ++ u), v, t2, (DText t :: ds0). rewrite app_assoc. repeat split; auto. eapply f_text; eauto.
  - right. destruct (IH eq_refl eq_refl) as [(-> & Hb & _)|(u & v & t2 & ds0 & -> & -> & H1 & H2 & H3)]; [discriminate|].
    exists (s ++ u), v, t2, (d :: ds0). rewrite app_assoc. repeat split; auto. eapply f_nest; eauto.
  - right. destruct (IH eq_refl eq_refl) as [(-> & Hb & _)|(u & v & t2 & ds0 & -> & -> & H1 & H2 & H3)]; [discriminate|].
    exists (s ++ u), v, t2, ds0. rewrite app_assoc. repeat split; auto. eapply f_removed; eauto.
Qed.

Lemma unmatched_nexts w u ds w1 b x r : (N_len u <= umax)%N -> forms false false w u ds w1 b -> ends cc x ->
  anexts (ast (u ++ x :: r) [] 0 w)
    (oks (if b then removelast ds else ds) ++ [Some (inr (UnbalancedEndChar (it_pos x)))]) (ast r [] 0 w1).
Proof.
  intros Hu Hf Hx.
  assert (G : forall u0 v t ds0, (N_len u0 <= umax)%N -> forms false false w u0 ds0 w1 false -> raw (delimiter cc) v t ->
    anexts (ast ((u0 ++ v) ++ x :: r) [] 0 w) (oks ds0 ++ [Some (inr (UnbalancedEndChar (it_pos x)))]) (ast r [] 0 w1)).
  { intros u0 v t ds0 Hu0 Hf0 Hv. rewrite <- app_assoc.
    destruct (forms_prefix (umax:=umax) DC Hf0 0%N (v ++ x :: r)) as (_ & _ & G); [lia|discriminate|].
    apply G; [reflexivity|]. eapply nexts_ev; [|constructor]. apply next_item_err, next_base.
    eapply body_unmatched; eauto. }
  destruct b.
  - destruct (forms_last_text Hf eq_refl) as [(_ & H & _)|(u0 & v & t & ds0 & -> & -> & Hf0 & Hv & _)]; [discriminate|].
    rewrite removelast_last. rewrite app_length in Hu. eapply G; eauto. lia.
  - rewrite <- (app_nil_r u). eapply G; eauto. constructor.
Qed.

Lemma unclosed_nexts w u ds w1 b f w' : (N_len (u ++ f) <= umax)%N -> forms false false w u ds w1 b ->
  unclosed w1 f w' -> exists p, anexts (ast (u ++ f) [] 0 w) (oks ds ++ [Some (inr MEC)]) (ast [] p 0 w').
Proof.
  intros Hu Hf Hx. rewrite app_length in Hu. destruct (unclosed_cons Hx) as (z & s0 & Es & Hz).
  assert (0 < length f) by (subst f; cbn; lia).
  destruct (unclosed_parse Hx 0%N) as (p & Hp); [lia|]. exists p.
  destruct (forms_prefix (umax:=umax) DC Hf 0%N f) as (_ & _ & G).
  - lia.
  - intros _. subst f. apply starts_stop; auto.
  - apply G; [reflexivity|]. eapply nexts_ev; [|constructor]. apply next_item_err, next_base.
    apply nest_missing; [lia|eauto|exact Hp].
Qed.

(** The whole run, both ways. *)
Theorem run_iterates w s items w' : run w s items w' -> (N_len s <= umax)%N ->
  exists p, aiterates (ast s [] 0 w) items (ast [] p 0 w').
Proof.
  assert (J : forall st ds e st1 items st2, anexts st (oks ds ++ [Some (inr e)]) st1 -> aiterates st1 items st2 ->
    aiterates st (map inl ds ++ inr e :: items) st2).
  { clear. intros st ds e st1 items st2 H Hi. change (inr e :: items) with ([inr e] ++ items).
    rewrite app_assoc. eapply iterates_app; [|exact Hi]. rewrite map_app, map_map. exact H. }
  induction 1 as [w s ds w' Hi|w u ds w1 b f e w2 r items w' Hf Hx _ IH|w u ds w1 b x r items w' Hf Hx _ IH
    |w u ds w1 b s w' Hf Hx]; intros Hu.
  - exists []. exists (S (length s)), (3 * length s + 3). apply (input_parses DC Hu Hi); lia.
  - rewrite !app_length in Hu. destruct IH as (p & IH); [lia|]. exists p.
    eapply J; [|exact IH]. eapply fails_nexts; eauto. rewrite app_length. lia.
  - rewrite !app_length in Hu. cbn [length] in Hu. destruct IH as (p & IH); [lia|]. exists p.
    eapply J; [|exact IH]. eapply unmatched_nexts; eauto. lia.
  - destruct (unclosed_nexts Hu Hf Hx) as (p & H). exists p.
    eapply J; [exact H|]. exists 1, 1. reflexivity.
Qed.

Theorem iterates_run : forall items w s s', aiterates (ast s [] 0 w) items s' ->
  exists p w', s' = ast [] p 0 w' /\ run w s items w'.
Proof.
  intros items. remember (length items) as n eqn:En. revert items En.
  induction n as [n IH] using lt_wf_ind. intros items En w s s' H.
  assert (C : (exists ds, items = map inl ds) \/ exists ds e rest, items = map inl ds ++ inr e :: rest).
  { clear. induction items as [|[d|e] items [(ds & ->)|(ds & e' & rest & ->)]].
    - left. exists []. reflexivity.
    - left. exists (d :: ds). reflexivity.
    - right. exists (d :: ds), e', rest. reflexivity.
    - right. exists [], e, (map inl ds). reflexivity.
    - right. exists [], e, (map inl ds ++ inr e' :: rest). reflexivity. }
  destruct C as [(ds & ->)|(ds & e & rest & ->)].
  - destruct H as (m & f & E). destruct (parses_input umax bnd DC _ _ _ _ _ E) as (w' & -> & Hi).
    exists [], w'. split; [reflexivity|]. apply run_all. exact Hi.
  - change (inr e :: rest) with ([inr e] ++ rest) in H. rewrite app_assoc in H.
    apply iterates_app_inv in H. destruct H as (s1 & H & Hr). rewrite map_app, map_map in H.
    assert (L : length rest < n) by (subst n; rewrite app_length; cbn; lia).
    destruct (first_error_cases DC _ _ H) as [(-> & _ & p & w' & -> & u & f & w1 & b & -> & Hf & Hx)|
      [(u & x & r & ds0 & w' & b & -> & Hx & -> & Hf & -> & Hb)|(u & f & r & w1 & w' & b & -> & Hf & Hx & ->)]].
    + destruct Hr as (m & f' & E). destruct (i_collect_eof umax cc bnd _ _ _ _ E) as [-> ->].
      exists p, w'. split; [reflexivity|]. eapply run_unclosed; eauto.
    + destruct (IH _ L rest eq_refl _ _ _ Hr) as (p & w2 & -> & G). exists p, w2. split; [reflexivity|].
      assert (ds = if b then removelast ds0 else ds0) as ->.
      { destruct b; [|auto]. destruct Hb as (t & ->). rewrite removelast_last. reflexivity. }
      eapply run_unmatched; eauto.
    + destruct (IH _ L rest eq_refl _ _ _ Hr) as (p & w2 & -> & G). exists p, w2. split; [reflexivity|].
      eapply run_fails; eauto.
Qed.
End Unclosed.
