(** The parser over the abstract stream accepts everything in the grammar, with
    the values the grammar assigns. *)
From Coq Require Import List Arith NArith Bool Lia.
From Verif.Model Require Import Prelude Parser Iter.
From Verif.Spec Require Import Grammar Balance AbsStream Contract.
From Verif.Proofs Require Import Wp GrammarFacts AbsParse FuelMono Safety.
Import ListNotations.
Set Implicit Arguments.

Section Complete.
Context {W ET Pos CE : Type}.
Local Notation source := (list (item Pos)).
Local Notation text := (list (item Pos)).
Context (umax : N) (cc : classifier) (bnd : bindings W text ET Pos CE).
Context (DC : disjoint_classes cc).
Local Notation forms := (forms cc bnd).
Local Notation nest := (nest cc bnd).
Local Notation lead := (lead cc bnd).
Local Notation head := (head cc bnd).
Local Notation raw := (@raw Pos cc).
Local Notation quoted := (@quoted Pos cc).
Local Notation so := (@abs_stream W Pos).
Local Notation co := (@abs_concat W Pos).
Local Notation ao := (@abs_alloc W ET Pos).
Local Notation st := (pstate (@abs_state Pos) W).
Local Notation AM X := (M (S:=@abs_state Pos) (A:=W) (Pos:=Pos) (CE:=CE) X).
Local Notation p_next := (parse_next umax cc so co ao bnd).
Local Notation p_nested := (parse_nested umax cc so co ao bnd).
Local Notation p_all := (parse_all umax cc so co ao bnd).
Local Notation p_text := (parse_text (CE:=CE) umax cc so co).
Local Notation N_len r := (N.of_nat (length r)).

(** With enough fuel, [m] gives [o]. *)
Definition ev {X} (m : nat -> X) (o : X) : Prop := exists f0, forall f, f0 <= f -> m f = o.

Lemma ev_S X (m : nat -> X) o : ev (fun f => m (S f)) o -> ev m o.
Proof.
  intros [f0 H]. exists (S f0). intros [|f] Hf; [lia|]. apply H. lia.
Qed.

Lemma ev_S' X (m : nat -> X) o : ev m o -> ev (fun f => m (S f)) o.
Proof. intros [f0 H]. exists f0. intros f Hf. apply H. lia. Qed.

Lemma ev_const X (m : nat -> X) o : (forall f, m f = o) -> ev m o.
Proof. intros H. exists 0. auto. Qed.

Lemma ev_ext X (m m' : nat -> X) o : (forall f, m f = m' f) -> ev m' o -> ev m o.
Proof. intros E [f0 H]. exists f0. intros f Hf. rewrite E. auto. Qed.

Lemma ev_unique X (m : nat -> X) o o' : ev m o -> ev m o' -> o = o'.
Proof.
  intros [f0 H] [f1 H1]. rewrite <- (H (f0 + f1)) by lia. apply H1. lia.
Qed.

Lemma ev_bind X Y (m : nat -> AM X) (k : nat -> X -> AM Y) s x s1 o :
  ev (fun f => m f s) (Ok x, s1) -> ev (fun f => k f x s1) o ->
  ev (fun f => bind (m f) (k f) s) o.
Proof.
  intros [f0 H0] [f1 H1]. exists (f0 + f1). intros f Hf. unfold bind.
  rewrite H0 by lia. apply H1. lia.
Qed.

Lemma ev_bind_err X Y (m : nat -> AM X) (k : nat -> X -> AM Y) s e s1 :
  ev (fun f => m f s) (Err e, s1) -> ev (fun f => bind (m f) (k f) s) (Err e, s1).
Proof.
  intros [f0 H0]. exists f0. intros f Hf. unfold bind. rewrite H0 by lia. reflexivity.
Qed.

(** Texts. *)
Lemma text_loop_complete m u c : m <> Operands -> raw (stop_of cc m) u c ->
  forall f t0 p r' d w, length u < f -> text_stop cc m d r' ->
  parse_text_loop (CE:=CE) umax cc so co f m t0 0 (ast (u ++ r') p d w)
    = (Ok (t0 ++ p ++ c), ast r' [] d w).
Proof.
  intros Hm H. induction H as [|x s t Hx Hne _ IH|x y s t Hx _ IH]; intros f t0 p r' d w Hf Hs.
  - destruct f as [|f]; [cbn in Hf; lia|]. rewrite app_nil_r. cbn [app].
    destruct r' as [|x r']; [reflexivity|].
    cbn [parse_text_loop]. unfold bind at 1. cbn -[N.eqb N.ltb parse_text_done check_end_char].
    change (0 =? 0)%N with true. cbn [andb].
    destruct Hs as [Hs Hd].
    destruct m; cbn in Hs; [| |congruence].
    + unfold delimiter in Hs. cbn [is_end_char].
      destruct (is_nest_start cc (it_ch x)) eqn:E1; [reflexivity|]. cbn in Hs.
      rewrite Hs. destruct (dc_end DC _ Hs) as [-> _].
      specialize (Hd eq_refl Hs). apply N.ltb_lt in Hd.
      change (0 <? 0)%N with false. unfold bind, get_depth, check_end_char, bind. cbn.
      rewrite Hs. cbn. rewrite Hd. reflexivity.
    + unfold operator_delimiter, delimiter in Hs. cbn [is_end_char].
      rewrite orb_assoc in Hs. rewrite Hs. reflexivity.
  - destruct f as [|f]; [lia|]. cbn in Hf. cbn [app parse_text_loop]. unfold bind at 1.
    cbn -[N.eqb N.ltb parse_text_done check_end_char parse_text_loop bind].
    change (0 =? 0)%N with true. cbn [andb].
    pose proof (stop_delim _ _ _ Hx) as Hdel. unfold delimiter in Hdel.
    apply orb_false_iff in Hdel. destruct Hdel as [E1 E2].
    assert (is_end_char cc (it_ch x) m = false) as ->.
    { destruct m; cbn in *; [auto| |congruence].
      unfold operator_delimiter, delimiter in Hx. rewrite orb_assoc in Hx. exact Hx. }
    unfold escapes in Hne. apply not_true_is_false in Hne. rewrite Hne, E1, E2.
    unfold bind. cbn -[parse_text_loop].
    change (PState (s ++ r', p ++ [x]) d w) with (ast (s ++ r') (p ++ [x]) d w).
    rewrite IH; auto; [|lia]. rewrite <- !app_assoc. reflexivity.
  - destruct f as [|f]; [lia|]. cbn in Hf. cbn [app parse_text_loop]. unfold bind at 1.
    cbn -[N.eqb N.ltb parse_text_done check_end_char parse_text_loop bind].
    change (0 =? 0)%N with true. cbn [andb].
    unfold escapes in Hx. pose proof (delimiter_escape DC _ Hx) as Hdel. unfold delimiter in Hdel.
    apply orb_false_iff in Hdel. destruct Hdel as [E1 E2].
    assert (is_end_char cc (it_ch x) m = false) as ->.
    { destruct m; cbn in *; [auto| |congruence]. rewrite E1, E2.
      rewrite (dc_escape DC _ Hx). reflexivity. }
    rewrite Hx. unfold bind. cbn -[parse_text_loop].
    change (PState (s ++ r', [y]) d w) with (ast (s ++ r') [y] d w).
    rewrite IH; auto; [|lia]. rewrite <- !app_assoc. reflexivity.
Qed.

Lemma text_complete m u c r' d w : m <> Operands -> raw (stop_of cc m) u c ->
  text_stop cc m d r' -> ev (fun f => p_text f m (ast (u ++ r') [] d w)) (Ok c, ast r' [] d w).
Proof.
  intros Hm H Hs. exists (S (length u)). intros f Hf. unfold parse_text.
  rewrite (text_loop_complete Hm H) by (auto; lia). reflexivity.
Qed.

Lemma text_dangling m u c x d w : m <> Operands -> raw (stop_of cc m) u c -> escapes cc x ->
  ev (fun f => p_text f m (ast (u ++ [x]) [] d w)) (Ok c, ast [] [] d w).
Proof.
  intros Hm H Hx. exists (S (S (length u))). intros f Hf. unfold parse_text.
  assert (NE : forall y : item Pos, escapes cc y -> is_end_char cc (it_ch y) m = false).
  { intros y Hy. unfold escapes in Hy. pose proof (delimiter_escape DC _ Hy) as Hdel. unfold delimiter in Hdel.
    apply orb_false_iff in Hdel. destruct Hdel as [E1 E2].
    destruct m; cbn in *; [auto| |congruence]. rewrite E1, E2, (dc_escape DC _ Hy). reflexivity. }
  assert (G : forall u c, raw (stop_of cc m) u c -> forall f t0 p, S (length u) < f ->
    parse_text_loop (CE:=CE) umax cc so co f m t0 0 (ast (u ++ [x]) p d w)
    = (Ok (t0 ++ p ++ c), ast [] [] d w)).
  { clear u c f Hf H. induction 1 as [|y s t Hy Hne _ IH|y z s t Hy _ IH]; intros f t0 p Hf.
    - destruct f as [|[|f]]; [cbn in Hf; lia|cbn in Hf; lia|]. rewrite app_nil_r. cbn [app].
      remember (S f) as f'. cbn [parse_text_loop]. unfold bind at 1.
      cbn -[N.eqb N.ltb parse_text_done check_end_char parse_text_loop bind].
      change (0 =? 0)%N with true. cbn [andb]. rewrite (NE _ Hx). unfold escapes in Hx. rewrite Hx.
      unfold bind. cbn -[parse_text_loop]. subst f'. cbn. rewrite app_nil_r. reflexivity.
    - destruct f as [|f]; [lia|]. cbn in Hf. cbn [app parse_text_loop]. unfold bind at 1.
      cbn -[N.eqb N.ltb parse_text_done check_end_char parse_text_loop bind].
      change (0 =? 0)%N with true. cbn [andb].
      pose proof (stop_delim _ _ _ Hy) as Hdel. unfold delimiter in Hdel.
      apply orb_false_iff in Hdel. destruct Hdel as [E1 E2].
      assert (is_end_char cc (it_ch y) m = false) as ->.
      { destruct m; cbn in *; [auto| |congruence].
        unfold operator_delimiter, delimiter in Hy. rewrite orb_assoc in Hy. exact Hy. }
      unfold escapes in Hne. apply not_true_is_false in Hne. rewrite Hne, E1, E2.
      unfold bind. cbn -[parse_text_loop].
      change (PState (s ++ [x], p ++ [y]) d w) with (ast (s ++ [x]) (p ++ [y]) d w).
      rewrite IH by lia. rewrite <- !app_assoc. reflexivity.
    - destruct f as [|f]; [lia|]. cbn in Hf. cbn [app parse_text_loop]. unfold bind at 1.
      cbn -[N.eqb N.ltb parse_text_done check_end_char parse_text_loop bind].
      change (0 =? 0)%N with true. cbn [andb]. rewrite (NE _ Hy). unfold escapes in Hy. rewrite Hy.
      unfold bind. cbn -[parse_text_loop].
      change (PState (s ++ [x], [z]) d w) with (ast (s ++ [x]) [z] d w).
      rewrite IH by lia. rewrite <- !app_assoc. reflexivity. }
  rewrite (G _ _ H) by lia. reflexivity.
Qed.

Lemma operands_loop_complete nl u c : qn cc nl u c ->
  forall f t0 p y r' d w, length u < f -> ends cc y -> (N.of_nat nl + N_len u <= umax)%N ->
  parse_text_loop (CE:=CE) umax cc so co f Operands t0 (N.of_nat nl) (ast (u ++ y :: r') p d w)
    = (Ok (t0 ++ p ++ c), ast (y :: r') [] d w).
Proof.
  induction 1 as [|k x s t Hx Hne _ IH|k x z s t Hx _ IH|k x s t Hx _ IH|k x s t Hx _ IH];
    intros f t0 p y r' d w Hf Hy Hu; (destruct f as [|f]; [lia|]); cbn in Hf;
    cbn [app parse_text_loop]; unfold bind at 1;
    cbn -[N.eqb N.ltb N.of_nat parse_text_done check_end_char parse_text_loop bind].
  - change (N.of_nat 0 =? 0)%N with true. cbn [andb]. unfold ends in Hy. rewrite Hy.
    rewrite app_nil_r. reflexivity.
  - unfold delimiter in Hx. apply orb_false_iff in Hx. destruct Hx as [E1 E2].
    unfold escapes in Hne. apply not_true_is_false in Hne. rewrite Hne, E1, E2, andb_false_r.
    unfold bind. cbn -[parse_text_loop N.of_nat].
    change (PState (s ++ y :: r', p ++ [x]) d w) with (ast (s ++ y :: r') (p ++ [x]) d w).
    cbn [length] in Hu. rewrite IH; auto; [|lia..]. rewrite <- !app_assoc. reflexivity.
  - unfold escapes in Hx. pose proof (delimiter_escape DC _ Hx) as Hdel. unfold delimiter in Hdel.
    apply orb_false_iff in Hdel. destruct Hdel as [E1 E2].
    rewrite Hx, E2, andb_false_r. unfold bind. cbn -[parse_text_loop N.of_nat].
    change (PState (s ++ y :: r', [z]) d w) with (ast (s ++ y :: r') [z] d w).
    cbn [length] in Hu. rewrite IH; auto; [|lia..]. rewrite <- !app_assoc. reflexivity.
  - unfold starts in Hx. destruct (dc_start DC _ Hx) as (E1 & E2 & _).
    rewrite Hx, E1, E2, andb_false_r. unfold bind. cbn -[parse_text_loop N.of_nat N.ltb].
    cbn [length] in Hu. replace (N.of_nat k <? umax)%N with true by (symmetry; apply N.ltb_lt; lia).
    replace (N.of_nat k + 1)%N with (N.of_nat (S k)) by lia.
    change (PState (s ++ y :: r', p ++ [x]) d w) with (ast (s ++ y :: r') (p ++ [x]) d w).
    rewrite IH; auto; [|lia..]. rewrite <- !app_assoc. reflexivity.
  - unfold ends in Hx. destruct (dc_end DC _ Hx) as (E1 & _).
    assert (is_nest_start cc (it_ch x) = false) as E2.
    { destruct (is_nest_start cc (it_ch x)) eqn:E; auto.
      destruct (dc_start DC _ E) as (? & _). congruence. }
    replace (N.of_nat (S k) =? 0)%N with false by (symmetry; apply N.eqb_neq; lia).
    cbn [andb]. rewrite E1, E2, Hx.
    replace (0 <? N.of_nat (S k))%N with true by (symmetry; apply N.ltb_lt; lia).
    unfold bind. cbn -[parse_text_loop N.of_nat N.sub].
    replace (N.of_nat (S k) - 1)%N with (N.of_nat k) by lia.
    change (PState (s ++ y :: r', p ++ [x]) d w) with (ast (s ++ y :: r') (p ++ [x]) d w).
    cbn [length] in Hu. rewrite IH; auto; [|lia..]. rewrite <- !app_assoc. reflexivity.
Qed.

Lemma operands_complete u c y r' d w : quoted u c -> ends cc y -> (N_len u <= umax)%N ->
  ev (fun f => p_text f Operands (ast (u ++ y :: r') [] d w)) (Ok c, ast (y :: r') [] d w).
Proof.
  intros H Hy Hu. apply qn_iff in H. exists (S (length u)). intros f Hf. unfold parse_text.
  change 0%N with (N.of_nat 0). rewrite (operands_loop_complete H) by (auto; lia). reflexivity.
Qed.

(** [parse_next] in one step. *)
Definition next_body (f : nat) (m : mode) : AM (option (datum text ET)) :=
  bind (peek so) (fun o => match o with
    | None => bind get_depth (fun d => if (d =? 0)%N then ret None else raise MissingEndChar)
    | Some it =>
        if is_nest_start cc (it_ch it) then
          bind (incr_depth umax) (fun _ => bind (finally (p_nested f) decr_depth) (fun r =>
            match r with None => p_next f m | Some d => ret (Some d) end))
        else if is_nest_end cc (it_ch it) then
          bind get_depth (fun d => bind (check_end_char cc so d) (fun _ => ret None))
        else bind (p_text f m) (fun t => ret (Some (DText t)))
    end).

Lemma p_next_base f s : p_next (S f) Base s = next_body f Base s.
Proof. reflexivity. Qed.

Lemma p_next_operator f s :
  p_next (S f) Operator s = bind (skip_whitespace cc so f) (fun _ => next_body f Operator) s.
Proof. reflexivity. Qed.

Lemma p_all_step f m s : p_all (S f) m s =
  bind (p_next f m) (fun it => match it with
    | Some next_it =>
        bind (new_datum ao next_it) (fun e =>
        bind (new_datum ao DEmptyList) (fun n =>
        bind (fun st => (Ok (a_get_mut ao n (ps_alloc st)), st)) (fun st_ok : bool =>
        if st_ok
        then bind (p_all f m) (fun rest => ret (DList e rest))
        else raise FailedDerefTryMut)))
    | None => ret DEmptyList
    end) s.
Proof. reflexivity. Qed.

Lemma p_nested_step f s : p_nested (S f) s =
  bind (next so) (fun start =>
  bind (assert (match start with Some it => is_nest_start cc (it_ch it) | None => false end)) (fun _ =>
  bind (p_next f Operator) (fun operator =>
  bind (peek so) (fun o =>
  bind (match o with
       | Some it => if is_whitespace cc (it_ch it)
                    then bind (next so) (fun _ => ret tt) else ret tt
       | None => ret tt
       end) (fun _ =>
  match operator with
  | Some operator => match bnd operator with
          | Some (Operative opr) =>
              bind (p_text f Operands) (fun operands =>
              bind (nest_end cc so) (fun _ => call (opr operator operands)))
          | Some (Applicative apl) =>
              bind (p_all f Base) (fun arguments =>
              bind (nest_end cc so) (fun _ => call (apl operator arguments)))
          | None =>
              bind (p_all f Base) (fun operands =>
              bind (nest_end cc so) (fun _ =>
              bind (new_datum ao operator) (fun r1 =>
              bind (new_datum ao operands) (fun r2 => ret (Some (DComb r1 r2))))))
          end
  | None => bind (nest_end cc so) (fun _ => ret (Some DEmptyNest))
  end))))) s.
Proof. reflexivity. Qed.

Lemma skip_complete r d w : match r with [] => True | x :: _ => ~ white cc x end ->
  ev (fun f => skip_whitespace (CE:=CE) cc so f (ast r [] d w)) (Ok tt, ast r [] d w).
Proof.
  intros H. apply ev_S, ev_const. intros f. cbn. destruct r as [|x r]; cbn; [reflexivity|].
  unfold white in H. apply not_true_is_false in H. unfold bind. cbn. rewrite H. reflexivity.
Qed.

(** Entering a nest. *)
Lemma next_nest m s r' d w o w' :
  (d + 1 <= umax)%N -> (exists x s', s = x :: s' /\ starts cc x) ->
  ev (fun f => p_nested f (ast (s ++ r') [] (d + 1) w))
     (match o with inl x => Ok x | inr e => Err e end, ast r' [] (d + 1) w') ->
  match o with
  | inl (Some x) => ev (fun f => next_body f m (ast (s ++ r') [] d w)) (Ok (Some x), ast r' [] d w')
  | inl None => forall out, ev (fun f => p_next f m (ast r' [] d w')) out ->
      ev (fun f => next_body f m (ast (s ++ r') [] d w)) out
  | inr e => ev (fun f => next_body f m (ast (s ++ r') [] d w)) (Err e, ast r' [] d w')
  end.
Proof.
  intros Hd (x & s' & -> & Hx) [f0 H].
  assert (E : forall f, f0 <= f -> next_body f m (ast ((x :: s') ++ r') [] d w) =
    match o with
    | inl (Some y) => (Ok (Some y), ast r' [] d w')
    | inl None => p_next f m (ast r' [] d w')
    | inr e => (Err e, ast r' [] d w')
    end).
  { intros f Hf. unfold next_body, bind at 1. cbn -[bind N.ltb]. unfold starts in Hx. rewrite Hx.
    unfold bind at 1. unfold incr_depth. cbn -[bind N.ltb N.add].
    replace (d <? umax)%N with true by (symmetry; apply N.ltb_lt; lia).
    unfold bind at 1. unfold finally.
    change (PState (x :: s' ++ r', []) (d + 1) w) with (ast ((x :: s') ++ r') [] (d + 1) w).
    rewrite (H f Hf). unfold bind, decr_depth. cbn -[N.add N.sub N.ltb].
    replace (0 <? d + 1)%N with true by (symmetry; apply N.ltb_lt; lia).
    replace (d + 1 - 1)%N with d by lia.
    destruct o as [[y|]|e]; cbn -[N.add N.sub N.ltb];
    replace (0 <? d + 1)%N with true by (symmetry; apply N.ltb_lt; lia);
    replace (d + 1 - 1)%N with d by lia; reflexivity. }
  destruct o as [[y|]|e].
  - exists f0. auto.
  - intros out [f1 H1]. exists (f0 + f1). intros f Hf. rewrite E by lia. apply H1. lia.
  - exists f0. auto.
Qed.

Lemma skip_ends r d w : exists r1,
  ev (fun f => skip_whitespace (CE:=CE) cc so f (ast r [] d w)) (Ok tt, ast r1 [] d w).
Proof.
  induction r as [|x r [r1 IH]]; [exists []; apply skip_complete; exact I|].
  destruct (is_whitespace cc (it_ch x)) eqn:E.
  - exists r1. apply ev_S. eapply ev_ext; [|exact IH]. intros f. cbn [skip_whitespace].
    unfold bind at 1. cbn -[bind skip_whitespace]. rewrite E. reflexivity.
  - exists (x :: r). apply skip_complete. unfold white. congruence.
Qed.

Lemma next_operator_white x r d w out : white cc x ->
  ev (fun f => p_next f Operator (ast r [] d w)) out ->
  ev (fun f => p_next f Operator (ast (x :: r) [] d w)) out.
Proof.
  intros Hx [f0 H]. destruct (skip_ends r d w) as [r1 [f1 H1]].
  exists (S (S (f0 + f1))). intros [|[|f]] Hf; try lia.
  rewrite p_next_operator. unfold bind at 1. cbn [skip_whitespace]. unfold bind at 1.
  cbn -[bind skip_whitespace next_body]. unfold white in Hx. rewrite Hx.
  unfold bind at 1. cbn -[skip_whitespace next_body].
  change (PState (r, []) d w) with (ast r [] d w).
  rewrite H1 by lia. rewrite <- (H (S (S f))) by lia.
  rewrite p_next_operator. unfold bind. rewrite H1 by lia. reflexivity.
Qed.

(** In the mode [Operator], when no whitespace comes first. *)
Lemma next_operator r d w out : match r with [] => True | x :: _ => ~ white cc x end ->
  ev (fun f => next_body f Operator (ast r [] d w)) out ->
  ev (fun f => p_next f Operator (ast r [] d w)) out.
Proof.
  intros Hr H. apply ev_S. eapply ev_ext; [intros f; apply p_next_operator|].
  eapply ev_bind; [apply skip_complete; exact Hr|exact H].
Qed.

Lemma next_base s out : ev (fun f => next_body f Base s) out -> ev (fun f => p_next f Base s) out.
Proof. intros H. apply ev_S. exact H. Qed.

Lemma starts_facts (x : item Pos) : starts cc x ->
  is_nest_start cc (it_ch x) = true /\ is_nest_end cc (it_ch x) = false /\
  is_nest_escape cc (it_ch x) = false /\ is_whitespace cc (it_ch x) = false.
Proof. intros H. split; [exact H|]. apply (dc_start DC). exact H. Qed.

Lemma ends_facts (x : item Pos) : ends cc x ->
  is_nest_start cc (it_ch x) = false /\ is_nest_end cc (it_ch x) = true /\
  is_nest_escape cc (it_ch x) = false /\ is_whitespace cc (it_ch x) = false.
Proof.
  intros H. pose proof (dc_end DC _ H) as [? ?]. split; [|auto].
  destruct (is_nest_start cc (it_ch x)) eqn:E; auto. pose proof (dc_start DC _ E) as (? & _).
  unfold ends in H. congruence.
Qed.

(** At the end delimiter of the enclosing nest. *)
Lemma next_at_end m y r d w : ends cc y -> (0 < d)%N ->
  ev (fun f => p_next f m (ast (y :: r) [] d w)) (Ok None, ast (y :: r) [] d w).
Proof.
  intros Hy Hd. destruct (ends_facts Hy) as (E1 & E2 & E3 & E4). apply N.ltb_lt in Hd.
  assert (G : forall f, next_body f m (ast (y :: r) [] d w) = (Ok None, ast (y :: r) [] d w)).
  { intros f. unfold next_body, bind at 1. cbn -[bind]. rewrite E1, E2.
    unfold bind, get_depth, check_end_char, bind. cbn. rewrite E2. cbn. rewrite Hd. reflexivity. }
  assert (Hb : ev (fun f => next_body f m (ast (y :: r) [] d w)) (Ok None, ast (y :: r) [] d w))
    by (apply ev_const; exact G).
  destruct m.
  - apply next_base, Hb.
  - apply next_operator; [|exact Hb]. unfold white. congruence.
  - apply ev_S. exact Hb.
Qed.

Lemma next_at_eof m w :
  ev (fun f => p_next f m (ast [] [] 0 w)) (Ok None, ast [] [] 0 w).
Proof.
  assert (Hb : ev (fun f => next_body f m (ast [] [] 0 w)) (Ok None, ast [] [] 0 w))
    by (apply ev_const; reflexivity).
  destruct m.
  - apply next_base, Hb.
  - apply next_operator; [exact I|exact Hb].
  - apply ev_S. exact Hb.
Qed.

Lemma raw_first stop s t : (forall c, stop c = false -> delimiter cc c = false) ->
  raw stop s t -> match s with [] => True | x :: _ =>
  is_nest_start cc (it_ch x) = false /\ is_nest_end cc (it_ch x) = false end.
Proof.
  intros Hs [|x ? ? Hx|x ? ? ? Hx]; auto.
  - apply Hs in Hx. unfold delimiter in Hx. apply orb_false_iff in Hx. exact Hx.
  - apply (delimiter_escape DC) in Hx. unfold delimiter in Hx. apply orb_false_iff in Hx. exact Hx.
Qed.

Lemma body_text m s t r' d w : m <> Operands -> s <> [] -> raw (stop_of cc m) s t ->
  text_stop cc m d r' ->
  ev (fun f => next_body f m (ast (s ++ r') [] d w)) (Ok (Some (DText t)), ast r' [] d w).
Proof.
  intros Hm Hn H Hs. pose proof (raw_first (stop_delim cc m) H) as Hf.
  pose proof (text_complete _ _ w Hm H Hs) as [f0 E]. exists f0. intros f Hle.
  specialize (E f Hle). destruct s as [|x s]; [congruence|]. destruct Hf as [E1 E2].
  unfold next_body, bind at 1. cbn -[bind parse_text]. rewrite E1, E2.
  unfold bind at 1. cbn -[parse_text] in E.
  change (PState (x :: s ++ r', []) d w) with (ast (x :: s ++ r') [] d w). rewrite E. reflexivity.
Qed.

Lemma body_dangling m s t x d w : m <> Operands -> raw (stop_of cc m) s t -> escapes cc x ->
  ev (fun f => next_body f m (ast (s ++ [x]) [] d w)) (Ok (Some (DText t)), ast [] [] d w).
Proof.
  intros Hm H Hx. destruct (text_dangling d w Hm H Hx) as [f0 E]. exists f0. intros f Hle.
  specialize (E f Hle).
  assert (Hf : match s ++ [x] with [] => True | x :: _ =>
    is_nest_start cc (it_ch x) = false /\ is_nest_end cc (it_ch x) = false end).
  { destruct s as [|y s]; [|exact (raw_first (stop_delim cc m) H)].
    apply (delimiter_escape DC) in Hx. unfold delimiter in Hx. apply orb_false_iff in Hx. exact Hx. }
  remember (s ++ [x]) as r eqn:Er. destruct r as [|y r]; [destruct s; discriminate|].
  destruct Hf as [E1 E2]. unfold next_body, bind at 1. cbn -[bind parse_text]. rewrite E1, E2.
  unfold bind at 1. change (PState (y :: r, []) d w) with (ast (y :: r) [] d w).
  rewrite E. reflexivity.
Qed.

(** [parse_all] and iteration only depend on what [parse_next] gives. *)
Lemma next_total_ev m s f o s' : p_next f m s = (o, s') -> o <> OutOfFuel ->
  ev (fun f => p_next f m s) (o, s').
Proof.
  intros E Ho. exists f. intros f' Hf'. rewrite <- E. apply parse_next_fuel; [exact Hf'|].
  rewrite E. exact Ho.
Qed.

Lemma all_none s s1 :
  ev (fun f => p_next f Base s) (Ok None, s1) -> ev (fun f => p_all f Base s) (Ok DEmptyList, s1).
Proof.
  intros [f0 H]. apply ev_S. exists f0. intros f Hf. rewrite p_all_step. unfold bind at 1.
  rewrite H by exact Hf. reflexivity.
Qed.

Lemma all_some s d s1 ds s2 :
  ev (fun f => p_next f Base s) (Ok (Some d), s1) ->
  ev (fun f => p_all f Base s1) (Ok ds, s2) ->
  ev (fun f => p_all f Base s) (Ok (DList d ds), s2).
Proof.
  intros [f0 H] [f1 H1]. apply ev_S. exists (f0 + f1). intros f Hf.
  rewrite p_all_step. unfold bind at 1. rewrite H by lia. unfold bind at 1 2 3. cbn -[bind parse_all].
  unfold bind. destruct s1 as [s1 dd w1]. cbn. rewrite H1 by lia. reflexivity.
Qed.

Lemma all_same s s1 ds s2 :
  (forall out, ev (fun f => p_next f Base s1) out -> ev (fun f => p_next f Base s) out) ->
  ev (fun f => p_all f Base s1) (Ok ds, s2) -> ev (fun f => p_all f Base s) (Ok ds, s2).
Proof.
  intros Hs [f0 H].
  assert (exists o s', ev (fun f => p_next f Base s1) (o, s')) as (o & s' & E1).
  { pose proof (H (S f0) ltac:(lia)) as E. rewrite p_all_step in E. unfold bind at 1 in E.
    destruct (p_next f0 Base s1) as [o s'] eqn:En. exists o, s'.
    apply (next_total_ev _ _ _ En). intros ->. discriminate. }
  pose proof (Hs _ E1) as [f2 E2]. destruct E1 as [f1 E1].
  apply ev_S. exists (f0 + f1 + f2). intros f Hf.
  rewrite <- (H (S f)) by lia. rewrite !p_all_step. unfold bind at 1. symmetry. unfold bind at 1.
  rewrite E1, E2 by lia. reflexivity.
Qed.

Local Notation i_next := (iter_next umax cc so co ao bnd).
Local Notation i_collect := (iter_collect umax cc so co ao bnd).

Lemma coll_none s s1 :
  ev (fun f => p_next f Base s) (Ok None, s1) -> ev (fun f => i_collect f f s) (Ok [], s1).
Proof.
  intros [f0 H]. exists (S f0). intros [|f] Hf; [lia|].
  cbn [iter_collect]. unfold iter_next, do_next. rewrite H by lia. reflexivity.
Qed.

Lemma iter_collect_fuel n n' f f' s : n <= n' -> f <= f' ->
  fst (i_collect n f s) <> OutOfFuel -> i_collect n' f' s = i_collect n f s.
Proof.
  revert n' s. induction n as [|n IH]; intros n' s Hn Hf H; [cbn in H; congruence|].
  destruct n' as [|n']; [lia|]. cbn [iter_collect] in *.
  assert (E : i_next f' s = i_next f s).
  { apply iter_next_fuel; [exact Hf|]. destruct (i_next f s) as [[| | |] ?]; cbn in *; congruence. }
  rewrite E. destruct (i_next f s) as [[[x|]| | |] s1]; try reflexivity.
  rewrite IH; [reflexivity|lia|lia|].
  destruct (i_collect n f s1) as [[| | |] ?]; cbn in *; congruence.
Qed.

Lemma coll_item s (x : parse_item) s1 xs s2 :
  ev (fun f => i_next f s) (Ok (Some x), s1) ->
  ev (fun f => i_collect f f s1) (Ok xs, s2) ->
  ev (fun f => i_collect f f s) (Ok (x :: xs), s2).
Proof.
  intros [f0 H] [f1 H1]. exists (S (f0 + f1)). intros [|f] Hf; [lia|].
  cbn [iter_collect]. rewrite H by lia.
  rewrite (@iter_collect_fuel f f f (S f)); [rewrite H1 by lia; reflexivity|lia|lia|].
  rewrite H1 by lia. discriminate.
Qed.

Lemma coll_same s s1 xs s2 :
  (forall out, ev (fun f => p_next f Base s1) out -> ev (fun f => p_next f Base s) out) ->
  ev (fun f => i_collect f f s1) (Ok xs, s2) -> ev (fun f => i_collect f f s) (Ok xs, s2).
Proof.
  intros Hs [f0 H].
  assert (exists o s', ev (fun f => p_next f Base s1) (o, s')) as (o & s' & E1).
  { pose proof (H (S f0) ltac:(lia)) as E. cbn [iter_collect] in E. unfold iter_next, do_next in E.
    destruct (p_next (S f0) Base s1) as [o s'] eqn:En. exists o, s'.
    apply (next_total_ev _ _ _ En). intros ->. discriminate. }
  pose proof (Hs _ E1) as [f2 E2]. destruct E1 as [f1 E1].
  exists (S (f0 + f1 + f2)). intros [|f] Hf; [lia|].
  rewrite <- (H (S f)) by lia. cbn [iter_collect]. unfold iter_next, do_next.
  rewrite E1, E2 by lia. reflexivity.
Qed.

Lemma next_item s x s1 :
  ev (fun f => p_next f Base s) (Ok (Some x), s1) -> ev (fun f => i_next f s) (Ok (Some (inl x)), s1).
Proof.
  intros [f0 H]. exists f0. intros f Hf. unfold iter_next, do_next. rewrite H by exact Hf. reflexivity.
Qed.

Lemma next_item_err s e s1 :
  ev (fun f => p_next f Base s) (Err e, s1) -> ev (fun f => i_next f s) (Ok (Some (inr e)), s1).
Proof.
  intros [f0 H]. exists f0. intros f Hf. unfold iter_next, do_next. rewrite H by exact Hf. reflexivity.
Qed.

(** What follows a sequence of forms: an end delimiter inside a nest, or the end
    of input outside. *)
Definition closes (d : N) (r : source) : Prop :=
  match r with [] => d = 0%N | y :: _ => ends cc y /\ (0 < d)%N end.

Definition forms_parse (eof b : bool) (w : W) (s : source) ds (w' : W) (b' : bool) : Prop :=
  forall d r', (d + N_len s <= umax)%N -> closes d r' -> (eof = true -> r' = []) ->
  (b = true -> text_stop cc Base d (s ++ r')) /\
  ((0 < d)%N -> ev (fun f => p_all f Base (ast (s ++ r') [] d w)) (Ok (dlist ds), ast r' [] d w')) /\
  (d = 0%N -> ev (fun f => i_collect f f (ast (s ++ r') [] d w)) (Ok (map inl ds), ast r' [] d w')).

Definition nest_parse (w : W) (s : source) (o : option (datum text ET) + error Pos CE) (w' : W) : Prop :=
  forall d r', (d + N_len s <= umax)%N ->
  ev (fun f => p_nested f (ast (s ++ r') [] (d + 1) w))
     (match o with inl x => Ok x | inr e => Err e end, ast r' [] (d + 1) w').

Definition lead_parse (w : W) (l : source) (w1 : W) : Prop :=
  forall d r out, (d + N_len l <= umax)%N ->
  ev (fun f => p_next f Operator (ast r [] d w1)) out ->
  ev (fun f => p_next f Operator (ast (l ++ r) [] d w)) out.

Definition head_parse (w : W) (h : source) (x : datum text ET) (tx : bool) (w' : W) : Prop :=
  forall d r, (d + N_len h <= umax)%N -> (tx = true -> text_stop cc Operator d r) ->
  ev (fun f => p_next f Operator (ast (h ++ r) [] d w)) (Ok (Some x), ast r [] d w').

Lemma sep_peek tx sp body y d (w : W) : sep cc tx sp body -> ends cc y ->
  forall r,
  bind (peek so) (fun o => match o with
       | Some it => if is_whitespace cc (it_ch it)
                    then bind (next so) (fun _ => ret (CE:=CE) tt) else ret tt
       | None => ret tt
       end) (ast (sp ++ body ++ y :: r) [] d w) = (Ok tt, ast (body ++ y :: r) [] d w).
Proof.
  intros [(x & -> & H)|(-> & H)] Hy r; unfold bind; cbn.
  - unfold white in H. rewrite H. reflexivity.
  - destruct body as [|x body]; cbn.
    + destruct (ends_facts Hy) as (_ & _ & _ & ->). reflexivity.
    + assert (is_whitespace cc (it_ch x) = false) as ->; [|reflexivity].
      destruct tx; [apply (starts_facts H)|]. unfold white in H.
      destruct (is_whitespace cc (it_ch x)); congruence.
Qed.

Lemma sep_stop tx sp body y d (r : source) : sep cc tx sp body -> ends cc y -> tx = true ->
  text_stop cc Operator d (sp ++ body ++ y :: r).
Proof.
  intros [(x & -> & H)|(-> & H)] Hy ->; cbn.
  - unfold operator_delimiter. unfold white in H. rewrite H. split; [reflexivity|discriminate].
  - destruct body as [|x body]; cbn; (split; [|discriminate]);
    unfold operator_delimiter, delimiter.
    + unfold ends in Hy. rewrite Hy, !orb_true_r. reflexivity.
    + unfold starts in H. rewrite H, orb_true_r. reflexivity.
Qed.

Lemma nest_end_ends y (r : source) d (w : W) : ends cc y ->
  nest_end (CE:=CE) cc so (ast (y :: r) [] d w) = (Ok tt, ast r [] d w).
Proof. intros Hy. unfold nest_end, bind. cbn. unfold ends in Hy. rewrite Hy. reflexivity. Qed.

(** The part of [parse_nested] up to the operator and its separator. *)
Lemma nested_operator x l w1 h dd tx w2 sp body y w d r' :
  starts cc x -> lead_parse w l w1 -> head_parse w1 h dd tx w2 -> sep cc tx sp body -> ends cc y ->
  (d + N_len (x :: l ++ h ++ sp ++ body ++ [y]) <= umax)%N ->
  forall (o : option (datum text ET) + error Pos CE) w',
  (ev (fun f => match bnd dd with
          | Some (Operative opr) =>
              bind (p_text f Operands) (fun operands =>
              bind (nest_end cc so) (fun _ => call (opr dd operands)))
          | Some (Applicative apl) =>
              bind (p_all f Base) (fun arguments =>
              bind (nest_end cc so) (fun _ => call (apl dd arguments)))
          | None =>
              bind (p_all f Base) (fun operands =>
              bind (nest_end cc so) (fun _ =>
              bind (new_datum ao dd) (fun r1 =>
              bind (new_datum ao operands) (fun r2 => ret (Some (DComb r1 r2))))))
          end (ast (body ++ y :: r') [] (d + 1) w2))
    (match o with inl x => Ok x | inr e => Err e end, ast r' [] (d + 1) w')) ->
  ev (fun f => p_nested f (ast ((x :: l ++ h ++ sp ++ body ++ [y]) ++ r') [] (d + 1) w))
     (match o with inl x => Ok x | inr e => Err e end, ast r' [] (d + 1) w').
Proof.
  intros Hx Hl Hh Hsp Hy Hd o w' [f1 H]. cbn [length] in Hd. rewrite !app_length in Hd. cbn [length] in Hd.
  assert (Hop : ev (fun f => p_next f Operator (ast (l ++ h ++ sp ++ body ++ y :: r') [] (d + 1) w))
    (Ok (Some dd), ast (sp ++ body ++ y :: r') [] (d + 1) w2)).
  { apply Hl; [lia|]. apply Hh; [lia|]. intros E. eapply sep_stop; eauto. }
  destruct Hop as [f0 Hop].
  apply ev_S. exists (f0 + f1). intros f Hf.
  replace ((x :: l ++ h ++ sp ++ body ++ [y]) ++ r') with (x :: l ++ h ++ sp ++ body ++ y :: r')
    by (cbn; rewrite <- !app_assoc; reflexivity).
  rewrite p_nested_step. unfold bind at 1. cbn -[bind parse_next parse_text parse_all nest_end N.add sep].
  unfold starts in Hx. rewrite Hx. unfold bind at 1. cbn -[bind parse_next parse_text parse_all nest_end N.add].
  unfold bind at 1.
  change (PState (l ++ h ++ sp ++ body ++ y :: r', []) (d + 1)%N w)
    with (ast (l ++ h ++ sp ++ body ++ y :: r') [] (d + 1)%N w).
  rewrite Hop by lia.
  pose proof (sep_peek (d + 1) w2 Hsp Hy r') as Hpk.
  rewrite <- (H f) by lia.
  unfold bind at 1 in Hpk. cbn -[bind next ret N.add] in Hpk.
  unfold bind at 1. cbn -[bind parse_next parse_text parse_all nest_end next ret N.add call new_datum].
  unfold bind at 1. 
  change (PState (sp ++ body ++ y :: r', []) (d + 1)%N w2) with (ast (sp ++ body ++ y :: r') [] (d + 1)%N w2) in *.
  rewrite Hpk. reflexivity.
Qed.

Theorem grammar_parses :
  (forall eof b w s ds w' b', forms eof b w s ds w' b' -> forms_parse eof b w s ds w' b') /\
  (forall w s o w', nest w s o w' -> nest_parse w s o w') /\
  (forall w l w1, lead w l w1 -> lead_parse w l w1) /\
  (forall w h x tx w', head w h x tx w' -> head_parse w h x tx w').
Proof.
  apply grammar_mind.
  - (* f_nil *) intros eof b w d r' Hd Hc He. cbn [app]. destruct r' as [|y r'].
    + split; [intros _; exact I|]. split; intros Hd0.
      * cbn in Hc. lia.
      * subst d. apply coll_none, next_at_eof.
    + destruct Hc as [Hy Hpos]. split; [intros _|split; intros Hd0].
      * cbn. unfold delimiter. split; [|auto]. unfold ends in Hy. rewrite Hy, orb_true_r. reflexivity.
      * apply all_none, next_at_end; auto.
      * lia.
  - (* f_text *) intros eof w s t s' ds w' b' Hn Hr _ IH d r' Hd Hc He.
    rewrite app_length, Nat2N.inj_add in Hd.
    destruct (IH d r') as (IS & I1 & I2); [lia|auto|auto|]. split; [discriminate|].
    rewrite <- app_assoc.
    assert (Ht : ev (fun f => p_next f Base (ast (s ++ s' ++ r') [] d w))
                    (Ok (Some (DText t)), ast (s' ++ r') [] d w)).
    { apply next_base. apply body_text; auto. discriminate. }
    split; intros Hd0.
    + eapply all_some; [exact Ht|auto].
    + eapply coll_item; [apply next_item; exact Ht|auto].
  - (* f_dangling *) intros w s t x Hr Hx d r' Hd Hc He. specialize (He eq_refl). subst r'.
    cbn in Hc. subst d. rewrite app_nil_r. split; [discriminate|]. split; [lia|]. intros _.
    eapply coll_item; [apply next_item, next_base; apply (body_dangling (m:=Base)); eauto; discriminate|].
    apply coll_none, next_at_eof.
  - (* f_nest *) intros eof b w s x w1 s' ds w' b' Hns IHn _ IH d r' Hd Hc He.
    rewrite app_length, Nat2N.inj_add in Hd.
    destruct (IH d r') as (_ & I1 & I2); [lia|auto|auto|].
    pose proof (nest_cons Hns) as Hco.
    assert (0 < length s) by (destruct Hco as (? & ? & -> & _); cbn; lia).
    split.
    { intros _. destruct Hco as (z & s0 & -> & Hz). destruct (starts_facts Hz) as (E1 & E2 & _).
      cbn. unfold delimiter, ends. rewrite E1, E2. split; [reflexivity|discriminate]. }
    rewrite <- app_assoc.
    assert (Ht : ev (fun f => p_next f Base (ast (s ++ s' ++ r') [] d w))
                    (Ok (Some x), ast (s' ++ r') [] d w1)).
    { apply next_base. apply (@next_nest Base _ _ _ _ (inl (Some x))); auto; [lia|].
      apply (IHn d); lia. }
    split; intros Hd0.
    + eapply all_some; [exact Ht|auto].
    + eapply coll_item; [apply next_item; exact Ht|auto].
  - (* f_removed *) intros eof b w s w1 s' ds w' b' Hns IHn _ IH d r' Hd Hc He.
    rewrite app_length, Nat2N.inj_add in Hd.
    destruct (IH d r') as (_ & I1 & I2); [lia|auto|auto|].
    pose proof (nest_cons Hns) as Hco.
    assert (0 < length s) by (destruct Hco as (? & ? & -> & _); cbn; lia).
    split.
    { intros _. destruct Hco as (z & s0 & -> & Hz). destruct (starts_facts Hz) as (E1 & E2 & _).
      cbn. unfold delimiter, ends. rewrite E1, E2. split; [reflexivity|discriminate]. }
    rewrite <- app_assoc.
    assert (Ht : forall out, ev (fun f => p_next f Base (ast (s' ++ r') [] d w1)) out ->
      ev (fun f => p_next f Base (ast (s ++ s' ++ r') [] d w)) out).
    { intros out Ho. apply next_base.
      refine (@next_nest Base _ _ _ _ (inl None) _ _ Hco _ _ Ho); [lia|]. apply (IHn d); lia. }
    split; intros Hd0.
    + eapply all_same; [exact Ht|auto].
    + eapply coll_same; [exact Ht|auto].
  - (* n_empty *) intros w x l y w' Hx _ Hl Hy d r' Hd. cbn [length] in Hd.
    rewrite app_length in Hd. cbn [length] in Hd.
    assert (Hop : ev (fun f => p_next f Operator (ast (l ++ y :: r') [] (d + 1) w))
      (Ok None, ast (y :: r') [] (d + 1) w')).
    { apply Hl; [lia|]. apply next_at_end; auto. lia. }
    destruct Hop as [f0 Hop]. apply ev_S. exists f0. intros f Hf.
    replace ((x :: l ++ [y]) ++ r') with (x :: l ++ y :: r') by (cbn; rewrite <- app_assoc; reflexivity).
    rewrite p_nested_step. unfold bind at 1. cbn -[bind parse_next parse_text parse_all nest_end N.add].
    unfold starts in Hx. rewrite Hx. unfold bind at 1. cbn -[bind parse_next parse_text parse_all nest_end N.add].
    unfold bind at 1. change (PState (l ++ y :: r', []) (d + 1)%N w) with (ast (l ++ y :: r') [] (d + 1)%N w).
    rewrite Hop by lia. unfold bind at 1. cbn -[bind parse_next nest_end N.add].
    destruct (ends_facts Hy) as (_ & _ & _ & ->). unfold bind at 1. cbn -[bind nest_end N.add].
    unfold bind. change (PState (y :: r', []) (d + 1)%N w') with (ast (y :: r') [] (d + 1)%N w').
    rewrite nest_end_ends by exact Hy. reflexivity.
  - (* n_unbound *) intros w x l w1 h dd tx w2 sp body ds w' b' y Hx _ Hl _ Hh Hb Hsp _ IH Hy d r' Hd.
    apply (nested_operator d Hx Hl Hh Hsp Hy Hd (inl (Some (DComb dd (dlist ds))))). rewrite Hb.
    cbn [length] in Hd. rewrite !app_length in Hd. cbn [length] in Hd.
    destruct (IH (d + 1)%N (y :: r')) as (_ & I1 & _); [lia|cbn; split; [auto|lia]|discriminate|].
    eapply ev_bind; [apply I1; lia|]. apply ev_const. intros f. unfold bind at 1.
    rewrite nest_end_ends by exact Hy. reflexivity.
  - (* n_applicative *)
    intros w x l w1 h dd tx w2 fn sp body ds w3 b' y o w' Hx _ Hl _ Hh Hb Hsp _ IH Hy Hf d r' Hd.
    apply (nested_operator d Hx Hl Hh Hsp Hy Hd o). rewrite Hb.
    cbn [length] in Hd. rewrite !app_length in Hd. cbn [length] in Hd.
    destruct (IH (d + 1)%N (y :: r')) as (_ & I1 & _); [lia|cbn; split; [auto|lia]|discriminate|].
    eapply ev_bind; [apply I1; lia|]. apply ev_const. intros f. unfold bind at 1.
    rewrite nest_end_ends by exact Hy. unfold call. cbn -[N.add]. rewrite Hf. reflexivity.
  - (* n_operative *)
    intros w x l w1 h dd tx w2 fn sp body t y o w' Hx _ Hl _ Hh Hb Hsp Hq Hy Hf d r' Hd.
    apply (nested_operator d Hx Hl Hh Hsp Hy Hd o). rewrite Hb.
    cbn [length] in Hd. rewrite !app_length in Hd. cbn [length] in Hd.
    eapply ev_bind; [apply operands_complete; eauto; lia|]. apply ev_const. intros f. unfold bind at 1.
    rewrite nest_end_ends by exact Hy. unfold call. cbn -[N.add]. rewrite Hf. reflexivity.
  - (* l_nil *) intros w d r out _ H. exact H.
  - (* l_white *) intros w x s w' Hx _ IH d r out Hd H. cbn [length] in Hd. cbn [app].
    apply next_operator_white; auto. apply IH; auto. lia.
  - (* l_removed *) intros w s w1 s' w' Hns IHn _ IH d r out Hd H.
    rewrite app_length, Nat2N.inj_add in Hd. rewrite <- app_assoc.
    pose proof (nest_cons Hns) as Hco.
    assert (0 < length s) by (destruct Hco as (? & ? & -> & _); cbn; lia).
    apply next_operator.
    { destruct Hco as (z & s0 & -> & Hz). destruct (starts_facts Hz) as (_ & _ & _ & E).
      cbn. unfold white. congruence. }
    refine (@next_nest Operator _ _ _ _ (inl None) _ _ Hco _ _ _); [lia| |].
    + apply (IHn d); lia.
    + apply IH; auto. lia.
  - (* h_text *) intros w s t Hn Hr d r Hd Ht. apply next_operator.
    + destruct Hr as [|x ? ? Hx|x ? ? ? Hx]; [congruence| |]; cbn; unfold white.
      * unfold operator_delimiter in Hx. intros E; rewrite E in Hx; discriminate.
      * apply (dc_escape DC) in Hx. congruence.
    + apply body_text; auto. discriminate.
  - (* h_nest *) intros w s x w' Hns IHn d r Hd _.
    pose proof (nest_cons Hns) as Hco.
    assert (0 < length s) by (destruct Hco as (? & ? & -> & _); cbn; lia).
    apply next_operator.
    { destruct Hco as (z & s0 & -> & Hz). destruct (starts_facts Hz) as (_ & _ & _ & E).
      cbn. unfold white. congruence. }
    refine (@next_nest Operator _ _ _ _ (inl (Some x)) _ _ Hco _); [lia|]. apply (IHn d); lia.
Qed.

End Complete.
