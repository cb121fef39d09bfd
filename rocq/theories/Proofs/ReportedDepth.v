(** How far panics can raise the depth: each nest form that stays open has been read from the source. *)
From Coq Require Import List NArith Arith Bool Lia.
From Verif.Model Require Import Prelude Parser Iter.
From Verif.Spec Require Import Contract Reported.
Import ListNotations.
Set Implicit Arguments.

Section Bound.
Context {S A TT ET Pos CE W : Type}.
Context (umax : N) (cc : classifier) (so : stream_ops S A TT Pos) (co : concat_ops A TT)
        (ao : alloc_ops A TT ET) (bnd : bindings A TT ET Pos CE).
Context (Rs : S -> list (item Pos) -> list (item Pos) -> Prop) (Rt : TT -> list (item Pos) -> Prop) (view : A -> W).
Context (SC : stream_contract True view (reporting_stream so) Rs Rt).
Local Notation MM := (M (S:=S) (A:=A) (Pos:=Pos) (CE:=CE)).

Definition holds_items (s : S) (n : nat) : Prop := exists r p, Rs s r p /\ length r = n.

(** With at least [l] items left, [m] leaves the depth as it was, or panics with the depth raised by
    no more than it has read, less [c]. *)
Definition bo {X} (l c : nat) (m : MM X) : Prop := forall st n, l <= n -> holds_items (ps_strm st) n ->
  match m st with
  | (Ok _, st1) => ps_depth st1 = ps_depth st /\ exists n1, n1 <= n /\ holds_items (ps_strm st1) n1
  | (Err _, st1) => ps_depth st1 = ps_depth st
  | (Panic, st1) => exists n1, holds_items (ps_strm st1) n1 /\ (ps_depth st1 + N.of_nat (n1 + c) <= ps_depth st + N.of_nat n)%N
  | (OutOfFuel, _) => True
  end.
Local Notation b0 := (bo 0 0).

Lemma bo_ret X (x : X) : b0 (ret x). Proof. intros st n _ H. cbn. eauto. Qed.
Lemma bo_raise X e : b0 (raise (X:=X) e). Proof. intros st n _ H. reflexivity. Qed.
Lemma bo_panic X : b0 (panic (X:=X)). Proof. intros st n _ H. cbn. exists n. split; [exact H|lia]. Qed.
Lemma bo_nofuel X l c : bo l c (nofuel (X:=X)). Proof. intros st n _ H. exact I. Qed.
Lemma bo_assert b : b0 (assert b). Proof. destruct b; [apply bo_ret|apply bo_panic]. Qed.
Lemma bo_get : b0 get_depth. Proof. intros st n _ H. cbn. eauto. Qed.
Lemma bo_bind X Y l (m : MM X) (k : X -> MM Y) : bo l 0 m -> (forall x, b0 (k x)) -> bo l 0 (bind m k).
Proof.
  intros Hm Hk st n Hl H. specialize (Hm st n Hl H). unfold bind. destruct (m st) as [[x|e| |] st1]; try exact Hm.
  destruct Hm as (Hd & n1 & Hn & H1). specialize (Hk x st1 n1 ltac:(lia) H1). destruct (k x st1) as [[y|e| |] st2].
  - destruct Hk as (Hd2 & n2 & Hn2 & H2). split; [congruence|]. exists n2. split; [lia|exact H2].
  - congruence.
  - destruct Hk as (n2 & H2 & Hb). exists n2. split; [exact H2|]. rewrite Hd in Hb. lia.
  - exact I.
Qed.
Lemma bo_peek_bind X (k : option (item Pos) -> MM X) : b0 (k None) -> (forall it, bo 1 0 (k (Some it))) -> b0 (bind (peek so) k).
Proof.
  intros Hn Hs st n _ (r & p & H & <-). destruct (sc_peek SC _ _ _ H) as (s' & E & H'). cbn in E.
  unfold bind, peek. rewrite E. destruct r as [|it r]; cbn [hd_error no_err].
  - exact (Hn (PState s' (ps_depth st) (ps_alloc st)) 0 (le_n _) (ex_intro _ _ (ex_intro _ _ (conj H' eq_refl)))).
  - exact (Hs it (PState s' (ps_depth st) (ps_alloc st)) (length (it :: r)) (le_n_S _ _ (Nat.le_0_l _)) (ex_intro _ _ (ex_intro _ _ (conj H' eq_refl)))).
Qed.
Lemma bo_more X l (m : MM X) : b0 m -> bo l 0 m.
Proof. intros Hm st n _ H. exact (Hm st n (Nat.le_0_l _) H). Qed.
Lemma bo_peek : b0 (peek so).
Proof.
  intros st n _ (r & p & H & <-). destruct (sc_peek SC _ _ _ H) as (s' & E & H'). cbn in E. unfold peek. rewrite E. cbn.
  split; [reflexivity|]. exists (length r). split; [lia|]. exists r, p. auto.
Qed.
Lemma bo_next : b0 (next so).
Proof.
  intros st n _ (r & p & H & <-). destruct (sc_next SC _ _ _ H) as (s' & E & H'). cbn in E. unfold next. rewrite E. cbn.
  split; [reflexivity|]. exists (length (tl r)). split; [destruct r; cbn; lia|]. exists (tl r), []. auto.
Qed.
(** The first character of a nest form is read. *)
Lemma bo_next_bind X (k : option (item Pos) -> MM X) : (forall o, b0 (k o)) -> bo 1 1 (bind (next so) k).
Proof.
  intros Hk st n Hl (r & p & H & <-). destruct (sc_next SC _ _ _ H) as (s' & E & H'). cbn in E. unfold bind, next. rewrite E. cbn [no_err].
  destruct r as [|it r]; [cbn in Hl; lia|]. cbn [hd_error tl] in *.
  specialize (Hk (Some it) (PState s' (ps_depth st) (ps_alloc st)) (length r) (Nat.le_0_l _) (ex_intro _ _ (ex_intro _ _ (conj H' eq_refl)))).
  destruct (k (Some it) _) as [[y|e| |] st2]; cbn [ps_depth] in Hk; cbn [length].
  - destruct Hk as (Hd & n1 & Hn & H1). split; [exact Hd|]. exists n1. split; [lia|exact H1].
  - exact Hk.
  - destruct Hk as (n1 & H1 & Hb). exists n1. split; [exact H1|lia].
  - exact I.
Qed.
Lemma bo_next_accum : b0 (next_accum so).
Proof.
  intros st n _ (r & p & H & <-). pose proof (sc_next_accum SC _ (ps_alloc st) _ _ H) as G. cbn in G. unfold next_accum.
  destruct (s_next_accum so (ps_strm st) (ps_alloc st)) as [[o|e| |] [s a]]; cbn in G |- *.
  - destruct G as [(s' & a' & [= -> -> ->] & _ & G)|(_ & s' & a' & G & _)]; [|discriminate].
    split; [reflexivity|]. exists (length (tl r)). split; [destruct r; cbn; lia|]. eexists _, _. split; [exact G|reflexivity].
  - reflexivity.
  - destruct G as [(s' & a' & G & _)|(_ & s' & a' & [= -> ->] & _ & _ & G)]; [discriminate|].
    exists (length r). split; [eexists _, _; split; [exact G|reflexivity]|lia].
  - exact I.
Qed.
Lemma bo_accum_done : b0 (accum_done so).
Proof.
  intros st n _ (r & p & H & <-). pose proof (sc_accum_done SC _ (ps_alloc st) _ _ H) as G. cbn in G. unfold accum_done.
  destruct (s_accum_done so (ps_strm st) (ps_alloc st)) as [[o|e| |] [s a]]; cbn in G |- *.
  - destruct G as [(s' & a' & t & [= -> -> ->] & _ & _ & G)|(_ & s' & a' & G & _)]; [|discriminate].
    split; [reflexivity|]. exists (length r). split; [lia|]. eexists _, _. split; [exact G|reflexivity].
  - reflexivity.
  - destruct G as [(s' & a' & t & G & _)|(_ & s' & a' & [= -> ->] & _ & _ & G)]; [discriminate|].
    exists (length r). split; [eexists _, _; split; [exact G|reflexivity]|lia].
  - exact I.
Qed.
Lemma bo_concat t1 t2 : b0 (concat co t1 t2).
Proof. intros st n _ H. unfold concat. destruct (t_concat co t1 t2 (ps_alloc st)) as [[o|e| |] a]; cbn; eauto. exists n. split; [exact H|lia]. Qed.
Lemma bo_new_datum d : b0 (new_datum ao d).
Proof. intros st n _ H. unfold new_datum. destruct (a_new_datum ao d (ps_alloc st)) as [[o|e| |] a]; cbn; eauto. exists n. split; [exact H|lia]. Qed.
Lemma bo_call X (f : A -> (X + error Pos CE) * A) : b0 (call f).
Proof. intros st n _ H. unfold call. destruct (f (ps_alloc st)) as [[o|e] a]; cbn; eauto. Qed.
Lemma bo_get_mut d : b0 (fun st => (Ok (a_get_mut ao d (ps_alloc st)), st)).
Proof. intros st n _ H. cbn. eauto. Qed.
Lemma bo_deeper X Y (m : MM X) (k : X -> MM Y) : bo 1 1 m -> (forall x, b0 (k x)) ->
  bo 1 0 (bind (incr_depth umax) (fun _ => bind (finally m decr_depth) k)).
Proof.
  intros Hm Hk st n Hl H. unfold bind at 1, incr_depth. destruct (ps_depth st <? umax)%N; [|exists n; split; [exact H|lia]].
  set (st' := PState (ps_strm st) (ps_depth st + 1)%N (ps_alloc st)). specialize (Hm st' n Hl H). unfold bind at 1, finally.
  destruct (m st') as [[x|e| |] st1]; cbn [ps_depth st'] in Hm.
  - destruct Hm as (Hd & n1 & Hn & H1). unfold bind, decr_depth. rewrite Hd. replace (0 <? ps_depth st + 1)%N with true by (symmetry; apply N.ltb_lt; lia).
    cbn [ret]. replace (ps_depth st + 1 - 1)%N with (ps_depth st) by lia.
    specialize (Hk x (PState (ps_strm st1) (ps_depth st) (ps_alloc st1)) n1 (Nat.le_0_l _) H1).
    unfold ret. destruct (k x _) as [[y|e| |] st2]; cbn [ps_depth] in Hk.
    + destruct Hk as (Hd2 & n2 & Hn2 & H2). split; [exact Hd2|]. exists n2. split; [lia|exact H2].
    + exact Hk.
    + destruct Hk as (n2 & H2 & Hb). exists n2. split; [exact H2|lia].
    + exact I.
  - unfold bind, decr_depth. rewrite Hm. replace (0 <? ps_depth st + 1)%N with true by (symmetry; apply N.ltb_lt; lia). cbn. lia.
  - destruct Hm as (n1 & H1 & Hb). exists n1. split; [exact H1|lia].
  - exact I.
Qed.

Ltac go := repeat first
  [ apply bo_ret | apply bo_raise | apply bo_panic | apply bo_nofuel | apply bo_assert | apply bo_get
  | apply bo_peek | apply bo_next | apply bo_next_accum | apply bo_accum_done | apply bo_concat | apply bo_new_datum
  | apply bo_call | apply bo_get_mut | (apply bo_bind; [|intros ?]) ].

Lemma bo_skip f : b0 (skip_whitespace cc so f).
Proof. induction f as [|f IH]; cbn [skip_whitespace]; go. destruct x; go. destruct (is_whitespace _ _); go. exact IH. Qed.
Lemma bo_check d : b0 (check_end_char cc so d).
Proof. unfold check_end_char. go. destruct (0 <? d)%N; go. destruct x1; go. Qed.
Lemma bo_nest_end : b0 (nest_end cc so).
Proof. unfold nest_end. go. destruct x; go. Qed.
Lemma bo_text_done t n : b0 (parse_text_done so co t n).
Proof. unfold parse_text_done, concat_accum. destruct (n =? 0)%N; go. Qed.
Lemma bo_text_loop f : forall m t n, b0 (parse_text_loop umax cc so co f m t n).
Proof.
  induction f as [|f IH]; intros m t n; cbn [parse_text_loop]; go.
  destruct x as [it|]; [|apply bo_text_done].
  destruct ((n =? 0)%N && is_end_char cc (it_ch it) m); [apply bo_text_done|].
  destruct (is_nest_escape cc (it_ch it)); [unfold concat_accum; go; apply IH|].
  destruct (is_nest_start cc (it_ch it)); [go; destruct (n <? umax)%N; [apply IH|go]|].
  destruct (is_nest_end cc (it_ch it)).
  { destruct (0 <? n)%N; [go; apply IH|]. apply bo_bind; [go|intros d]. apply bo_bind; [apply bo_check|intros _; apply bo_text_done]. }
  go. apply IH.
Qed.
Lemma bo_text f m : b0 (parse_text umax cc so co f m).
Proof. apply bo_text_loop. Qed.

Lemma bo_parser f : (forall m, b0 (parse_next umax cc so co ao bnd f m)) /\
  bo 1 1 (parse_nested umax cc so co ao bnd f) /\
  (forall m, b0 (parse_all umax cc so co ao bnd f m)).
Proof.
  induction f as [|f (IN & IE & IA)]; [split; [|split]; [intros m| |intros m]; apply bo_nofuel|]. split; [|split].
  - intros m. cbn [parse_next]. apply bo_bind; [destruct (is_operator_mode m); [apply bo_skip|go]|intros _].
    apply bo_peek_bind; [go; destruct (x =? 0)%N; go|intros it].
    destruct (is_nest_start cc (it_ch it)).
    { apply bo_deeper; [exact IE|]. intros [d|]; [go|apply IN]. }
    apply bo_more.
    destruct (is_nest_end cc (it_ch it)); [apply bo_bind; [go|intros d]; apply bo_bind; [apply bo_check|intros _; go]|]. apply bo_bind; [apply bo_text|intros t; go].
  - cbn [parse_nested]. apply bo_next_bind. intros start. apply bo_bind; [go|intros _].
    apply bo_bind; [apply IN|intros operator]. apply bo_bind; [go|intros o].
    apply bo_bind; [destruct o as [it|]; [destruct (is_whitespace cc (it_ch it))|]; go|intros _].
    destruct operator as [d|]; [|apply bo_bind; [apply bo_nest_end|intros _; go]].
    destruct (bnd d) as [[opr|apl]|].
    + apply bo_bind; [apply bo_text|intros t]. apply bo_bind; [apply bo_nest_end|intros _; go].
    + apply bo_bind; [apply IA|intros t]. apply bo_bind; [apply bo_nest_end|intros _; go].
    + apply bo_bind; [apply IA|intros t]. apply bo_bind; [apply bo_nest_end|intros _; go].
  - intros m. cbn [parse_all]. apply bo_bind; [apply IN|intros [d|]; [|go]].
    apply bo_bind; [go|intros e]. apply bo_bind; [go|intros n]. apply bo_bind; [apply bo_get_mut|intros b].
    destruct b; [apply bo_bind; [apply IA|intros; go]|go].
Qed.

Lemma panic_bound f st r p st1 : Rs (ps_strm st) r p -> iter_next umax cc so co ao bnd f st = (Panic, st1) ->
  exists r1 p1, Rs (ps_strm st1) r1 p1 /\ (ps_depth st1 + N.of_nat (length r1) <= ps_depth st + N.of_nat (length r))%N.
Proof.
  intros H. unfold iter_next, do_next.
  pose proof (proj1 (bo_parser f) Base st (length r) (Nat.le_0_l _) (ex_intro _ _ (ex_intro _ _ (conj H eq_refl)))) as G.
  destruct (parse_next umax cc so co ao bnd f Base st) as [[[d|]|e| |] st2]; try discriminate.
  intros [= <-]. destruct G as (n1 & (r1 & p1 & H1 & <-) & Hb). exists r1, p1. split; [exact H1|lia].
Qed.
End Bound.
