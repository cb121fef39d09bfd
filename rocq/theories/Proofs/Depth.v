(** Whatever the collaborators do, each parser function that returns leaves the
    nest depth as it found it. *)
From Coq Require Import List Arith NArith Bool Lia.
From Verif.Model Require Import Prelude Parser Iter.
Import ListNotations.
Set Implicit Arguments.

Section Depth.
Context {S A TT ET Pos CE : Type}.
Context (umax : N) (cc : classifier) (so : stream_ops S A TT Pos) (co : concat_ops A TT)
        (ao : alloc_ops A TT ET) (bnd : bindings A TT ET Pos CE).

Definition keeps_depth {X} (m : M (S:=S) (A:=A) (Pos:=Pos) (CE:=CE) X) : Prop :=
  forall st, match fst (m st) with
             | Ok _ | Err _ => ps_depth (snd (m st)) = ps_depth st
             | _ => True
             end.

Lemma kd_bind X Y (m : M X) (k : X -> M Y) :
  keeps_depth m -> (forall x, keeps_depth (k x)) -> keeps_depth (bind m k).
Proof.
  intros Hm Hk st. specialize (Hm st). unfold bind.
  destruct (m st) as [[x|e| |] st']; cbn in *; auto.
  specialize (Hk x st'). destruct (k x st') as [[y|e| |] st'']; cbn in *; congruence.
Qed.

Lemma kd_ret X (x : X) : keeps_depth (ret x). Proof. intros st; reflexivity. Qed.
Lemma kd_raise X e : keeps_depth (raise (X:=X) e). Proof. intros st; reflexivity. Qed.
Lemma kd_panic X : keeps_depth (panic (X:=X)). Proof. intros st; exact I. Qed.
Lemma kd_nofuel X : keeps_depth (nofuel (X:=X)). Proof. intros st; exact I. Qed.
Lemma kd_get_depth : keeps_depth get_depth. Proof. intros st; reflexivity. Qed.
Lemma kd_assert b : keeps_depth (assert b).
Proof. destruct b; [apply kd_ret|apply kd_panic]. Qed.

Ltac prim := intros st; unfold keeps_depth;
  repeat match goal with |- context [let (_, _) := ?x in _] => destruct x end;
  cbn; match goal with |- context [match ?r with _ => _ end] => destruct r end; cbn; auto.

Lemma kd_peek : keeps_depth (peek so).
Proof.
  intros st; unfold peek; destruct (s_peek so (ps_strm st)) as [[|[]| |] ?]; cbn; auto.
Qed.
Lemma kd_next : keeps_depth (next so).
Proof.
  intros st; unfold next; destruct (s_next so (ps_strm st)) as [[|[]| |] ?]; cbn; auto.
Qed.
Lemma kd_next_accum : keeps_depth (next_accum so).
Proof.
  intros st; unfold next_accum;
  destruct (s_next_accum so (ps_strm st) (ps_alloc st)) as [[| | |] [? ?]]; cbn; auto.
Qed.
Lemma kd_accum_done : keeps_depth (accum_done so).
Proof.
  intros st; unfold accum_done;
  destruct (s_accum_done so (ps_strm st) (ps_alloc st)) as [[| | |] [? ?]]; cbn; auto.
Qed.
Lemma kd_concat t1 t2 : keeps_depth (concat co t1 t2).
Proof.
  intros st; unfold concat; destruct (t_concat co t1 t2 (ps_alloc st)) as [[| | |] ?]; cbn; auto.
Qed.
Lemma kd_new_datum d : keeps_depth (new_datum ao d).
Proof.
  intros st; unfold new_datum; destruct (a_new_datum ao d (ps_alloc st)) as [[| | |] ?]; cbn; auto.
Qed.
Lemma kd_call X (f : A -> (X + error Pos CE) * A) : keeps_depth (call f).
Proof.
  intros st; unfold call; destruct (f (ps_alloc st)) as [[|] ?]; cbn; auto.
Qed.

Lemma kd_enter X (m : M X) :
  keeps_depth m -> keeps_depth (bind (incr_depth umax) (fun _ => finally m decr_depth)).
Proof.
  intros Hm st. unfold bind, incr_depth, finally.
  destruct (ps_depth st <? umax)%N; cbn; [|exact I].
  specialize (Hm (PState (ps_strm st) (ps_depth st + 1) (ps_alloc st))).
  destruct (m _) as [[x|e| |] st']; cbn in *; auto; unfold bind, decr_depth; rewrite Hm;
  (destruct (0 <? ps_depth st + 1)%N; cbn; [lia|exact I]).
Qed.

Hint Resolve kd_ret kd_raise kd_panic kd_nofuel kd_get_depth kd_assert kd_peek kd_next
  kd_next_accum kd_accum_done kd_concat kd_new_datum kd_call : kd.

Ltac kd := repeat first
  [ assumption
  | solve [auto with kd]
  | apply kd_bind; [|intros ?]
  | match goal with
    | |- keeps_depth (if ?b then _ else _) => destruct b
    | |- keeps_depth (match ?b with _ => _ end) => destruct b
    end ].

Lemma kd_skip_whitespace fuel : keeps_depth (skip_whitespace cc so fuel).
Proof. induction fuel; cbn [skip_whitespace]; kd. Qed.
Lemma kd_check_end_char d : keeps_depth (check_end_char cc so d).
Proof. unfold check_end_char; kd. Qed.
Hint Resolve kd_skip_whitespace kd_check_end_char : kd.
Lemma kd_parse_text_done t n : keeps_depth (parse_text_done so co t n).
Proof. unfold parse_text_done, concat_accum; kd. Qed.
Hint Resolve kd_parse_text_done : kd.
Lemma kd_parse_text_loop fuel m : forall t n, keeps_depth (parse_text_loop umax cc so co fuel m t n).
Proof. induction fuel; intros t n; cbn [parse_text_loop]; unfold concat_accum; cbv zeta; kd. Qed.
Lemma kd_parse_text fuel m : keeps_depth (parse_text umax cc so co fuel m).
Proof. apply kd_parse_text_loop. Qed.
Lemma kd_nest_end : keeps_depth (nest_end cc so).
Proof. unfold nest_end; kd. Qed.
Hint Resolve kd_parse_text kd_nest_end : kd.

Lemma kd_parse fuel :
  (forall m, keeps_depth (parse_next umax cc so co ao bnd fuel m)) /\
  keeps_depth (parse_nested umax cc so co ao bnd fuel) /\
  (forall m, keeps_depth (parse_all umax cc so co ao bnd fuel m)).
Proof.
  induction fuel as [|fuel (IH1 & IH2 & IH3)].
  - repeat split; intros; apply kd_nofuel.
  - repeat split; intros.
    + cbn [parse_next]. cbv zeta. apply kd_bind; [|intros _]; [kd|].
      apply kd_bind; [auto with kd|]. intros [it|]; [|kd].
      destruct (is_nest_start cc (it_ch it)); [|kd].
      intros st.
      match goal with |- context [bind ?i (fun _ => bind ?f ?k)] =>
        assert (E : bind i (fun _ => bind f k) st = bind (bind i (fun _ => f)) k st)
          by (unfold bind; destruct (i st) as [[| | |] ?]; reflexivity)
      end.
      rewrite E. revert st E. intros st _. revert st.
      apply (@kd_bind _ _ (bind (incr_depth umax) (fun _ => finally (parse_nested umax cc so co ao bnd fuel) decr_depth))).
      * apply kd_enter. exact IH2.
      * intros x; kd.
    + cbn [parse_nested]. kd.
    + cbn [parse_all]. kd.
Qed.

End Depth.
