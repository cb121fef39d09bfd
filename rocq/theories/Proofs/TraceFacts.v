(** What the log of combiner calls looks like after a run of the parser. *)
From Coq Require Import List Arith NArith Bool Lia.
From Verif.Model Require Import Prelude Parser Iter.
From Verif.Spec Require Import Grammar Balance AbsStream Contract Trace Fails.
From Verif.Proofs Require Import Wp GrammarFacts AbsParse AbsIter Complete.
Import ListNotations.
Set Implicit Arguments.

Section Logs.
Context {W ET Pos CE : Type}.
Local Notation text := (list (item Pos)).
Context (umax : N) (cc : classifier) (bnd : bindings W text ET Pos CE).
Context (DC : disjoint_classes cc).
Local Notation log := (list (@event text ET Pos CE)).
Local Notation W' := (W * log)%type.
Local Notation so := (@abs_stream W' Pos).
Local Notation co := (@abs_concat W' Pos).
Local Notation ao := (@abs_alloc W' ET Pos).
Local Notation lbnd := (logged bnd).
Local Notation i_next := (iter_next umax cc so co ao lbnd).

Lemma logged_inv d0 c : lbnd d0 = Some c ->
  (exists f, bnd d0 = Some (Operative f) /\ c = Operative (fun d t wl =>
      let (r, w') := f d t (fst wl) in (r, (w', snd wl ++ [OperativeCall d t r])))) \/
  (exists f, bnd d0 = Some (Applicative f) /\ c = Applicative (fun d t wl =>
      let (r, w') := f d t (fst wl) in (r, (w', snd wl ++ [ApplicativeCall d t r])))).
Proof.
  unfold logged. destruct (bnd d0) as [[f|f]|]; intros E; try discriminate; injection E as <-;
    [left|right]; exists f; auto.
Qed.

Lemma calls_log w w' : calls lbnd w w' -> exists new, snd w' = snd w ++ new /\ all_ok new.
Proof.
  induction 1 as [w|w w1 w2 d0 d f t o _ (new & E & A) Hb Hf|w w1 w2 d0 d f t o _ (new & E & A) Hb Hf].
  - exists []. rewrite app_nil_r. split; auto. constructor.
  - destruct (logged_inv _ Hb) as [(g & _ & Eg)|(g & _ & Eg)]; [|discriminate].
    injection Eg as ->. destruct (g d t (fst w1)) as [r w3]. injection Hf as -> <-.
    cbn. rewrite E, <- app_assoc. eexists. split; [reflexivity|].
    apply Forall_app. split; [exact A|]. constructor; [|constructor]. cbn. eauto.
  - destruct (logged_inv _ Hb) as [(g & _ & Eg)|(g & _ & Eg)]; [discriminate|].
    injection Eg as ->. destruct (g d t (fst w1)) as [r w3]. injection Hf as -> <-.
    cbn. rewrite E, <- app_assoc. eexists. split; [reflexivity|].
    apply Forall_app. split; [exact A|]. constructor; [|constructor]. cbn. eauto.
Qed.

Lemma nest_err_log w s e w' : nest cc lbnd w s (inr e) w' ->
  exists new ev, snd w' = snd w ++ new ++ [ev] /\ all_ok new /\ ev_result ev = inr e.
Proof.
  intros H. inversion H; subst;
    match goal with H : lbnd _ = Some _ |- _ => destruct (logged_inv _ H) as [(g & _ & Eg)|(g & _ & Eg)] end;
    try discriminate; injection Eg as ->;
    match goal with H : (let (_, _) := ?x in _) = _ |- _ => destruct x as [o w5] eqn:E5; injection H as -> <- end;
    match goal with H : Grammar.lead _ _ w _ ?wa, H' : Grammar.head _ _ ?wa _ _ _ ?wb |- _ =>
      pose proof (calls_trans (calls_lead H) (calls_head H')) as C end.
  - match goal with H : Grammar.forms _ _ _ _ _ _ _ ?wc _ |- _ =>
      pose proof (calls_trans C (calls_forms H)) as C' end.
    destruct (calls_log C') as (new & E & A). exists new. eexists. cbn. rewrite E, <- app_assoc.
    repeat split; auto.
  - destruct (calls_log C) as (new & E & A). exists new. eexists. cbn. rewrite E, <- app_assoc.
    repeat split; auto.
Qed.

(** One call of [next] with nothing accumulated. *)
Theorem next_calls f s w o st' : i_next f (ast s [] 0 w) = (Ok o, st') ->
  exists new r' p' w', st' = ast r' p' 0 w' /\ snd w' = snd w ++ new /\
  match o with
  | Some (inr e) =>
      (all_ok new /\ (e = MissingEndChar \/ exists p, e = UnbalancedEndChar p)) \/
      (exists pre ev, new = pre ++ [ev] /\ all_ok pre /\ ev_result ev = inr e /\
         p' = [] /\ exists u frm w1, s = u ++ frm ++ r' /\ forms cc lbnd false false w u [] w1 false /\
           fails cc lbnd w1 frm e w')
  | _ => all_ok new
  end.
Proof.
  intros E.
  pose proof (proj1 (parser_means umax lbnd DC f) Base s 0%N w ltac:(discriminate) ltac:(discriminate)) as G.
  unfold wp in G. unfold iter_next, do_next in E.
  destruct (parse_next umax cc so co ao lbnd f Base (ast s [] 0 w)) as [[[x|]|e| |] s1]; try discriminate;
    cbn in G; injection E as <- <-.
  - destruct G as (u & r & w1 & -> & _ & _ & b & Hf & _). destruct (calls_log (calls_forms Hf)) as (new & El & A).
    exists new, r, [], w1. auto.
  - destruct G as (u & r & w1 & -> & _ & _ & Hf). destruct (calls_log (calls_forms Hf)) as (new & El & A).
    exists new, r, [], w1. auto.
  - destruct G as (r & p & w' & -> & He).
    destruct He as [(-> & -> & Hs & C & _)|[(_ & -> & u & x & ds & b & -> & Hf & Hds & Hx & ->)|(-> & u & s0 & w1 & -> & Hn & C)]].
    + destruct (calls_log C) as (new & El & A). exists new, [], p, w'. repeat split; auto.
    + destruct (calls_log (calls_forms Hf)) as (new & El & A). exists new, r, [], w'.
      repeat split; auto. left. split; [auto|right; eauto].
    + destruct (fails_nest Hn) as (u0 & s1 & w2 & _ & Hn0 & C').
      destruct (calls_log (calls_trans (calls_forms C) C')) as (new & El & A).
      destruct (nest_err_log Hn0) as (new' & ev & El' & A' & Ev).
      exists (new ++ new' ++ [ev]), r, [], w'. repeat split; auto.
      { rewrite El', El, <- app_assoc. reflexivity. }
      right. exists (new ++ new'), ev. rewrite <- app_assoc. repeat split; auto.
      * apply Forall_app. auto.
      * exists u, s0, w1. auto.
Qed.
End Logs.
