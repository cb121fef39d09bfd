(** The parser over collaborators that panic, and over the same ones that report. *)
From Coq Require Import List NArith Arith Bool Lia.
From Verif.Model Require Import Prelude Parser Iter.
From Verif.Spec Require Import Contract Reported.
From Verif.Proofs Require Import Wp Safety FuelMono.
Import ListNotations.
Set Implicit Arguments.

Section Facts.
Context {S A TT ET Pos CE : Type}.
Context (umax : N) (cc : classifier) (so : stream_ops S A TT Pos) (co : concat_ops A TT)
        (ao : alloc_ops A TT ET) (bnd : bindings A TT ET Pos CE).
Local Notation MM := (M (S:=S) (A:=A) (Pos:=Pos) (CE:=CE)).
Local Notation so2 := (reporting_stream so).
Local Notation co2 := (reporting_concat co).
Local Notation ao2 := (reporting_alloc ao).

(** What the stream keeps to, and how it is left when something panics that would report. *)
Context (Inv PInv : S -> Prop) (TInv : TT -> Prop).
Context (H_peek : forall s, Inv s -> Inv (snd (s_peek so s))).
Context (H_next : forall s, Inv s -> Inv (snd (s_next so s))).
Context (H_accum : forall s a, Inv s -> Inv (fst (snd (s_next_accum so s a))) /\ (fst (s_next_accum so s a) = Panic -> PInv (fst (snd (s_next_accum so s a))))).
Context (H_done : forall s a, Inv s -> Inv (fst (snd (s_accum_done so s a))) /\ (fst (s_accum_done so s a) = Panic -> PInv (fst (snd (s_accum_done so s a)))) /\
  (forall t, fst (s_accum_done so s a) = Ok t -> TInv t)).
Context (H_empty : TInv (t_empty co)).
Context (H_concat : forall t1 t2 a, TInv t1 -> TInv t2 -> (fst (t_concat co t1 t2 a) = Panic -> forall s, Inv s -> PInv s) /\
  (forall t, fst (t_concat co t1 t2 a) = Ok t -> TInv t)).
Context (H_alloc : forall d a s, fst (a_new_datum ao d a) = Panic -> Inv s -> PInv s).

(** The outcomes of the two, started at depth [d]. *)
Definition same_out {X} (Q : X -> Prop) (d : N) (o1 o2 : res (error Pos CE) X * pstate S A) : Prop :=
  Inv (ps_strm (snd o1)) /\
  match o1, o2 with
  | (Ok x, st1), (Ok y, st2) => x = y /\ st1 = st2 /\ ps_depth st1 = d /\ Q x
  | (Err e, st1), (Err e', st2) => e = e' /\ st1 = st2 /\ ps_depth st1 = d
  | (Panic, st1), (Err e, st2) => e = FailedAlloc AllocExhausted /\ st2 = PState (ps_strm st1) d (ps_alloc st1) /\ (d <= ps_depth st1)%N /\ PInv (ps_strm st1)
  | (Panic, st1), (Panic, st2) => st1 = st2 /\ (d <= ps_depth st1)%N
  | (OutOfFuel, st1), (OutOfFuel, st2) => st1 = st2
  | _, _ => False
  end.
Definition sameq {X} (Q : X -> Prop) (m1 m2 : MM X) : Prop := forall st, Inv (ps_strm st) -> same_out Q (ps_depth st) (m1 st) (m2 st).
Local Notation same := (sameq (fun _ => True)).

Lemma same_ret X (x : X) : same (ret x) (ret x).
Proof. intros st HI. unfold same_out; cbn. auto. Qed.
Lemma same_raise X e : same (raise (X:=X) e) (raise e).
Proof. intros st HI. unfold same_out; cbn. auto. Qed.
Lemma same_panic X : same (panic (X:=X)) panic.
Proof. intros st HI. unfold same_out; cbn. repeat split; auto; lia. Qed.
Lemma same_nofuel X : same (nofuel (X:=X)) nofuel.
Proof. intros st HI. unfold same_out; cbn. auto. Qed.
Lemma same_assert b : same (assert b) (assert b).
Proof. destruct b; [apply same_ret|apply same_panic]. Qed.
Lemma same_get_depth : same get_depth get_depth.
Proof. intros st HI. unfold same_out; cbn. auto. Qed.

Lemma sameq_bind X Y (P : X -> Prop) (Q : Y -> Prop) (m1 m2 : MM X) (k1 k2 : X -> MM Y) :
  sameq P m1 m2 -> (forall x, P x -> sameq Q (k1 x) (k2 x)) -> sameq Q (bind m1 k1) (bind m2 k2).
Proof.
  intros Hm Hk st HI. specialize (Hm st HI). unfold bind. destruct Hm as [HV Hm].
  destruct (m1 st) as [[x|e| |] st1], (m2 st) as [[y|e'| |] st2]; cbn in Hm, HV; try contradiction; [|split; cbn; auto ..].
  destruct Hm as (<- & <- & Hd & HQ). rewrite <- Hd. apply Hk; assumption.
Qed.
Lemma same_bind X Y (m1 m2 : MM X) (k1 k2 : X -> MM Y) : same m1 m2 -> (forall x, same (k1 x) (k2 x)) -> same (bind m1 k1) (bind m2 k2).
Proof. intros Hm Hk. apply (sameq_bind (P:=fun _ => True)); auto. Qed.

Lemma same_peek : same (peek so) (peek so2).
Proof. intros st HI. unfold same_out, peek. cbn. pose proof (H_peek HI). destruct (s_peek so (ps_strm st)) as [[o|[]| |] s]; cbn in *; repeat split; auto; lia. Qed.
Lemma same_next : same (next so) (next so2).
Proof. intros st HI. unfold same_out, next. cbn. pose proof (H_next HI). destruct (s_next so (ps_strm st)) as [[o|[]| |] s]; cbn in *; repeat split; auto; lia. Qed.
Lemma same_next_accum : same (next_accum so) (next_accum so2).
Proof.
  intros st HI. unfold same_out, next_accum. cbn. pose proof (H_accum (ps_alloc st) HI) as [H1 H2].
  destruct (s_next_accum so (ps_strm st) (ps_alloc st)) as [[o|e| |] [s a]]; cbn in *; repeat split; auto; lia.
Qed.
Lemma same_accum_done : sameq TInv (accum_done so) (accum_done so2).
Proof.
  intros st HI. unfold same_out, accum_done. cbn. pose proof (H_done (ps_alloc st) HI) as (H1 & H2 & H3).
  destruct (s_accum_done so (ps_strm st) (ps_alloc st)) as [[o|e| |] [s a]]; cbn in *; repeat split; auto; lia.
Qed.
Lemma same_concat t1 t2 : TInv t1 -> TInv t2 -> sameq TInv (concat co t1 t2) (concat co2 t1 t2).
Proof.
  intros T1 T2 st HI. unfold same_out, concat. cbn. destruct (H_concat (ps_alloc st) T1 T2) as [G G2].
  destruct (t_concat co t1 t2 (ps_alloc st)) as [[o|e| |] a]; cbn in *; repeat split; auto; lia.
Qed.
Lemma same_new_datum d : same (new_datum ao d) (new_datum ao2 d).
Proof.
  intros st HI. unfold same_out, new_datum. cbn. pose proof (fun H => H_alloc d (ps_alloc st) H HI) as G.
  destruct (a_new_datum ao d (ps_alloc st)) as [[o|e| |] a]; cbn in *; repeat split; auto; lia.
Qed.
Lemma same_call X (f : A -> (X + error Pos CE) * A) : same (call f) (call f).
Proof. intros st HI. unfold same_out, call. destruct (f (ps_alloc st)) as [[o|e] a]; cbn; repeat split; auto; lia. Qed.
Lemma same_get_mut d : same (fun st => (Ok (a_get_mut ao d (ps_alloc st)), st)) (fun st => (Ok (a_get_mut ao2 d (ps_alloc st)), st)).
Proof. intros st HI. unfold same_out; cbn. auto. Qed.

(** A nest form: one deeper, and not back when it panics. *)
Lemma same_deeper X Y (m1 m2 : MM X) (k1 k2 : X -> MM Y) : same m1 m2 -> (forall x, same (k1 x) (k2 x)) ->
  same (bind (incr_depth umax) (fun _ => bind (finally m1 decr_depth) k1)) (bind (incr_depth umax) (fun _ => bind (finally m2 decr_depth) k2)).
Proof.
  intros Hm Hk st HI. unfold bind at 1 3. unfold incr_depth. destruct (ps_depth st <? umax)%N; [|unfold same_out; cbn; repeat split; auto; lia].
  set (st' := PState (ps_strm st) (ps_depth st + 1)%N (ps_alloc st)). specialize (Hm st' HI). unfold bind, finally. destruct Hm as [HV Hm].
  destruct (m1 st') as [[x|e| |] st1], (m2 st') as [[y|e'| |] st2]; cbn in Hm, HV; try contradiction.
  - destruct Hm as (<- & <- & Hd & _). unfold decr_depth, bind. rewrite Hd. replace (0 <? ps_depth st + 1)%N with true by (symmetry; apply N.ltb_lt; lia).
    cbn. replace (ps_depth st + 1 - 1)%N with (ps_depth st) by lia.
    exact (Hk x (PState (ps_strm st1) (ps_depth st) (ps_alloc st1)) HV).
  - destruct Hm as (<- & <- & Hd). unfold decr_depth, bind. rewrite Hd. replace (0 <? ps_depth st + 1)%N with true by (symmetry; apply N.ltb_lt; lia).
    unfold same_out; cbn. repeat split; [exact HV|lia].
  - destruct Hm as (-> & -> & Hd & HP). unfold decr_depth, bind. cbn [ps_depth ps_strm ps_alloc st'].
    replace (0 <? ps_depth st + 1)%N with true by (symmetry; apply N.ltb_lt; lia). unfold same_out; cbn.
    replace (ps_depth st + 1 - 1)%N with (ps_depth st) by lia. repeat split; auto. lia.
  - destruct Hm as (<- & Hd). unfold same_out; cbn. repeat split; auto. lia.
  - split; [exact HV|exact Hm].
Qed.

Ltac go := repeat first
  [ apply same_ret | apply same_raise | apply same_panic | apply same_nofuel | apply same_assert | apply same_get_depth
  | apply same_peek | apply same_next | apply same_next_accum | apply same_new_datum
  | apply same_call | apply same_get_mut | (apply same_bind; [|intros ?]) ].

Lemma same_skip f : same (skip_whitespace cc so f) (skip_whitespace cc so2 f).
Proof. induction f as [|f IH]; cbn [skip_whitespace]; go. destruct x; go. destruct (is_whitespace _ _); go. exact IH. Qed.
Lemma same_check d : same (check_end_char cc so d) (check_end_char cc so2 d).
Proof. unfold check_end_char. go. destruct (0 <? d)%N; go. destruct x1; go. Qed.
Lemma same_nest_end : same (nest_end cc so) (nest_end cc so2).
Proof. unfold nest_end. go. destruct x; go. Qed.
Lemma same_concat_accum t : TInv t -> sameq TInv (concat_accum so co t) (concat_accum so2 co2 t).
Proof. intros HT. unfold concat_accum. eapply sameq_bind; [exact same_accum_done|]. intros t' HT'. apply same_concat; assumption. Qed.
Lemma same_text_done t n : TInv t -> same (parse_text_done so co t n) (parse_text_done so2 co2 t n).
Proof.
  intros HT. unfold parse_text_done. destruct (n =? 0)%N; [|go]. intros st HI. destruct (@same_concat_accum t HT st HI) as [HV H]. split; [exact HV|].
  destruct (concat_accum so co t st) as [[x|e| |] st1], (concat_accum so2 co2 t st) as [[y|e'| |] st2]; try exact H. intuition.
Qed.
Lemma same_text_loop f : forall m t n, TInv t -> same (parse_text_loop umax cc so co f m t n) (parse_text_loop umax cc so2 co2 f m t n).
Proof.
  induction f as [|f IH]; intros m t n HT; cbn [parse_text_loop]; go.
  destruct x as [it|]; [|apply same_text_done; exact HT].
  destruct ((n =? 0)%N && is_end_char cc (it_ch it) m); [apply same_text_done; exact HT|].
  destruct (is_nest_escape cc (it_ch it)).
  { eapply sameq_bind; [exact (@same_concat_accum t HT)|]. intros t' HT'. go. apply IH. exact HT'. }
  destruct (is_nest_start cc (it_ch it)).
  { go. destruct (n <? umax)%N; [apply IH; exact HT|go]. }
  destruct (is_nest_end cc (it_ch it)).
  { destruct (0 <? n)%N; [go; apply IH; exact HT|]. apply same_bind; [go|intros d]. apply same_bind; [apply same_check|intros _; apply same_text_done; exact HT]. }
  go. apply IH. exact HT.
Qed.
Lemma same_text f m : same (parse_text umax cc so co f m) (parse_text umax cc so2 co2 f m).
Proof. apply same_text_loop. exact H_empty. Qed.

Lemma same_parser f : (forall m, same (parse_next umax cc so co ao bnd f m) (parse_next umax cc so2 co2 ao2 bnd f m)) /\
  same (parse_nested umax cc so co ao bnd f) (parse_nested umax cc so2 co2 ao2 bnd f) /\
  (forall m, same (parse_all umax cc so co ao bnd f m) (parse_all umax cc so2 co2 ao2 bnd f m)).
Proof.
  induction f as [|f (IN & IE & IA)]; [split; [|split]; [intros m| |intros m]; apply same_nofuel|]. split; [|split].
  - intros m. cbn [parse_next]. apply same_bind; [destruct (is_operator_mode m); [apply same_skip|go]|intros _]. go.
    destruct x as [it|]; [|go; destruct (x =? 0)%N; go].
    destruct (is_nest_start cc (it_ch it)).
    { apply same_deeper; [exact IE|]. intros [d|]; [go|apply IN]. }
    destruct (is_nest_end cc (it_ch it)); [apply same_bind; [go|intros d]; apply same_bind; [apply same_check|intros _; go]|]. apply same_bind; [apply same_text|intros t; go].
  - cbn [parse_nested]. apply same_bind; [go|intros start]. apply same_bind; [go|intros _].
    apply same_bind; [apply IN|intros operator]. apply same_bind; [go|intros o].
    apply same_bind; [destruct o as [it|]; [destruct (is_whitespace cc (it_ch it))|]; go|intros _].
    destruct operator as [d|]; [|apply same_bind; [apply same_nest_end|intros _; go]].
    destruct (bnd d) as [[opr|apl]|].
    + apply same_bind; [apply same_text|intros t]. apply same_bind; [apply same_nest_end|intros _; go].
    + apply same_bind; [apply IA|intros t]. apply same_bind; [apply same_nest_end|intros _; go].
    + apply same_bind; [apply IA|intros t]. apply same_bind; [apply same_nest_end|intros _; go].
  - intros m. cbn [parse_all]. apply same_bind; [apply IN|intros [d|]; [|go]].
    apply same_bind; [go|intros e]. apply same_bind; [go|intros n]. apply same_bind; [apply same_get_mut|intros b].
    destruct b; [apply same_bind; [apply IA|intros; go]|go].
Qed.

Lemma same_iter_next f st : Inv (ps_strm st) ->
  Inv (ps_strm (snd (iter_next umax cc so co ao bnd f st))) /\
  match iter_next umax cc so co ao bnd f st, iter_next umax cc so2 co2 ao2 bnd f st with
  | (Ok o, st1), (Ok o2, st2) => o = o2 /\ st1 = st2 /\ ps_depth st1 = ps_depth st
  | (Panic, st1), (Ok o2, st2) => o2 = Some (inr (FailedAlloc AllocExhausted)) /\
      st2 = PState (ps_strm st1) (ps_depth st) (ps_alloc st1) /\ (ps_depth st <= ps_depth st1)%N /\ PInv (ps_strm st1)
  | (Panic, st1), (Panic, st2) => st1 = st2 /\ (ps_depth st <= ps_depth st1)%N
  | (OutOfFuel, st1), (OutOfFuel, st2) => st1 = st2
  | _, _ => False
  end.
Proof.
  intros HI. unfold iter_next, do_next. destruct (proj1 (same_parser f) Base st HI) as [HV H].
  destruct (parse_next umax cc so co ao bnd f Base st) as [[[d|]|e| |] st1], (parse_next umax cc so2 co2 ao2 bnd f Base st) as [[[d'|]|e'| |] st2];
    cbn in H, HV |- *; try contradiction; split; try exact HV; try exact H; destruct H as (H1 & H2); try discriminate; repeat split; intuition congruence.
Qed.
End Facts.

(** Where the depth is after a panic. *)
Section Depth.
Context {S A TT ET Pos CE : Type}.
Context (umax : N) (cc : classifier) (so : stream_ops S A TT Pos) (co : concat_ops A TT)
        (ao : alloc_ops A TT ET) (bnd : bindings A TT ET Pos CE).
Local Notation MM := (M (S:=S) (A:=A) (Pos:=Pos) (CE:=CE)).

Definition flat {X} (m : MM X) : Prop := forall st, ps_depth (snd (m st)) = ps_depth st.
Lemma flat_bind X Y (m : MM X) (k : X -> MM Y) : flat m -> (forall x, flat (k x)) -> flat (bind m k).
Proof.
  intros Hm Hk st. specialize (Hm st). unfold bind. destruct (m st) as [[x|e| |] st1]; cbn in *; try exact Hm. rewrite (Hk x st1). exact Hm.
Qed.
Lemma flat_ret X (x : X) : flat (ret x). Proof. intros st. reflexivity. Qed.
Lemma flat_raise X e : flat (raise (X:=X) e). Proof. intros st. reflexivity. Qed.
Lemma flat_panic X : flat (panic (X:=X)). Proof. intros st. reflexivity. Qed.
Lemma flat_nofuel X : flat (nofuel (X:=X)). Proof. intros st. reflexivity. Qed.
Lemma flat_assert b : flat (assert b). Proof. destruct b; intros st; reflexivity. Qed.
Lemma flat_get : flat get_depth. Proof. intros st. reflexivity. Qed.
Lemma flat_peek : flat (peek so). Proof. intros st. unfold peek. destruct (s_peek so (ps_strm st)). reflexivity. Qed.
Lemma flat_next : flat (next so). Proof. intros st. unfold next. destruct (s_next so (ps_strm st)). reflexivity. Qed.
Lemma flat_next_accum : flat (next_accum so). Proof. intros st. unfold next_accum. destruct (s_next_accum so (ps_strm st) (ps_alloc st)) as [r [s a]]. reflexivity. Qed.
Lemma flat_accum_done : flat (accum_done so). Proof. intros st. unfold accum_done. destruct (s_accum_done so (ps_strm st) (ps_alloc st)) as [r [s a]]. reflexivity. Qed.
Lemma flat_concat t1 t2 : flat (concat co t1 t2). Proof. intros st. unfold concat. destruct (t_concat co t1 t2 (ps_alloc st)). reflexivity. Qed.
Ltac fl := repeat first [ apply flat_ret | apply flat_raise | apply flat_panic | apply flat_nofuel | apply flat_assert | apply flat_get | apply flat_peek | apply flat_next
  | apply flat_next_accum | apply flat_accum_done | apply flat_concat | (apply flat_bind; [|intros ?]) ].
Lemma flat_check d : flat (check_end_char cc so d).
Proof. unfold check_end_char. fl. destruct (0 <? d)%N; fl. destruct x1; fl. Qed.
Lemma flat_done t n : flat (parse_text_done so co t n).
Proof. unfold parse_text_done, concat_accum. destruct (n =? 0)%N; fl. Qed.
Lemma flat_loop f : forall m t n, flat (parse_text_loop umax cc so co f m t n).
Proof.
  induction f as [|f IH]; intros m t n; cbn [parse_text_loop]; fl.
  destruct x as [it|]; [|apply flat_done]. destruct ((n =? 0)%N && is_end_char cc (it_ch it) m); [apply flat_done|].
  destruct (is_nest_escape cc (it_ch it)); [unfold concat_accum; fl; apply IH|].
  destruct (is_nest_start cc (it_ch it)); [fl; destruct (n <? umax)%N; [apply IH|fl]|].
  destruct (is_nest_end cc (it_ch it)).
  { destruct (0 <? n)%N; [fl; apply IH|]. apply flat_bind; [fl|intros d]. apply flat_bind; [apply flat_check|intros _; apply flat_done]. }
  fl. apply IH.
Qed.

Lemma text_panics f st it s st1 : s_peek so (ps_strm st) = (Ok (Some it), s) -> is_nest_start cc (it_ch it) = false ->
  iter_next umax cc so co ao bnd f st = (Panic, st1) -> ps_depth st1 = ps_depth st.
Proof.
  intros E Es. unfold iter_next, do_next. destruct f as [|f]; [discriminate|]. cbn [parse_next is_operator_mode].
  unfold bind at 1, ret at 1. unfold bind at 1, peek at 1. rewrite E. cbn [no_err]. rewrite Es.
  assert (G : forall m : MM (option (datum TT ET)), flat m -> forall st0,
    match m st0 with (Ok None, st') => (Ok None, st') | (Ok (Some d), st') => (Ok (Some (inl d)), st') | (Err e, st') => (Ok (Some (inr e)), st')
    | (Panic, st') => (Panic, st') | (OutOfFuel, st') => (OutOfFuel, st') end = (@Panic Empty_set (option (datum TT ET + error Pos CE)), st1) -> ps_depth st1 = ps_depth st0).
  { intros m Hm st0. specialize (Hm st0). destruct (m st0) as [[[d|]|e| |] st2]; try discriminate. intros [= <-]. exact Hm. }
  intros H. eapply (G (if is_nest_end cc (it_ch it) then _ else _)) in H; [exact H|].
  destruct (is_nest_end cc (it_ch it)).
  - apply flat_bind; [fl|intros d]. apply flat_bind; [apply flat_check|intros _; fl].
  - apply flat_bind; [apply flat_loop|intros t; fl].
Qed.

Lemma raised_end f st it s : (0 < ps_depth st)%N -> s_peek so (ps_strm st) = (Ok (Some it), s) -> s_peek so s = (Ok (Some it), s) -> is_nest_start cc (it_ch it) = false -> is_nest_end cc (it_ch it) = true ->
  iter_next umax cc so co ao bnd (Datatypes.S f) st = (Ok None, PState s (ps_depth st) (ps_alloc st)).
Proof.
  intros Hd E E' Es Ee. unfold iter_next, do_next. cbn [parse_next is_operator_mode].
  unfold bind at 1, ret at 1. unfold bind at 1, peek at 1. rewrite E. cbn [no_err]. rewrite Es, Ee.
  unfold bind at 1, get_depth. cbn [ps_depth]. unfold check_end_char. apply N.ltb_lt in Hd. rewrite Hd.
  unfold bind, peek. cbn [ps_strm]. rewrite E'. cbn. rewrite Ee. reflexivity.
Qed.

(** Combiners that do not remove. *)
Context (HB : forall d, match bnd d with
  | Some (Operative f) => forall t a, fst (f d t a) <> inl None
  | Some (Applicative f) => forall t a, fst (f d t a) <> inl None
  | None => True
  end).
Lemma bind_some X Y (m : MM X) (k : X -> MM (option Y)) : (forall x st st1, k x st <> (Ok None, st1)) -> forall st st1, bind m k st <> (Ok None, st1).
Proof. intros Hk st st1. unfold bind. destruct (m st) as [[x|e| |] st2]; [apply Hk|discriminate..]. Qed.
Lemma nested_some f st st1 : parse_nested umax cc so co ao bnd f st <> (Ok None, st1).
Proof.
  destruct f as [|f]; [discriminate|]. cbn [parse_nested]. revert st st1.
  apply bind_some. intros start. apply bind_some. intros _. apply bind_some. intros operator. apply bind_some. intros o. apply bind_some. intros _.
  destruct operator as [d|]; [|apply bind_some; intros _ st st1; discriminate].
  pose proof (HB d) as H. destruct (bnd d) as [[g|g]|].
  - apply bind_some. intros t. apply bind_some. intros _ st st1. unfold call. specialize (H t (ps_alloc st)).
    destruct (g d t (ps_alloc st)) as [[[x|]|e] a]; cbn in H; congruence.
  - apply bind_some. intros t. apply bind_some. intros _ st st1. unfold call. specialize (H t (ps_alloc st)).
    destruct (g d t (ps_alloc st)) as [[[x|]|e] a]; cbn in H; congruence.
  - apply bind_some. intros t. apply bind_some. intros _. apply bind_some. intros r1. apply bind_some. intros r2 st st1. discriminate.
Qed.
Lemma deeper_panics X Y (m1 m2 : MM (option X)) (k : option X -> MM Y) st st1 :
  sameq (fun _ : S => True) (fun _ => True) (fun _ => True) m1 m2 -> (forall st st', m1 st <> (Ok None, st')) -> (forall x st st', k (Some x) st <> (Panic, st')) ->
  (ps_depth st < umax)%N -> bind (incr_depth umax) (fun _ => bind (finally m1 decr_depth) k) st = (Panic, st1) -> (ps_depth st < ps_depth st1)%N.
Proof.
  intros Hm HN Hk Hu. unfold bind at 1, incr_depth at 1. apply N.ltb_lt in Hu. rewrite Hu.
  set (st' := PState (ps_strm st) (ps_depth st + 1)%N (ps_alloc st)). destruct (Hm st' I) as [_ H]. specialize (HN st').
  unfold bind, finally. destruct (m1 st') as [[[d|]|e| |] st2], (m2 st') as [[d2|e2| |] st3]; cbn in H; try contradiction.
  - destruct H as (_ & _ & Hd & _). unfold bind, decr_depth. rewrite Hd.
    replace (0 <? ps_depth st + 1)%N with true by (symmetry; apply N.ltb_lt; lia). cbn. intros E. elim (Hk _ _ _ E).
  - elim (HN st2). reflexivity.
  - destruct H as (_ & _ & Hd). unfold bind, decr_depth. rewrite Hd.
    replace (0 <? ps_depth st + 1)%N with true by (symmetry; apply N.ltb_lt; lia). discriminate.
  - destruct H as (_ & _ & Hd & _). intros [= <-]. lia.
  - destruct H as (_ & Hd). intros [= <-]. lia.
  - discriminate.
Qed.
Lemma nest_panics f st it s st1 : s_peek so (ps_strm st) = (Ok (Some it), s) -> is_nest_start cc (it_ch it) = true -> (ps_depth st < umax)%N ->
  iter_next umax cc so co ao bnd f st = (Panic, st1) -> (ps_depth st < ps_depth st1)%N.
Proof.
  intros E Es Hu. unfold iter_next, do_next. destruct f as [|f]; [discriminate|].
  pose proof (proj1 (proj2 (same_parser umax cc so co ao bnd (fun _ => True) (fun _ => True) (fun _ => True) (fun _ _ => I) (fun _ _ => I)
    (fun _ _ _ => conj I (fun _ => I)) (fun _ _ _ => conj I (conj (fun _ => I) (fun _ _ => I))) I
    (fun _ _ _ _ _ => conj (fun _ _ _ => I) (fun _ _ => I)) (fun _ _ _ _ _ => I) f))) as HS.
  pose proof (nested_some f) as HN.
  cbn [parse_next is_operator_mode]. unfold bind at 1, ret at 1. unfold bind at 1, peek at 1. rewrite E. cbn [no_err]. rewrite Es.
  match goal with |- context [bind (incr_depth umax) ?k ?st0] => pose proof (fun st' => @deeper_panics _ _ _ _ (fun r => match r with Some d => ret (Some d) | None => parse_next umax cc so co ao bnd f Base end) st0 st' HS HN (fun x st st' H => ltac:(discriminate H)) Hu) as HD; destruct (bind (incr_depth umax) k st0) as [[[d|]|e| |] st2] eqn:EB end; try discriminate.
  intros [= <-]. exact (HD _ EB).
Qed.
End Depth.

(** Collaborators that obey their contracts, at any depth. *)
Section Obeying.
Context {S A TT ET Pos CE W : Type}.
Context (umax : N) (cc : classifier) (so : stream_ops S A TT Pos) (co : concat_ops A TT)
        (ao : alloc_ops A TT ET) (bnd : bindings A TT ET Pos CE).
Context (Rs : S -> list (item Pos) -> list (item Pos) -> Prop) (Rt : TT -> list (item Pos) -> Prop).
Context (F : Prop) (view : A -> W).
Context (SC : stream_contract F view so Rs Rt) (TC : concat_contract F view co Rt) (AC : alloc_contract F view ao).
Local Notation next := (iter_next umax cc so co ao bnd).

Lemma next_at_depth st r p : Rs (ps_strm st) r p -> p = [] \/ r = [] -> (ps_depth st + N.of_nat (length r) <= umax)%N ->
  exists o st2, (forall fuel, fst (next fuel st) <> OutOfFuel -> next fuel st = (Ok o, st2)) /\
    (forall fuel, 3 * length r + 3 <= fuel -> next fuel st = (Ok o, st2)) /\
    exists r' p', Rs (ps_strm st2) r' p' /\ suffix r' r /\ (p' = [] \/ r' = []).
Proof.
  intros H Hp Hu.
  assert (G : exists o st2, next (3 * length r + 3) st = (Ok o, st2) /\ exists r' p', Rs (ps_strm st2) r' p' /\ suffix r' r /\ (p' = [] \/ r' = [])).
  { destruct Hp as [->| ->].
    - pose proof (proj1 (parser_safe umax cc bnd SC TC AC (length r)) (3 * length r + 3) Base r st (le_n _) (le_n _) ltac:(discriminate) Hu H) as G.
      unfold iter_next, do_next. unfold wp in G.
      destruct (parse_next umax cc so co ao bnd (3 * length r + 3) Base st) as [[[d|]|e| |] st2]; cbn [fst snd next_post] in G; try contradiction.
      + destruct G as (_ & r' & H' & Hs & _). do 2 eexists. split; [reflexivity|]. exists r', []. auto.
      + destruct G as (_ & r' & H' & Hs & _). do 2 eexists. split; [reflexivity|]. exists r', []. auto.
      + destruct G as (_ & r' & p' & H' & Hs & Hp' & _). do 2 eexists. split; [reflexivity|]. exists r', p'. auto.
    - destruct (sc_peek SC _ _ _ H) as (s' & E & H'). cbn [length Nat.mul Nat.add]. unfold iter_next, do_next.
      cbn [parse_next is_operator_mode]. unfold bind at 1, ret at 1. unfold bind at 1, peek at 1. rewrite E.
      cbn [hd_error no_err]. unfold bind, get_depth, ret, raise. cbn [ps_depth].
      destruct (ps_depth st =? 0)%N; (do 2 eexists; split; [reflexivity|]; exists [], p; cbn [ps_strm]; auto using suffix_refl). }
  destruct G as (o & st2 & E & G). exists o, st2. split; [|split; [|exact G]].
  - intros fuel Hn. destruct (le_ge_dec fuel (3 * length r + 3)) as [Hle|Hle].
    + rewrite <- E. symmetry. apply iter_next_fuel; auto.
    + rewrite <- E. apply iter_next_fuel; [exact Hle|rewrite E; discriminate].
  - intros fuel Hf. rewrite <- E. apply iter_next_fuel; [exact Hf|rewrite E; discriminate].
Qed.
End Obeying.
