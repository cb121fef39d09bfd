(** The parser over counted memory returns what the parser over trees returns. *)
From Coq Require Import List Arith NArith Bool Lia Permutation.
From Verif.Model Require Import Prelude Parser Iter Alloc Drop DropRc RcProgram RcParser.
From Verif.Spec Require Import Drops RcParser.
From Verif.Proofs Require Import HeapFacts DropRcFacts RcProgramFacts HeapLink RcHeap.
Import ListNotations.
Set Implicit Arguments.

(** What does not use the allocator. *)
Section Plain.
Context {S A B T Pos CE : Type}.
Local Notation M1 := (@M S A Pos CE).
Local Notation M2 := (@M S B Pos CE).
Definition same {Y} (m1 : M1 Y) (m2 : M2 Y) : Prop :=
  forall s d a b, exists r s' d', m1 (PState s d a) = (r, PState s' d' a) /\ m2 (PState s d b) = (r, PState s' d' b).
Definition no_errors {Y} (m1 : M1 Y) : Prop := forall st e st', m1 st <> (Err e, st').

Lemma same_bind Y Z (m1 : M1 Y) m2 (k1 : Y -> M1 Z) k2 : same m1 m2 -> (forall y, same (k1 y) (k2 y)) -> same (bind m1 k1) (bind m2 k2).
Proof.
  intros H HK s d a b. unfold bind. destruct (H s d a b) as (r & s' & d' & -> & ->). destruct r as [y|e| |]; [apply HK| | |]; eauto 6.
Qed.
Lemma same_ret Y (y : Y) : same (@ret S A Pos CE Y y) (@ret S B Pos CE Y y). Proof. intros s d a b. unfold ret. eauto 6. Qed.
Lemma same_raise Y e : same (@raise S A Pos CE Y e) (@raise S B Pos CE Y e). Proof. intros s d a b. unfold raise. eauto 6. Qed.
Lemma same_panic Y : same (@panic S A Pos CE Y) (@panic S B Pos CE Y). Proof. intros s d a b. unfold panic. eauto 6. Qed.
Lemma same_nofuel Y : same (@nofuel S A Pos CE Y) (@nofuel S B Pos CE Y). Proof. intros s d a b. unfold nofuel. eauto 6. Qed.
Lemma same_assert b : same (@assert S A Pos CE b) (@assert S B Pos CE b).
Proof. destruct b; [apply same_ret|apply same_panic]. Qed.
Lemma same_get_depth : same (@get_depth S A Pos CE) (@get_depth S B Pos CE). Proof. intros s d a b. unfold get_depth. cbn. eauto 6. Qed.
Lemma same_incr umax : same (@incr_depth S A Pos CE umax) (@incr_depth S B Pos CE umax).
Proof. intros s d a b. unfold incr_depth. cbn. destruct (d <? umax)%N; eauto 6. Qed.

Lemma errors_bind Y Z (m1 : M1 Y) (k1 : Y -> M1 Z) : no_errors m1 -> (forall y, no_errors (k1 y)) -> no_errors (bind m1 k1).
Proof.
  intros H HK st e st'. unfold bind. destruct (m1 st) as [r st1] eqn:E. destruct r as [y|e1| |]; [apply HK| |discriminate|discriminate].
  destruct (H _ _ _ E).
Qed.
Lemma errors_ret Y (y : Y) : no_errors (@ret S A Pos CE Y y). Proof. discriminate. Qed.
Lemma errors_assert b : no_errors (@assert S A Pos CE b). Proof. destruct b; discriminate. Qed.

Context (umax : N) (cc : classifier) (so1 : stream_ops S A T Pos) (so2 : stream_ops S B T Pos) (co1 : concat_ops A T) (co2 : concat_ops B T).
Context (HS : plain_stream so1 so2) (HC : plain_concat co1 co2).

Lemma same_peek : same (peek (CE := CE) so1) (peek so2).
Proof. intros s d a b. unfold peek. cbn [ps_strm ps_depth ps_alloc]. rewrite (pl_peek HS). destruct (s_peek so2 s) as [r s']. eauto 6. Qed.
Lemma same_next : same (next (CE := CE) so1) (next so2).
Proof. intros s d a b. unfold next. cbn [ps_strm ps_depth ps_alloc]. rewrite (pl_next HS). destruct (s_next so2 s) as [r s']. eauto 6. Qed.
Lemma same_next_accum : same (next_accum (CE := CE) so1) (next_accum so2).
Proof. intros s d a b. unfold next_accum. cbn [ps_strm ps_depth ps_alloc]. destruct (pl_next_accum HS s a b) as (r & s' & -> & ->). eauto 6. Qed.
Lemma same_accum_done : same (accum_done (CE := CE) so1) (accum_done so2).
Proof. intros s d a b. unfold accum_done. cbn [ps_strm ps_depth ps_alloc]. destruct (pl_accum_done HS s a b) as (r & s' & -> & ->). eauto 6. Qed.
Lemma same_concat t1 t2 : same (concat (CE := CE) co1 t1 t2) (concat co2 t1 t2).
Proof. intros s d a b. unfold concat. cbn [ps_strm ps_depth ps_alloc]. destruct (proj2 HC t1 t2 a b) as (r & -> & ->). eauto 6. Qed.
Lemma errors_peek : no_errors (peek (CE := CE) so1).
Proof. intros st e st'. unfold peek. destruct (s_peek so1 (ps_strm st)) as [[y|[]| |] s]; discriminate. Qed.
Lemma errors_next : no_errors (next (CE := CE) so1).
Proof. intros st e st'. unfold next. destruct (s_next so1 (ps_strm st)) as [[y|[]| |] s]; discriminate. Qed.

Ltac plain := repeat first
  [ apply same_ret | apply same_raise | apply same_panic | apply same_nofuel | apply same_assert | apply same_get_depth
  | apply same_peek | apply same_next | apply same_next_accum | apply same_accum_done | apply same_concat
  | apply same_bind; [|intros ?] ].

Lemma same_skip f : same (skip_whitespace (CE := CE) cc so1 f) (skip_whitespace cc so2 f).
Proof.
  induction f as [|f IH]; cbn [skip_whitespace]; plain. destruct y as [it|]; plain. destruct (is_whitespace cc (it_ch it)); plain. exact IH.
Qed.
Lemma same_check d : same (check_end_char (CE := CE) cc so1 d) (check_end_char cc so2 d).
Proof. unfold check_end_char. plain. destruct (0 <? d)%N; plain. destruct y1 as [it|]; plain. Qed.
Lemma same_nest_end : same (nest_end (CE := CE) cc so1) (nest_end cc so2).
Proof. unfold nest_end. plain. destruct y as [it|]; plain. Qed.
Lemma same_text_loop f m : forall t n, same (parse_text_loop (CE := CE) umax cc so1 co1 f m t n) (parse_text_loop umax cc so2 co2 f m t n).
Proof.
  assert (Done : forall t n, same (parse_text_done (CE := CE) so1 co1 t n) (parse_text_done so2 co2 t n)).
  { intros t n. unfold parse_text_done, concat_accum. destruct (n =? 0)%N; plain. }
  induction f as [|f IH]; intros t n; cbn [parse_text_loop]; plain. destruct y as [it|]; [|apply Done].
  destruct ((n =? 0)%N && is_end_char cc (it_ch it) m); [apply Done|].
  destruct (is_nest_escape cc (it_ch it)); [unfold concat_accum; plain; apply IH|].
  destruct (is_nest_start cc (it_ch it)); [plain; destruct (n <? umax)%N; plain; apply IH|].
  destruct (is_nest_end cc (it_ch it)); [|plain; apply IH].
  destruct (0 <? n)%N; [plain; apply IH|].
  apply same_bind; [apply same_get_depth|intros y]. apply same_bind; [apply same_check|intros _; apply Done].
Qed.
Lemma same_text f m : same (parse_text (CE := CE) umax cc so1 co1 f m) (parse_text umax cc so2 co2 f m).
Proof. unfold parse_text. rewrite (proj1 HC). apply same_text_loop. Qed.
End Plain.

Section Sim.
Context {S W1 W2 T ET Pos CE : Type} (U : Prop).
Local Notation X := (leaf_value T ET).
Local Notation mem := (rc_mem T ET).
Local Notation datum1 := (rc_datum T ET).
Local Notation A1 := (mem * W1)%type.
Local Notation E := (error Pos CE).
Local Notation Cell := (@Cell X).
Context (umax : N) (cc : classifier) (so1 : stream_ops S A1 T Pos) (so2 : stream_ops S W2 T Pos) (co1 : concat_ops A1 T) (co2 : concat_ops W2 T).
Context (HS : plain_stream so1 so2) (HC : plain_concat co1 co2).
Context (held : W1 -> list nat) (rw : mem -> W1 -> W2 -> Prop) (HW : world_local held rw).
Context (bnd1 : mem -> datum1 -> option (rc_combiner A1 T ET Pos CE)) (bnd2 : bindings W2 T ET Pos CE).
Context (HB : rc_bindings_same U held rw bnd1 bnd2).
Context (arc : bool) (dfuel ddepth : mem -> nat).
Context (HF : forall h, bc h * bc h + bc h < dfuel h).
Implicit Types (h : mem) (K R : list nat).

Local Notation deep := (deep U ddepth).

Lemma deep_moves K R R' h h' : moves U K R R' h h' -> deep h R -> deep h' R'.
Proof. intros M [D|(u & D & Un)]; [left; exact D|right]. split; [exact u|]. split; [exact D|]. apply (mv_unshared M u Un). Qed.
Lemma deep_incl h R R' : incl R' R -> deep h R -> deep h R'.
Proof. intros I [D|(u & D & Un)]; [left; exact D|right]. split; [exact u|]. split; [exact D|]. eapply unshared_incl; eassumption. Qed.
Lemma deep_enough_at h R : deep h R -> deep_enough (ddepth h) h R.
Proof. intros [D|(u & D & Un)]; [left; apply D|right; auto]. Qed.

(** Results of the two parsers, the first having started from [h0] owning [R0]. *)
Section Out.
Context {Y1 Y2 : Type} (K R0 : list nat) (h0 : mem) (own : Y1 -> list nat) (rel : mem -> W1 -> Y1 -> Y2 -> Prop).
Inductive out : res E Y1 * pstate S A1 -> res E Y2 * pstate S W2 -> Prop :=
| out_ok y1 y2 s d h w1 w2 : rw h w1 w2 -> rel h w1 y1 y2 -> moves U K R0 (own y1 ++ held w1) h0 h ->
    out (Ok y1, PState s d (h, w1)) (Ok y2, PState s d w2)
| out_err e s d h w1 w2 : rw h w1 w2 -> moves U K R0 (held w1) h0 h ->
    out (Err e, PState s d (h, w1)) (Err e, PState s d w2)
| out_panic st1 st2 : out (Panic, st1) (Panic, st2)
| out_fuel st1 st2 : out (OutOfFuel, st1) (OutOfFuel, st2).
End Out.

Lemma out_bind Y1 Y2 Z1 Z2 K R0 h0 own rel own' rel' (m1 : M Y1) (m2 : M Y2) (k1 : Y1 -> M Z1) (k2 : Y2 -> M Z2) st1 st2 :
  out K R0 h0 own rel (m1 st1) (m2 st2) -> deep h0 R0 ->
  (forall y1 y2 s d h w1 w2, rw h w1 w2 -> rel h w1 y1 y2 -> moves U K R0 (own y1 ++ held w1) h0 h -> deep h (own y1 ++ held w1) ->
     out K (own y1 ++ held w1) h own' rel' (k1 y1 (PState s d (h, w1))) (k2 y2 (PState s d w2))) ->
  out K R0 h0 own' rel' (bind m1 k1 st1) (bind m2 k2 st2).
Proof.
  intros H D HK. unfold bind. destruct (m1 st1) as [r1 st1'], (m2 st2) as [r2 st2'].
  inversion H as [y1 y2 s d h w1 w2 Hw Hr Hm|e s d h w1 w2 Hw Hm| |]; subst; try (constructor; assumption).
  specialize (HK y1 y2 s d h w1 w2 Hw Hr Hm (deep_moves Hm D)). destruct HK as [y1' y2' s' d' h' w1' w2' Hw' Hr' Hm'|e s' d' h' w1' w2' Hw' Hm'| |];
    constructor; auto; eapply moves_trans; eassumption.
Qed.

Lemma out_trans Y1 Y2 K R0 R1 h0 h1 own (rel : mem -> W1 -> Y1 -> Y2 -> Prop) r1 r2 : moves U K R0 R1 h0 h1 ->
  out K R1 h1 own rel r1 r2 -> out K R0 h0 own rel r1 r2.
Proof. intros M [y1' y2' s' d' h' w1' w2' Hw' Hr' Hm'|e s' d' h' w1' w2' Hw' Hm'| |]; constructor; auto; eapply moves_trans; eassumption. Qed.

Lemma out_mono Y1 Y2 K R0 R0' h0 own own' (rel rel' : mem -> W1 -> Y1 -> Y2 -> Prop) r1 r2 : out K R0 h0 own rel r1 r2 ->
  Permutation R0 R0' -> (forall y, Permutation (own y) (own' y)) -> (forall h w1 y1 y2, rel h w1 y1 y2 -> rel' h w1 y1 y2) ->
  out K R0' h0 own' rel' r1 r2.
Proof.
  intros H P PO HR. destruct H as [y1' y2' s' d' h' w1' w2' Hw' Hr' Hm'|e s' d' h' w1' w2' Hw' Hm'| |]; constructor; auto.
  - eapply moves_perm; [exact P|apply Permutation_app_tail; apply PO|exact Hm'].
  - eapply moves_perm; [exact P|reflexivity|exact Hm'].
Qed.

Lemma out_ret Y1 Y2 K R0 h own (rel : mem -> W1 -> Y1 -> Y2 -> Prop) y1 y2 s d w1 w2 : rw h w1 w2 -> rel h w1 y1 y2 ->
  Permutation R0 (own y1 ++ held w1) -> consistent h (R0 ++ K) ->
  out K R0 h own rel (ret (CE := CE) (Pos := Pos) y1 (PState s d (h, w1))) (ret y2 (PState s d w2)).
Proof.
  intros Hw Hr P C. constructor; auto. eapply moves_perm; [reflexivity|exact P|]. apply moves_refl. exact C.
Qed.
Lemma out_raise Y1 Y2 K h own (rel : mem -> W1 -> Y1 -> Y2 -> Prop) e s d w1 w2 : rw h w1 w2 -> consistent h (held w1 ++ K) ->
  out K (held w1) h own rel (raise e (PState s d (h, w1))) (raise e (PState s d w2)).
Proof. intros Hw C. constructor; auto. apply moves_refl. exact C. Qed.

Lemma plain_bind Y Z1 Z2 K R own rel (m1 : M Y) m2 (k1 : Y -> M Z1) (k2 : Y -> M Z2) s d h w1 w2 : same m1 m2 -> (R = [] \/ no_errors m1) ->
  rw h w1 w2 -> consistent h (R ++ held w1 ++ K) ->
  (forall y s' d', out K (R ++ held w1) h own rel (k1 y (PState s' d' (h, w1))) (k2 y (PState s' d' w2))) ->
  out K (R ++ held w1) h own rel (bind m1 k1 (PState s d (h, w1))) (bind m2 k2 (PState s d w2)).
Proof.
  intros H HE Hw C HK. unfold bind. destruct (H s d (h, w1) w2) as (r & s' & d' & E1 & E2). rewrite E1, E2.
  destruct r as [y|e| |]; [apply HK| |constructor|constructor]. destruct HE as [->|HE]; [|destruct (HE _ _ _ E1)].
  constructor; auto. apply moves_refl. exact C.
Qed.
Lemma plain_out Y K (m1 : M Y) m2 s d h w1 w2 : same m1 m2 -> rw h w1 w2 -> consistent h (held w1 ++ K) ->
  out K (held w1) h (fun _ => []) (fun h' w1' y1 y2 => y1 = y2 /\ h' = h /\ w1' = w1) (m1 (PState s d (h, w1))) (m2 (PState s d w2)).
Proof.
  intros H Hw C. destruct (H s d (h, w1) w2) as (r & s' & d' & -> & ->). destruct r as [y|e| |]; constructor; auto; apply moves_refl; exact C.
Qed.

Lemma drop_step n K R h w1 w2 : rw h w1 w2 -> R = held w1 -> consistent h (kids n ++ R ++ K) -> deep h (kids n ++ R) ->
  exists h', drop_datum arc (dfuel h) (ddepth h) n h = Ok (tt, h') /\ rw h' w1 w2 /\ moves U K (kids n ++ R) R h h'.
Proof.
  intros Hw -> C D.
  assert (consistent h (kids n ++ [] ++ held w1 ++ K)) as C' by exact C.
  destruct (@ends_drop_moves T ET U arc (dfuel h) (ddepth h) h n [] (held w1 ++ K) C') as ([] & h' & E & Mv).
  - apply deep_enough_at. eapply deep_incl; [|exact D]. rewrite app_nil_r. apply incl_appl, incl_refl.
  - apply HF.
  - exists h'. split; [exact E|]. split.
    + eapply HW; [exact Hw|]. intros y Hy. apply (mv_others Mv). apply reach_app. auto.
    + rewrite app_nil_r in Mv. assert (moves U K (held w1 ++ kids n) (held w1 ++ []) h h') as G.
      { apply moves_keep; [|exact Mv]. eapply consistent_perm; [|exact C]. rewrite !app_assoc. apply Permutation_app_tail, Permutation_app_comm. }
      eapply moves_perm; [apply Permutation_app_comm| |exact G]. rewrite app_nil_r. reflexivity.
Qed.

Lemma or_drop_out Y1 Y2 K R0 h0 own (rel : mem -> W1 -> Y1 -> Y2 -> Prop) n (m1 : M Y1) st1 (r2 : res E Y2 * pstate S W2) :
  out (kids n ++ K) R0 h0 own rel (m1 st1) r2 -> consistent h0 (kids n ++ R0 ++ K) -> deep h0 (kids n ++ R0) ->
  out K (kids n ++ R0) h0 (fun y => kids n ++ own y)
    (fun h w1 y1 y2 => rel h w1 y1 y2 /\ moves U (kids n ++ K) R0 (own y1 ++ held w1) h0 h)
    (or_drop arc dfuel ddepth n m1 st1) r2.
Proof.
  intros H C D. unfold or_drop. destruct (m1 st1) as [r1 st1'], r2 as [r2 st2'].
  inversion H as [y1 y2 s d h w1 w2 Hw Hr Hm|e s d h w1 w2 Hw Hm| |]; subst.
  - constructor; auto. rewrite <- app_assoc. apply moves_keep; assumption.
  - assert (moves U K (kids n ++ R0) (kids n ++ held w1) h0 h) as Mk by (apply moves_keep; assumption).
    destruct (@drop_step n K (held w1) h w1 w2 Hw eq_refl) as (h' & E' & Hw' & Hm').
    + pose proof (mv_consistent Mk) as G. rewrite <- app_assoc in G. exact G.
    + eapply deep_moves; eassumption.
    + unfold bind, rp_drop, in_mem. cbn [ps_alloc ps_strm ps_depth fst snd]. rewrite E'. cbn. constructor; [exact Hw'|].
      eapply moves_trans; eassumption.
  - constructor.
  - constructor.
Qed.

Lemma finally_out Y1 Y2 K R0 h0 own (rel : mem -> W1 -> Y1 -> Y2 -> Prop) (m1 : M Y1) (m2 : M Y2) st1 st2 : out K R0 h0 own rel (m1 st1) (m2 st2) ->
  out K R0 h0 own rel (finally m1 (@decr_depth S A1 Pos CE) st1) (finally m2 (@decr_depth S W2 Pos CE) st2).
Proof.
  intros H. unfold finally. destruct (m1 st1) as [r1 st1'], (m2 st2) as [r2 st2'].
  inversion H as [y1 y2 s d h w1 w2 Hw Hr Hm|e s d h w1 w2 Hw Hm| |]; subst; try constructor;
    unfold bind, decr_depth, ret, raise; cbn [ps_depth ps_strm ps_alloc]; destruct (0 <? d)%N; constructor; auto.
Qed.

Lemma call_out K R h w1 w2 s d (f1 : A1 -> (option datum1 + E) * A1) (f2 : W2 -> (option (datum T ET) + E) * W2) :
  same_call U held rw R h w1 (f1 (h, w1)) (f2 w2) -> consistent h (R ++ held w1 ++ K) ->
  out K (R ++ held w1) h owns (fun h' _ => is_option h') (call f1 (PState s d (h, w1))) (call f2 (PState s d w2)).
Proof.
  intros H C. specialize (H K C). unfold call. cbn [ps_alloc ps_strm ps_depth]. destruct (f1 (h, w1)) as [v1 [h' w1']], (f2 w2) as [v2 w2'].
  destruct H as [Hw H]. destruct v1 as [o1|e1], v2 as [o2|e2]; try contradiction.
  - constructor; [exact Hw|apply H|apply H].
  - destruct H as [-> Hm]. constructor; assumption.
Qed.

(** Reading a list that is being built: [head] is [fill d] when the datum at [t] is [d]. *)
Definition hole h (head : datum1) (t : nat) (fill : datum T ET -> datum T ET) : Prop :=
  forall h' n d, (forall y, y <> t -> reach h (kids head) y -> node_at h' y = node_at h y) ->
  node_at h' t = Some n -> is_tree h' n d -> is_tree h' head (fill d).
Definition building K h w1 (head : datum1) (tail : option nat) (fill : datum T ET -> datum T ET) : Prop :=
  match tail with
  | None => head = NLeaf None /\ forall d, fill d = d
  | Some t => cell_at h t = Some (Cell 1 0 (Some (NLeaf None))) /\ ~ reach h (held w1 ++ K) t /\ reach h (kids head) t /\
      hole h head t fill
  end.

Lemma hole_frame h h' head t fill : hole h head t fill -> frame (kids head) h h' -> hole h' head t fill.
Proof.
  intros H F h2 n d F2. apply H. intros y D Hy. rewrite (F2 y D (frame_reach F Hy)). apply F. exact Hy.
Qed.

Lemma reach_upd h t s w n L y : cell_at h t = Some (Cell s w (Some (NLeaf None))) -> reach h L y ->
  reach (upd h t (Some (Cell s w (Some n)))) L y.
Proof.
  intros Et H. induction H as [y H|x m y H IH Hm Hy]; [apply reach_root, H|].
  eapply reach_kid; [exact IH| |exact Hy]. erewrite node_upd; [exact Hm|exact Et|].
  intros ->. unfold node_at in Hm. rewrite Et in Hm. cbn in Hm. injection Hm as <-. contradiction.
Qed.

Lemma step_new K h w1 head tail fill h' (o1 : option datum1) : building K h w1 head tail fill ->
  forall w1', moves U (kids head ++ K) (held w1) (owns o1 ++ held w1') h h' ->
  frame (kids head ++ K) h h' /\
  match tail with None => True | Some t => cell_at h' t = Some (Cell 1 0 (Some (NLeaf None))) /\ ~ reach h' (owns o1 ++ held w1' ++ K) t end.
Proof.
  intros B w1' Mv. split; [exact (mv_others Mv)|]. destruct tail as [t|]; [|trivial]. destruct B as (Et & Nt & Rt & Ho).
  destruct (mv_apart Mv Et) as [Et' Nt'].
  - intros G. apply Nt. apply reach_app. auto.
  - split; [exact Et'|]. rewrite app_assoc. intros G. apply reach_app in G as [G|G]; [auto|]. apply Nt. apply reach_app. right.
    eapply frame_reach'; [|exact G]. eapply frame_incl; [|exact (mv_others Mv)]. apply incl_appr, incl_refl.
Qed.

(** An item is added: it and an [EmptyList] are allocated, and the list is written to
    the tail. *)
Definition appended h n1 : mem := grow (grow h (Cell 1 0 (Some n1))) (Cell 1 0 (Some (NLeaf None))).
Definition linked h n1 (tail : option nat) : mem :=
  let e := length (cells h) in
  match tail with
  | None => appended h n1
  | Some t => upd (appended h n1) t (Some (Cell 1 0 (Some (NList e (Datatypes.S e)))))
  end.
Definition head_of h (head : datum1) (tail : option nat) : datum1 :=
  let e := length (cells h) in match tail with None => NList e (Datatypes.S e) | Some _ => head end.

Lemma append_step K h w1 head tail fill n1 d1 :
  consistent h (kids head ++ kids n1 ++ held w1 ++ K) -> is_tree h n1 d1 ->
  match tail with
  | None => head = NLeaf None /\ forall d, fill d = d
  | Some t => cell_at h t = Some (Cell 1 0 (Some (NLeaf None))) /\ ~ reach h (kids n1 ++ held w1 ++ K) t /\ reach h (kids head) t /\ hole h head t fill
  end ->
  let h' := linked h n1 tail in let head' := head_of h head tail in
  moves U K (kids head ++ kids n1 ++ held w1) (kids head' ++ held w1) h h' /\ frame (held w1 ++ K) h h' /\
  building K h' w1 head' (Some (Datatypes.S (length (cells h)))) (fun d => fill (DList d1 d)).
Proof.
  intros C Ht B. set (e := length (cells h)). set (n := Datatypes.S e).
  set (h1 := grow h (Cell 1 0 (Some n1))). set (h2 := grow h1 (Cell 1 0 (Some (NLeaf None)))).
  assert (En : length (cells h1) = n) by (unfold h1, grow; cbn [cells]; rewrite app_length; cbn; unfold n, e; lia).
  assert (C1 : consistent h (kids n1 ++ (kids head ++ held w1) ++ K)).
  { eapply consistent_perm; [|exact C]. rewrite !app_assoc. do 2 apply Permutation_app_tail. apply Permutation_app_comm. }
  pose proof (@moves_new T ET U h n1 K (kids head ++ held w1) C1) as M1. fold h1 e in M1.
  assert (C2 : consistent h1 (kids (NLeaf None : datum1) ++ (e :: kids head ++ held w1) ++ K)) by exact (mv_consistent M1).
  pose proof (@moves_new T ET U h1 (NLeaf None) K (e :: kids head ++ held w1) C2) as M2. fold h2 in M2. rewrite En in M2. change (kids (NLeaf None : datum1) ++ e :: kids head ++ held w1) with (e :: kids head ++ held w1) in M2.
  pose proof (moves_trans M1 M2) as M12.
  assert (Lt : forall y, reach h (kids n1 ++ (kids head ++ held w1) ++ K) y -> y < e) by (intros y Hy; eapply reach_lt; [exact C1|apply incl_refl|exact Hy]).
  assert (F2 : frame (kids n1 ++ (kids head ++ held w1) ++ K) h h2).
  { intros y Hy. apply Lt in Hy. unfold h2, h1. rewrite !node_grow; [reflexivity|fold e; lia|fold h1; rewrite En; unfold n; lia]. }
  assert (Lt2 : forall L y, incl L (kids n1 ++ (kids head ++ held w1) ++ K) -> reach h2 L y -> y < e).
  { intros L y I Hy. apply Lt. eapply reach_incl; [exact I|]. eapply frame_reach'; [|exact Hy]. eapply frame_incl; eassumption. }
  assert (I1 : incl (kids n1) (kids n1 ++ (kids head ++ held w1) ++ K)) by (apply incl_appl, incl_refl).
  assert (I2 : incl (kids head) (kids n1 ++ (kids head ++ held w1) ++ K)) by (apply incl_appr, incl_appl, incl_appl, incl_refl).
  assert (I3 : incl (held w1 ++ K) (kids n1 ++ (kids head ++ held w1) ++ K)) by (rewrite <- app_assoc; apply incl_appr, incl_appr, incl_refl).
  assert (He : node_at h2 e = Some n1).
  { unfold h2. rewrite node_grow by (rewrite En; unfold n; lia). unfold node_at, h1. rewrite cell_at_grow. fold e. rewrite Nat.eqb_refl. reflexivity. }
  assert (Hn : cell_at h2 n = Some (Cell 1 0 (Some (NLeaf None)))) by (unfold h2; rewrite cell_at_grow, En, Nat.eqb_refl; reflexivity).
  assert (T2 : is_tree h2 n1 d1).
  { eapply is_tree_frame; [exact Ht|]. eapply frame_incl; [exact I1|exact F2]. }
  cbv zeta. unfold linked, head_of. fold e. fold n. change (appended h n1) with h2.
  destruct tail as [t|].
  - destruct B as (Et & Nt & Rt & Ho).
    assert (Lte : t < e) by (apply Lt; apply reach_app; right; apply reach_app; left; apply reach_app; auto).
    assert (Et2 : cell_at h2 t = Some (Cell 1 0 (Some (NLeaf None)))).
    { unfold h2, h1. rewrite !cell_at_grow. fold h1. rewrite En. fold e.
      destruct (Nat.eqb_spec t n); [unfold n in *; lia|]. destruct (Nat.eqb_spec t e); [lia|exact Et]. }
    assert (Rt2 : reach h2 (kids head) t) by (eapply frame_reach; [eapply frame_incl; [exact I2|exact F2]|exact Rt]).
    assert (Nt1 : ~ reach h2 (kids n1) t).
    { intros G. apply Nt. apply reach_app. left. eapply frame_reach'; [|exact G]. eapply frame_incl; eassumption. }
    assert (Nt3 : ~ reach h2 (held w1 ++ K) t).
    { intros G. apply Nt. apply reach_app. right. eapply frame_reach'; [|exact G]. eapply frame_incl; eassumption. }
    assert (Nt2 : ~ reach h2 (kids (NList e n : datum1)) t).
    { intros G. apply reach_cons in G as [G|G].
      - destruct (reach_node G He) as [->|G']; [lia|auto].
      - assert (node_at h2 n = Some (NLeaf None)) as Hn' by (unfold node_at; rewrite Hn; reflexivity).
        destruct (reach_node G Hn') as [->|G']; [unfold n in *; lia|]. clear - G'. induction G' as [y [] |]; assumption. }
    assert (C3 : consistent h2 (kids (NList e n : datum1) ++ kids head ++ held w1 ++ K)).
    { eapply consistent_perm; [|exact (mv_consistent M12)]. cbn. rewrite <- app_assoc. apply perm_swap. }
    pose proof (@moves_assign T ET U h2 t 1 0 (NList e n) (held w1 ++ K) (kids head) C3 Et2 Nt2 Nt3 Rt2) as M3.
    set (h3 := upd h2 t (Some (Cell 1 0 (Some (NList e n))))) in *.
    assert (M3' : moves U K (held w1 ++ (kids (NList e n : datum1) ++ kids head)) (held w1 ++ kids head) h2 h3).
    { apply moves_keep; [|exact M3]. eapply consistent_perm; [|exact C3]. rewrite !app_assoc. apply Permutation_app_tail.
      rewrite <- (app_assoc (held w1)). apply Permutation_app_comm. }
    assert (Et3 : node_at h3 t = Some (NList e n)) by (unfold node_at, h3; rewrite (cell_at_upd _ _ _ t Et2), Nat.eqb_refl; reflexivity).
    assert (Eo3 : forall y, y <> t -> cell_at h3 y = cell_at h2 y).
    { intros y D. unfold h3. rewrite (cell_at_upd _ _ _ y Et2). destruct (Nat.eqb_spec y t); [congruence|reflexivity]. }
    assert (No3 : forall y, y <> t -> node_at h3 y = node_at h2 y) by (intros y D; unfold node_at; rewrite Eo3 by exact D; reflexivity).
    assert (R3 : forall y, reach h2 (kids head) y -> reach h3 (kids head) y) by (intros y; apply reach_upd; exact Et2).
    assert (Re : reach h3 (kids head) e) by (eapply reach_kid; [apply R3; exact Rt2|exact Et3|cbn; auto]).
    assert (Rn : reach h3 (kids head) n) by (eapply reach_kid; [apply R3; exact Rt2|exact Et3|cbn; auto]).
    assert (Rk : forall y, reach h2 (kids n1) y -> reach h3 (kids head) y).
    { intros y Hy. induction Hy as [y Hy|x m y Hx IH Hm Hy].
      - eapply reach_kid; [exact Re| |exact Hy]. rewrite No3 by lia. exact He.
      - eapply reach_kid; [exact IH| |exact Hy]. rewrite No3; [exact Hm|]. intros ->. auto. }
    split; [|split].
    + eapply moves_trans; [eapply moves_perm; [| |exact M12]|].
      * rewrite !app_assoc. apply Permutation_app_tail, Permutation_app_comm.
      * reflexivity.
      * eapply moves_perm; [| |exact M3'].
        -- transitivity ((kids (NList e n : datum1) ++ kids head) ++ held w1); [apply Permutation_app_comm|]. cbn. apply perm_swap.
        -- apply Permutation_app_comm.
    + eapply frame_trans; [eapply frame_incl; [exact I3|exact F2]|]. exact (mv_others M3).
    + assert (frame (held w1 ++ K) h2 h3) as F3 by exact (mv_others M3). split; [|split; [|split]].
      * rewrite Eo3 by (unfold n; lia). exact Hn.
      * intros G. apply (frame_reach' F3) in G. apply Lt2 in G; [unfold n in *; lia|exact I3].
      * exact Rn.
      * intros h' n' d F Hn' Hd.
        assert (hole h2 head t fill) as Ho2 by (eapply hole_frame; [exact Ho|]; eapply frame_incl; [exact I2|exact F2]).
        apply (Ho2 h' (NList e n)).
        -- intros y D Hy. assert (y < e) by (exact (Lt2 _ _ I2 Hy)). rewrite F; [apply No3; exact D|unfold n; lia|apply R3; exact Hy].
        -- rewrite F; [exact Et3|unfold n; lia|apply R3; exact Rt2].
        -- apply IT_list with (m := n1) (n := n'); [|eapply is_tree_frame; [exact T2|]|exact Hn'|exact Hd].
           ++ rewrite F; [rewrite No3 by lia; exact He|unfold n; lia|exact Re].
           ++ intros y Hy. assert (y < e) by (exact (Lt2 _ _ I1 Hy)). rewrite F; [apply No3|unfold n; lia|apply Rk; exact Hy]. intros ->. auto.
  - destruct B as [-> Hf]. split; [|split].
    + eapply moves_perm; [| |exact M12].
      * reflexivity.
      * cbn. apply perm_swap.
    + eapply frame_incl; [exact I3|exact F2].
    + split; [exact Hn|]. split; [|split].
      * intros G. apply Lt2 in G; [unfold n in *; lia|exact I3].
      * apply reach_root. cbn. auto.
      * intros h' n' d F Hn' Hd. rewrite Hf. apply IT_list with (m := n1) (n := n'); [|eapply is_tree_frame; [exact T2|]|exact Hn'|exact Hd].
        -- rewrite F; [exact He|unfold n; lia|apply reach_root; cbn; auto].
        -- intros y Hy. assert (y < e) by (exact (Lt2 _ _ I1 Hy)). apply F; [unfold n; lia|].
           clear - Hy He. induction Hy as [y Hy|x m y Hx IH Hm Hy].
           ++ apply reach_kid with (x := e) (n := n1); [apply reach_root; cbn; auto|exact He|exact Hy].
           ++ eapply reach_kid; eassumption.
Qed.


Lemma comb_step K h w1 n1 n2 d1 d2 : consistent h (kids n1 ++ kids n2 ++ held w1 ++ K) -> is_tree h n1 d1 -> is_tree h n2 d2 ->
  let e := length (cells h) in let h' := grow (grow h (Cell 1 0 (Some n1))) (Cell 1 0 (Some n2)) in
  moves U K (kids n1 ++ kids n2 ++ held w1) ([e; Datatypes.S e] ++ held w1) h h' /\ frame (held w1 ++ K) h h' /\
  is_tree h' (NComb e (Datatypes.S e)) (DComb d1 d2).
Proof.
  intros C H1 H2. cbv zeta. set (e := length (cells h)). set (n := Datatypes.S e).
  set (h1 := grow h (Cell 1 0 (Some n1))). set (h2 := grow h1 (Cell 1 0 (Some n2))).
  assert (En : length (cells h1) = n) by (unfold h1, grow; cbn [cells]; rewrite app_length; cbn; unfold n, e; lia).
  assert (C1 : consistent h (kids n1 ++ (kids n2 ++ held w1) ++ K)) by (rewrite <- app_assoc; exact C).
  pose proof (@moves_new T ET U h n1 K (kids n2 ++ held w1) C1) as M1. fold h1 e in M1.
  assert (C2 : consistent h1 (kids n2 ++ (e :: held w1) ++ K)).
  { eapply consistent_perm; [|exact (mv_consistent M1)]. rewrite app_assoc. apply Permutation_app_tail. apply Permutation_middle. }
  pose proof (@moves_new T ET U h1 n2 K (e :: held w1) C2) as M2. fold h2 in M2. rewrite En in M2.
  assert (Lt : forall y, reach h (kids n1 ++ kids n2 ++ held w1 ++ K) y -> y < e) by (intros y Hy; eapply reach_lt; [exact C|apply incl_refl|exact Hy]).
  assert (F2 : frame (kids n1 ++ kids n2 ++ held w1 ++ K) h h2).
  { intros y Hy. apply Lt in Hy. unfold h2, h1. rewrite !node_grow; [reflexivity|fold e; lia|fold h1; rewrite En; unfold n; lia]. }
  split; [|split].
  - eapply moves_trans; [exact M1|]. eapply moves_perm; [| |exact M2].
    + symmetry. apply Permutation_middle.
    + apply perm_swap.
  - eapply frame_incl; [|exact F2]. apply incl_appr, incl_appr, incl_refl.
  - apply IT_comb with (m := n1) (n := n2).
    + unfold h2. rewrite node_grow by (rewrite En; unfold n; lia). unfold node_at, h1. rewrite cell_at_grow. fold e. rewrite Nat.eqb_refl. reflexivity.
    + eapply is_tree_frame; [exact H1|]. eapply frame_incl; [|exact F2]. apply incl_appl, incl_refl.
    + unfold node_at, h2. rewrite cell_at_grow, En, Nat.eqb_refl. reflexivity.
    + eapply is_tree_frame; [exact H2|]. eapply frame_incl; [|exact F2]. apply incl_appr, incl_appl, incl_refl.
Qed.

Lemma lookup_bind Z (k : _ -> @M S A1 Pos CE Z) n s d h w : bind (rp_lookup bnd1 n) k (PState s d (h, w)) = k (bnd1 h n) (PState s d (h, w)).
Proof. reflexivity. Qed.
Lemma new_bind Z (k : nat -> @M S A1 Pos CE Z) n s d h w :
  bind (rp_new n) k (PState s d (h, w)) = k (length (cells h)) (PState s d (grow h (Cell 1 0 (Some n)), w)).
Proof. reflexivity. Qed.
Lemma new_bind2 Z (k : _ -> @M S W2 Pos CE Z) (t : datum T ET) st : bind (new_datum rc_alloc t) k st = k t st.
Proof. destruct st. reflexivity. Qed.
Lemma mut_bind2 Z (k : _ -> @M S W2 Pos CE Z) (t : datum T ET) st :
  bind (fun st => (Ok (a_get_mut rc_alloc t (ps_alloc st)), st)) k st = k true st.
Proof. reflexivity. Qed.
Lemma mut_bind Z (k : bool -> @M S A1 Pos CE Z) x v s d h w : cell_at h x = Some (Cell 1 0 v) ->
  bind (in_mem (get_mut x)) k (PState s d (h, w)) = k true (PState s d (h, w)).
Proof. intros Ec. unfold bind, in_mem, get_mut, d_bind, read. cbn [ps_alloc fst snd]. rewrite Ec. reflexivity. Qed.
Lemma link_bind Z (k : _ -> @M S A1 Pos CE Z) head tail n1 s d h w :
  match tail with Some t => t < length (cells h) /\ cell_at h t = Some (Cell 1 0 (Some (NLeaf None))) | None => True end ->
  bind (match tail with
        | None => @ret S A1 Pos CE _ (NList (length (cells h)) (length (cells (grow h (Cell 1 0 (Some n1))))))
        | Some x => bind (rp_assign x (NList (length (cells h)) (length (cells (grow h (Cell 1 0 (Some n1))))))) (fun _ => @ret S A1 Pos CE _ head)
        end) k (PState s d (appended h n1, w)) = k (head_of h head tail) (PState s d (linked h n1 tail, w)).
Proof.
  assert (length (cells (grow h (Cell 1 0 (Some n1)))) = Datatypes.S (length (cells h))) as En by (cbn; rewrite app_length; cbn; lia).
  rewrite En. destruct tail as [t|]; [|reflexivity]. intros [L Et]. unfold bind, rp_assign, in_mem. cbn [ps_alloc fst snd].
  assert (cell_at (appended h n1) t = Some (Cell 1 0 (Some (NLeaf None)))) as ->; [|reflexivity].
  unfold appended. rewrite !cell_at_grow, En. destruct (Nat.eqb_spec t (Datatypes.S (length (cells h)))); [lia|].
  destruct (Nat.eqb_spec t (length (cells h))); [lia|exact Et].
Qed.
Lemma regroup Y Z Q (m : @M S W2 Pos CE Y) (n : @M S W2 Pos CE Q) (k : Y -> @M S W2 Pos CE Z) st :
  bind m (fun x => bind n (fun _ => k x)) st = bind (bind m (fun x => bind n (fun _ => @ret S W2 Pos CE _ x))) k st.
Proof. unfold bind. destruct (m st) as [[y|e| |] st']; try reflexivity. destruct (n st') as [[q|e| |] st'']; reflexivity. Qed.
Lemma out_map Y1 Y2 Z2 K R0 h0 own rel (g : Y2 -> Z2) (r1 : res E Y1 * pstate S A1) (m2 : @M S W2 Pos CE Y2) st2 :
  out K R0 h0 own (fun h w n t => rel h w n (g t)) r1 (m2 st2) ->
  out K R0 h0 own rel r1 (bind m2 (fun x => @ret S W2 Pos CE _ (g x)) st2).
Proof. intros H. unfold bind, ret. destruct (m2 st2) as [r2 st2']. inversion H; subst; constructor; auto. Qed.

Local Notation rpn := (rp_next umax cc so1 co1 bnd1 arc dfuel ddepth).
Local Notation rpd := (rp_nested umax cc so1 co1 bnd1 arc dfuel ddepth).
Local Notation rpa := (rp_all umax cc so1 co1 bnd1 arc dfuel ddepth).
Local Notation tpn := (parse_next umax cc so2 co2 rc_alloc bnd2).
Local Notation tpd := (parse_nested umax cc so2 co2 rc_alloc bnd2).
Local Notation tpa := (parse_all umax cc so2 co2 rc_alloc bnd2).
Definition opt (h : mem) (_ : W1) := @is_option T ET h.

Lemma parsers_out f :
  (forall m K s d h w1 w2, rw h w1 w2 -> consistent h (held w1 ++ K) -> deep h (held w1) ->
     out K (held w1) h owns opt (rpn f m (PState s d (h, w1))) (tpn f m (PState s d w2))) /\
  (forall K s d h w1 w2, rw h w1 w2 -> consistent h (held w1 ++ K) -> deep h (held w1) ->
     out K (held w1) h owns opt (rpd f (PState s d (h, w1))) (tpd f (PState s d w2))) /\
  (forall m K head tail fill s d h w1 w2, rw h w1 w2 -> consistent h (kids head ++ held w1 ++ K) -> deep h (kids head ++ held w1) ->
     building K h w1 head tail fill ->
     out K (kids head ++ held w1) h kids (fun h' _ n t => is_tree h' n (fill t)) (rpa f m head tail (PState s d (h, w1))) (tpa f m (PState s d w2))).
Proof.
  induction f as [|f (IHn & IHd & IHa)]; [split; [|split]; intros; apply out_fuel|]. split; [|split].
  - intros m K s d h w1 w2 Hw C D. cbn [rp_next parse_next].
    change (held w1) with ([] ++ held w1) in C, D |- *. rewrite <- app_assoc in C.
    apply plain_bind; [destruct (is_operator_mode m); [apply (same_skip _ HS)|apply same_ret]|auto|exact Hw|exact C|]. intros _ s1 d1.
    apply plain_bind; [apply (same_peek HS)|auto|exact Hw|exact C|]. intros o s2 d2. destruct o as [it|].
    + cbv zeta. destruct (is_nest_start cc (it_ch it)); [|destruct (is_nest_end cc (it_ch it))].
      * apply plain_bind; [apply same_incr|auto|exact Hw|exact C|]. intros _ s3 d3.
        eapply out_bind; [apply finally_out; apply IHd; assumption|exact D|]. intros o1 o2 s4 d4 h4 w14 w24 Hw4 Hr4 Mv4 D4.
        destruct o1 as [n1|], o2 as [t2|]; try contradiction.
        -- apply out_ret; [exact Hw4|exact Hr4|reflexivity|exact (mv_consistent Mv4)].
        -- apply IHn; [exact Hw4|exact (mv_consistent Mv4)|exact D4].
      * apply plain_bind; [apply same_get_depth|auto|exact Hw|exact C|]. intros dd s3 d3.
        apply plain_bind; [apply (same_check _ HS)|auto|exact Hw|exact C|]. intros _ s4 d4.
        apply out_ret; [exact Hw|exact I|reflexivity|exact C].
      * apply plain_bind; [apply (same_text _ _ HS HC)|auto|exact Hw|exact C|]. intros t s3 d3.
        apply out_ret; [exact Hw|constructor|reflexivity|exact C].
    + apply plain_bind; [apply same_get_depth|auto|exact Hw|exact C|]. intros dd s3 d3. destruct (dd =? 0)%N.
      * apply out_ret; [exact Hw|exact I|reflexivity|exact C].
      * apply out_raise; [exact Hw|exact C].
  - assert (All : forall K s d h w1 w2, rw h w1 w2 -> consistent h (held w1 ++ K) -> deep h (held w1) ->
      out K (held w1) h kids (fun h' _ n t => is_tree h' n t)
        (bind (rpa f Base (NLeaf None) None) (fun a => bind (or_drop arc dfuel ddepth a (nest_end cc so1)) (fun _ => @ret S A1 Pos CE _ a)) (PState s d (h, w1)))
        (bind (tpa f Base) (fun a => bind (nest_end cc so2) (fun _ => @ret S W2 Pos CE _ a)) (PState s d w2))).
    { intros K s d h w1 w2 Hw C D.
      eapply out_bind; [apply (IHa Base K (NLeaf None) None (fun t => t)); [exact Hw|exact C|exact D|split; reflexivity]|exact D|].
      intros a t s' d' h' w1' w2' Hw' Ht Mv' D'. cbn beta in Ht. pose proof (mv_consistent Mv') as C'. rewrite <- app_assoc in C'.
      eapply out_bind; [apply or_drop_out with (R0 := held w1')| |].
      - apply plain_out; [apply (same_nest_end _ HS)|exact Hw'|]. eapply consistent_perm; [|exact C']. rewrite !app_assoc. apply Permutation_app_tail, Permutation_app_comm.
      - exact C'.
      - exact D'.
      - exact D'.
      - intros [] [] s'' d'' h'' w1'' w2'' Hw'' ((_ & -> & ->) & _) _ _. apply out_ret; [exact Hw''|exact Ht|rewrite app_nil_r; reflexivity|].
        rewrite app_nil_r, <- app_assoc. exact C'. }
    intros K s d h w1 w2 Hw C D. cbn [rp_nested parse_nested].
    change (held w1) with ([] ++ held w1) in C, D |- *. rewrite <- app_assoc in C.
    apply plain_bind; [apply (same_next HS)|auto|exact Hw|exact C|]. intros start s1 d1.
    apply plain_bind; [apply same_assert|auto|exact Hw|exact C|]. intros _ s2 d2.
    eapply out_bind; [apply IHn; assumption|exact D|]. intros o1 o2 s4 d4 h4 w14 w24 Hw4 Hr4 Mv4 D4.
    pose proof (mv_consistent Mv4) as C4. rewrite <- app_assoc in C4.
    apply plain_bind; [apply (same_peek HS)|right; apply errors_peek|exact Hw4|exact C4|]. intros o s5 d5.
    apply plain_bind; [| |exact Hw4|exact C4|].
    { destruct o as [it|]; [|apply same_ret]. destruct (is_whitespace cc (it_ch it)); [|apply same_ret].
      apply same_bind; [apply (same_next HS)|intros _; apply same_ret]. }
    { right. destruct o as [it|]; [|apply errors_ret]. destruct (is_whitespace cc (it_ch it)); [|apply errors_ret].
      apply errors_bind; [apply errors_next|intros _; apply errors_ret]. }
    intros _ s6 d6. destruct o1 as [n1|], o2 as [t1|]; try contradiction; cbn [owns] in *.
    + rewrite lookup_bind. pose proof (HB Hr4) as B. unfold opt in Hr4. cbn in Hr4.
      assert (CK : consistent h4 (held w14 ++ kids n1 ++ K)) by
        (eapply consistent_perm; [|exact C4]; rewrite !app_assoc; apply Permutation_app_tail, Permutation_app_comm).
      assert (DK : deep h4 (held w14)) by (eapply deep_incl; [|exact D4]; apply incl_appr, incl_refl).
      destruct (bnd1 h4 n1) as [[f1|f1]|], (bnd2 t1) as [[f2|f2]|]; try contradiction.
      * rewrite (regroup (parse_text umax cc so2 co2 f Operands) (nest_end cc so2) (fun operands => call (f2 t1 operands))).
        eapply out_bind; [apply or_drop_out with (R0 := held w14); [|exact C4|exact D4]|exact D4|].
        -- apply plain_out; [|exact Hw4|exact CK]. apply same_bind; [apply (same_text _ _ HS HC)|intros t].
           apply same_bind; [apply (same_nest_end _ HS)|intros _; apply same_ret].
        -- intros t t' s7 d7 h7 w17 w27 Hw7 ((-> & -> & ->) & _) _ _. rewrite app_nil_r.
           apply call_out with (f1 := f1 n1 t') (f2 := f2 t1 t'); [apply B; assumption|exact C4].
      * rewrite (regroup (tpa f Base) (nest_end cc so2) (fun arguments => call (f2 t1 arguments))).
        eapply out_bind; [apply or_drop_out with (R0 := held w14); [apply All; assumption|exact C4|exact D4]|exact D4|].
        intros a t s7 d7 h7 w17 w27 Hw7 (Ht & Mv7') Mv7 D7. cbn beta in Ht.
        apply call_out with (f1 := f1 n1 a) (f2 := f2 t1 t).
        -- apply B; [|exact Ht|exact Hw7]. eapply is_tree_frame; [exact Hr4|]. eapply frame_incl; [|exact (mv_others Mv7')]. apply incl_appl, incl_refl.
        -- pose proof (mv_consistent Mv7) as C7. rewrite <- app_assoc in C7. exact C7.
      * rewrite (regroup (tpa f Base) (nest_end cc so2) (fun operands => bind (new_datum rc_alloc t1) (fun r1 =>
          bind (new_datum rc_alloc operands) (fun r2 => @ret S W2 Pos CE _ (Some (DComb r1 r2)))))).
        eapply out_bind; [apply or_drop_out with (R0 := held w14); [apply All; assumption|exact C4|exact D4]|exact D4|].
        intros a t s7 d7 h7 w17 w27 Hw7 (Ht & Mv7') Mv7 D7. cbn beta in Ht. rewrite !new_bind, !new_bind2.
        pose proof (mv_consistent Mv7) as C7. rewrite <- !app_assoc in C7.
        assert (is_tree h7 n1 t1) as Hn by (eapply is_tree_frame; [exact Hr4|]; eapply frame_incl; [|exact (mv_others Mv7')]; apply incl_appl, incl_refl).
        destruct (comb_step _ _ C7 Hn Ht) as (M8 & F8 & T8).
        eapply out_trans; [eapply moves_perm; [|reflexivity|exact M8]; rewrite app_assoc; reflexivity|].
        assert (length (cells (grow h7 (Cell 1 0 (Some n1)))) = Datatypes.S (length (cells h7))) as -> by (cbn; rewrite app_length; cbn; lia).
        apply out_ret; [|exact T8|reflexivity|exact (mv_consistent M8)].
        eapply HW; [exact Hw7|]. eapply frame_incl; [|exact F8]. apply incl_appl, incl_refl.
    + apply plain_bind; [apply (same_nest_end _ HS)|auto|exact Hw4|exact C4|]. intros _ s7 d7.
      apply out_ret; [exact Hw4|constructor|reflexivity|exact C4].
  - intros m K head tail fill s d h w1 w2 Hw C D B. cbn [rp_all parse_all].
    eapply out_bind; [apply or_drop_out with (R0 := held w1); [apply IHn with (K := kids head ++ K)|exact C|exact D]|exact D|].
    { exact Hw. }
    { eapply consistent_perm; [|exact C]. rewrite !app_assoc. apply Permutation_app_tail, Permutation_app_comm. }
    { eapply deep_incl; [|exact D]. apply incl_appr, incl_refl. }
    intros o1 o2 s1 d1 h1 w11 w21 Hw1 (Ho & Mv1') Mv1 D1. pose proof (mv_consistent Mv1) as C1. rewrite <- !app_assoc in C1.
    destruct (@step_new K h w1 head tail fill h1 o1 B w11 Mv1') as [Fr St].
    assert (FrH : frame (kids head) h h1) by (eapply frame_incl; [|exact Fr]; apply incl_appl, incl_refl).
    destruct o1 as [n1|], o2 as [t1|]; try contradiction; cbn [owns] in *.
    + assert (BT : match tail with
                   | None => head = NLeaf None /\ forall d, fill d = d
                   | Some t => cell_at h1 t = Some (Cell 1 0 (Some (NLeaf None))) /\ ~ reach h1 (kids n1 ++ held w11 ++ K) t /\
                       reach h1 (kids head) t /\ hole h1 head t fill
                   end).
      { destruct tail as [t|]; [|exact B]. destruct B as (_ & _ & Rt & Hl). split; [apply St|]. split; [apply St|]. split.
        - eapply frame_reach; eassumption.
        - eapply hole_frame; eassumption. }
      destruct (@append_step K h1 w11 head tail fill n1 t1 C1 Ho BT) as (M2 & F2 & B2).
      rewrite !new_bind, !new_bind2, link_bind.
      2:{ destruct tail as [t|]; [|trivial]. split; [|apply BT]. eapply cell_at_length. apply BT. }
      assert (length (cells (grow h1 (Cell 1 0 (Some n1)))) = Datatypes.S (length (cells h1))) as -> by (cbn; rewrite app_length; cbn; lia).
      erewrite mut_bind by apply B2. rewrite mut_bind2.
      eapply out_trans; [eapply moves_perm; [|reflexivity|exact M2]; rewrite !app_assoc; reflexivity|].
      apply out_map. apply IHa with (fill := fun t => fill (DList t1 t)).
      * eapply HW; [exact Hw1|]. eapply frame_incl; [|exact F2]. apply incl_appl, incl_refl.
      * pose proof (mv_consistent M2) as C2. rewrite <- app_assoc in C2. exact C2.
      * eapply deep_moves; [exact M2|]. rewrite <- app_assoc in D1. exact D1.
      * exact B2.
    + rewrite app_nil_r. apply out_ret; [exact Hw1| |reflexivity|].
      * destruct tail as [t|].
        -- destruct B as (_ & _ & Rt & Hl). apply Hl with (n := NLeaf None); [|unfold node_at; rewrite (proj1 St); reflexivity|constructor].
           intros y _ Hy. apply FrH. exact Hy.
        -- destruct B as [-> ->]. constructor.
      * rewrite <- app_assoc. exact C1.
Qed.
End Sim.
