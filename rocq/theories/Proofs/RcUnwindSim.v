(** The parser over counted memory, when something panics, returns and panics as the one over trees
    does, and gives back what it had. *)
From Coq Require Import List Arith NArith Bool Lia Permutation.
From Verif.Model Require Import Prelude Parser Unwind Iter Alloc Drop DropRc RcProgram RcParser RcUnwind.
From Verif.Spec Require Import Drops RcParser.
From Verif.Proofs Require Import HeapFacts DropRcFacts RcProgramFacts HeapLink RcHeap RcSim.
Import ListNotations.
Set Implicit Arguments.

Section Sim.
Context {S W1 W2 T ET Pos CE : Type} (U : Prop).
Local Notation CO := (option CE).
Local Notation X := (leaf_value T ET).
Local Notation mem := (rc_mem T ET).
Local Notation datum1 := (rc_datum T ET).
Local Notation A1 := (mem * W1)%type.
Local Notation E := (error Pos CO).
Local Notation Cell := (@Cell X).
Context (umax : N) (cc : classifier) (so1 : stream_ops S A1 T Pos) (so2 : stream_ops S W2 T Pos) (co1 : concat_ops A1 T) (co2 : concat_ops W2 T).
Context (HS : plain_stream so1 so2) (HC : plain_concat co1 co2).
Context (held : W1 -> list nat) (rw : mem -> W1 -> W2 -> Prop) (HW : world_local held rw).
Context (bnd1 : mem -> datum1 -> option (rc_combiner A1 T ET Pos CO)) (bnd2 : bindings W2 T ET Pos CO).
Context (HB : rc_bindings_same U held rw bnd1 bnd2).
Context (arc : bool) (dfuel ddepth : mem -> nat).
Context (HF : forall h, bc h * bc h + bc h < dfuel h).
Implicit Types (h : mem) (K R : list nat).

Local Notation deep := (deep U ddepth).

(** Results of the two parsers, the first having started from [h0] owning [R0]. *)
Section Out.
Context {Y1 Y2 : Type} (K R0 : list nat) (h0 : mem) (own : Y1 -> list nat) (rel : mem -> W1 -> Y1 -> Y2 -> Prop).
Inductive out : res E Y1 * pstate S A1 -> res E Y2 * pstate S W2 -> Prop :=
| out_ok y1 y2 s d h w1 w2 : rw h w1 w2 -> rel h w1 y1 y2 -> moves U K R0 (own y1 ++ held w1) h0 h ->
    out (Ok y1, PState s d (h, w1)) (Ok y2, PState s d w2)
| out_err e s d h w1 w2 : rw h w1 w2 -> moves U K R0 (held w1) h0 h ->
    out (Err e, PState s d (h, w1)) (Err e, PState s d w2)
| out_panic s d h w1 w2 : rw h w1 w2 -> moves U K R0 (held w1) h0 h ->
    out (Panic, PState s d (h, w1)) (Panic, PState s d w2)
| out_fuel st1 st2 : out (OutOfFuel, st1) (OutOfFuel, st2).
End Out.

Lemma out_bind Y1 Y2 Z1 Z2 K R0 h0 own rel own' rel' (m1 : M Y1) (m2 : M Y2) (k1 : Y1 -> M Z1) (k2 : Y2 -> M Z2) st1 st2 :
  out K R0 h0 own rel (m1 st1) (m2 st2) -> deep h0 R0 ->
  (forall y1 y2 s d h w1 w2, rw h w1 w2 -> rel h w1 y1 y2 -> moves U K R0 (own y1 ++ held w1) h0 h -> deep h (own y1 ++ held w1) ->
     out K (own y1 ++ held w1) h own' rel' (k1 y1 (PState s d (h, w1))) (k2 y2 (PState s d w2))) ->
  out K R0 h0 own' rel' (bind m1 k1 st1) (bind m2 k2 st2).
Proof.
  intros H D HK. unfold bind. destruct (m1 st1) as [r1 st1'], (m2 st2) as [r2 st2'].
  inversion H as [y1 y2 s d h w1 w2 Hw Hr Hm|e s d h w1 w2 Hw Hm| |]; subst; try (constructor; assumption).
  specialize (HK y1 y2 s d h w1 w2 Hw Hr Hm (deep_moves Hm D)). destruct HK as [y1' y2' s' d' h' w1' w2' Hw' Hr' Hm'|e s' d' h' w1' w2' Hw' Hm'| |];
    constructor; auto; eapply moves_trans; eassumption.
Qed.

Lemma out_trans Y1 Y2 K R0 R1 h0 h1 own (rel : mem -> W1 -> Y1 -> Y2 -> Prop) r1 r2 : moves U K R0 R1 h0 h1 ->
  out K R1 h1 own rel r1 r2 -> out K R0 h0 own rel r1 r2.
Proof. intros M [y1' y2' s' d' h' w1' w2' Hw' Hr' Hm'|e s' d' h' w1' w2' Hw' Hm'| |]; constructor; auto; eapply moves_trans; eassumption. Qed.

Lemma out_mono Y1 Y2 K R0 R0' h0 own own' (rel rel' : mem -> W1 -> Y1 -> Y2 -> Prop) r1 r2 : out K R0 h0 own rel r1 r2 ->
  Permutation R0 R0' -> (forall y, Permutation (own y) (own' y)) -> (forall h w1 y1 y2, rel h w1 y1 y2 -> rel' h w1 y1 y2) ->
  out K R0' h0 own' rel' r1 r2.
Proof.
  intros H P PO HR. destruct H as [y1' y2' s' d' h' w1' w2' Hw' Hr' Hm'|e s' d' h' w1' w2' Hw' Hm'| |]; constructor; auto.
  - eapply moves_perm; [exact P|apply Permutation_app_tail; apply PO|exact Hm'].
  - eapply moves_perm; [exact P|reflexivity|exact Hm'].
  - eapply moves_perm; [exact P|reflexivity|eassumption].
Qed.

Lemma out_ret Y1 Y2 K R0 h own (rel : mem -> W1 -> Y1 -> Y2 -> Prop) y1 y2 s d w1 w2 : rw h w1 w2 -> rel h w1 y1 y2 ->
  Permutation R0 (own y1 ++ held w1) -> consistent h (R0 ++ K) ->
  out K R0 h own rel (ret (CE := CO) (Pos := Pos) y1 (PState s d (h, w1))) (ret y2 (PState s d w2)).
Proof.
  intros Hw Hr P C. constructor; auto. eapply moves_perm; [reflexivity|exact P|]. apply moves_refl. exact C.
Qed.
Lemma out_raise Y1 Y2 K h own (rel : mem -> W1 -> Y1 -> Y2 -> Prop) e s d w1 w2 : rw h w1 w2 -> consistent h (held w1 ++ K) ->
  out K (held w1) h own rel (raise e (PState s d (h, w1))) (raise e (PState s d w2)).
Proof. intros Hw C. constructor; auto. apply moves_refl. exact C. Qed.

Lemma plain_bind Y Z1 Z2 K R own rel (m1 : M Y) m2 (k1 : Y -> M Z1) (k2 : Y -> M Z2) s d h w1 w2 : same m1 m2 -> R = [] ->
  rw h w1 w2 -> consistent h (R ++ held w1 ++ K) ->
  (forall y s' d', out K (R ++ held w1) h own rel (k1 y (PState s' d' (h, w1))) (k2 y (PState s' d' w2))) ->
  out K (R ++ held w1) h own rel (bind m1 k1 (PState s d (h, w1))) (bind m2 k2 (PState s d w2)).
Proof.
  intros H HE Hw C HK. unfold bind. destruct (H s d (h, w1) w2) as (r & s' & d' & E1 & E2). rewrite E1, E2.
  subst R. destruct r as [y|e| |]; [apply HK| | |constructor]; constructor; auto; apply moves_refl; exact C.
Qed.
Lemma plain_out Y K (m1 : M Y) m2 s d h w1 w2 : same m1 m2 -> rw h w1 w2 -> consistent h (held w1 ++ K) ->
  out K (held w1) h (fun _ => []) (fun h' w1' y1 y2 => y1 = y2 /\ h' = h /\ w1' = w1) (m1 (PState s d (h, w1))) (m2 (PState s d w2)).
Proof.
  intros H Hw C. destruct (H s d (h, w1) w2) as (r & s' & d' & -> & ->). destruct r as [y|e| |]; constructor; auto; apply moves_refl; exact C.
Qed.

Lemma unwind_step (o : option datum1) K h w1 w2 s d : rw h w1 w2 -> consistent h (owns o ++ held w1 ++ K) -> deep h (owns o ++ held w1) ->
  exists h', rw h' w1 w2 /\ moves U K (owns o ++ held w1) (held w1) h h' /\
    forall Z (k : @M S A1 Pos CO Z),
    bind (match o with Some d => @rp_drop S W1 T ET Pos CO arc dfuel ddepth d | None => @ret S A1 Pos CO _ tt end) (fun _ => k) (PState s d (h, w1)) =
    k (PState s d (h', w1)).
Proof.
  intros Hw C D. destruct o as [n|].
  - destruct (@drop_step W1 W2 T ET U held rw HW arc dfuel ddepth HF n K (held w1) h w1 w2 Hw eq_refl C D) as (h' & E' & Hw' & Hm').
    exists h'. split; [exact Hw'|]. split; [exact Hm'|]. intros Z k.
    unfold bind, rp_drop, in_mem. cbn [ps_alloc ps_strm ps_depth fst snd]. rewrite E'. reflexivity.
  - exists h. split; [exact Hw|]. split; [apply moves_refl; exact C|]. reflexivity.
Qed.

Lemma or_unwind_out Y1 Y2 K R0 h0 own (rel : mem -> W1 -> Y1 -> Y2 -> Prop) o (m1 : M Y1) st1 (r2 : res E Y2 * pstate S W2) :
  out (owns o ++ K) R0 h0 own rel (m1 st1) r2 -> consistent h0 (owns o ++ R0 ++ K) -> deep h0 (owns o ++ R0) ->
  out K (owns o ++ R0) h0 (fun y => owns o ++ own y)
    (fun h w1 y1 y2 => rel h w1 y1 y2 /\ moves U (owns o ++ K) R0 (own y1 ++ held w1) h0 h)
    (or_unwind arc dfuel ddepth o m1 st1) r2.
Proof.
  intros H C D. unfold or_unwind. destruct (m1 st1) as [r1 st1'], r2 as [r2 st2'].
  inversion H as [y1 y2 s d h w1 w2 Hw Hr Hm|e s d h w1 w2 Hw Hm|s d h w1 w2 Hw Hm|]; subst.
  - constructor; auto. rewrite <- app_assoc. apply moves_keep; assumption.
  - assert (moves U K (owns o ++ R0) (owns o ++ held w1) h0 h) as Mk by (apply moves_keep; assumption).
    destruct (@unwind_step o K h w1 w2 s d Hw) as (h' & Hw' & Hm' & Ek).
    + pose proof (mv_consistent Mk) as G. rewrite <- app_assoc in G. exact G.
    + eapply deep_moves; eassumption.
    + rewrite Ek. constructor; [exact Hw'|]. eapply moves_trans; eassumption.
  - assert (moves U K (owns o ++ R0) (owns o ++ held w1) h0 h) as Mk by (apply moves_keep; assumption).
    destruct (@unwind_step o K h w1 w2 s d Hw) as (h' & Hw' & Hm' & Ek).
    + pose proof (mv_consistent Mk) as G. rewrite <- app_assoc in G. exact G.
    + eapply deep_moves; eassumption.
    + rewrite Ek. constructor; [exact Hw'|]. eapply moves_trans; eassumption.
  - constructor.
Qed.

Definition opt (h : mem) (_ : W1) := @is_option T ET h.
Lemma finally_out K R0 h0 m1 m2 st1 st2 : out K R0 h0 owns opt (m1 st1) (m2 st2) -> deep h0 R0 ->
  out K R0 h0 owns opt (then_unless_unwinding arc dfuel ddepth m1 (@decr_depth S A1 Pos CO) st1)
    (unless_unwinding m2 (@decr_depth S W2 Pos CO) st2).
Proof.
  intros H D. unfold then_unless_unwinding, unless_unwinding. destruct (m1 st1) as [r1 st1'], (m2 st2) as [r2 st2'].
  inversion H as [y1 y2 s d h w1 w2 Hw Hr Hm|e s d h w1 w2 Hw Hm|s d h w1 w2 Hw Hm|]; subst.
  - pose proof (mv_consistent Hm) as C. rewrite <- app_assoc in C. pose proof (deep_moves Hm D) as D'.
    destruct (@unwind_step y1 K h w1 w2 s d Hw C D') as (h' & Hw' & Hm' & Ek).
    assert (G : or_unwind arc dfuel ddepth y1 (@decr_depth S A1 Pos CO) (PState s d (h, w1)) =
      if (0 <? d)%N then (Ok tt, PState s (d - 1)%N (h, w1)) else (Panic, PState s d (h', w1))).
    { unfold or_unwind. unfold decr_depth at 1. cbn [ps_depth ps_strm ps_alloc]. destruct (0 <? d)%N; [reflexivity|]. apply Ek. }
    unfold bind. rewrite G. unfold decr_depth. cbn [ps_depth ps_strm ps_alloc]. destruct (0 <? d)%N.
    + constructor; assumption.
    + constructor; [exact Hw'|]. eapply moves_trans; eassumption.
  - destruct (unwinding e); [constructor; assumption|].
    unfold bind, decr_depth, raise. cbn [ps_depth ps_strm ps_alloc]. destruct (0 <? d)%N; constructor; auto.
  - constructor; assumption.
  - constructor.
Qed.

Lemma call_out K R h w1 w2 s d (f1 : A1 -> (option datum1 + E) * A1) (f2 : W2 -> (option (datum T ET) + E) * W2) :
  same_call U held rw R h w1 (f1 (h, w1)) (f2 w2) -> consistent h (R ++ held w1 ++ K) ->
  out K (R ++ held w1) h owns (fun h' _ => is_option h') (call f1 (PState s d (h, w1))) (call f2 (PState s d w2)).
Proof.
  intros H C. specialize (H K C). unfold call. cbn [ps_alloc ps_strm ps_depth]. destruct (f1 (h, w1)) as [v1 [h' w1']], (f2 w2) as [v2 w2'].
  destruct H as [Hw H]. destruct v1 as [o1|e1], v2 as [o2|e2]; try contradiction.
  - constructor; [exact Hw|apply H|apply H].
  - destruct H as [-> Hm]. constructor; assumption.
Qed.
Local Notation appended := (@appended T ET).
Local Notation linked := (@linked T ET).
Local Notation head_of := (@head_of T ET).
Lemma lookup_bind Z (k : _ -> @M S A1 Pos CO Z) n s d h w : bind (rp_lookup bnd1 n) k (PState s d (h, w)) = k (bnd1 h n) (PState s d (h, w)).
Proof. reflexivity. Qed.
Lemma new_bind Z (k : nat -> @M S A1 Pos CO Z) n s d h w :
  bind (rp_new n) k (PState s d (h, w)) = k (length (cells h)) (PState s d (grow h (Cell 1 0 (Some n)), w)).
Proof. reflexivity. Qed.
Lemma new_bind2 Z (k : _ -> @M S W2 Pos CO Z) (t : datum T ET) st : bind (new_datum rc_alloc t) k st = k t st.
Proof. destruct st. reflexivity. Qed.
Lemma mut_bind2 Z (k : _ -> @M S W2 Pos CO Z) (t : datum T ET) st :
  bind (fun st => (Ok (a_get_mut rc_alloc t (ps_alloc st)), st)) k st = k true st.
Proof. reflexivity. Qed.
Lemma mut_bind Z (k : bool -> @M S A1 Pos CO Z) x v s d h w : cell_at h x = Some (Cell 1 0 v) ->
  bind (in_mem (get_mut x)) k (PState s d (h, w)) = k true (PState s d (h, w)).
Proof. intros Ec. unfold bind, in_mem, get_mut, d_bind, read. cbn [ps_alloc fst snd]. rewrite Ec. reflexivity. Qed.
Lemma link_bind Z (k : _ -> @M S A1 Pos CO Z) head tail n1 s d h w :
  match tail with Some t => t < length (cells h) /\ cell_at h t = Some (Cell 1 0 (Some (NLeaf None))) | None => True end ->
  bind (match tail with
        | None => @ret S A1 Pos CO _ (NList (length (cells h)) (length (cells (grow h (Cell 1 0 (Some n1))))))
        | Some x => bind (rp_assign x (NList (length (cells h)) (length (cells (grow h (Cell 1 0 (Some n1))))))) (fun _ => @ret S A1 Pos CO _ head)
        end) k (PState s d (appended h n1, w)) = k (head_of h head tail) (PState s d (linked h n1 tail, w)).
Proof.
  assert (length (cells (grow h (Cell 1 0 (Some n1)))) = Datatypes.S (length (cells h))) as En by (cbn; rewrite app_length; cbn; lia).
  rewrite En. destruct tail as [t|]; [|reflexivity]. intros [L Et]. unfold bind, rp_assign, in_mem. cbn [ps_alloc fst snd].
  assert (cell_at (appended h n1) t = Some (Cell 1 0 (Some (NLeaf None)))) as ->; [|reflexivity].
  unfold appended. rewrite !cell_at_grow, En. destruct (Nat.eqb_spec t (Datatypes.S (length (cells h)))); [lia|].
  destruct (Nat.eqb_spec t (length (cells h))); [lia|exact Et].
Qed.
Lemma regroup Y Z Q (m : @M S W2 Pos CO Y) (n : @M S W2 Pos CO Q) (k : Y -> @M S W2 Pos CO Z) st :
  bind m (fun x => bind n (fun _ => k x)) st = bind (bind m (fun x => bind n (fun _ => @ret S W2 Pos CO _ x))) k st.
Proof. unfold bind. destruct (m st) as [[y|e| |] st']; try reflexivity. destruct (n st') as [[q|e| |] st'']; reflexivity. Qed.
Lemma regroup2 Y Z (m : @M S W2 Pos CO Y) (n : Y -> @M S W2 Pos CO unit) (k : @M S W2 Pos CO Z) st :
  bind m (fun x => bind (n x) (fun _ => k)) st = bind (bind m n) (fun _ => k) st.
Proof. unfold bind. destruct (m st) as [[y|e| |] st']; try reflexivity. Qed.
Lemma out_map Y1 Y2 Z2 K R0 h0 own rel (g : Y2 -> Z2) (r1 : res E Y1 * pstate S A1) (m2 : @M S W2 Pos CO Y2) st2 :
  out K R0 h0 own (fun h w n t => rel h w n (g t)) r1 (m2 st2) ->
  out K R0 h0 own rel r1 (bind m2 (fun x => @ret S W2 Pos CO _ (g x)) st2).
Proof. intros H. unfold bind, ret. destruct (m2 st2) as [r2 st2']. inversion H; subst; constructor; auto. Qed.

Local Notation rpn := (ru_next umax cc so1 co1 bnd1 arc dfuel ddepth).
Local Notation rpd := (ru_nested umax cc so1 co1 bnd1 arc dfuel ddepth).
Local Notation rpa := (ru_all umax cc so1 co1 bnd1 arc dfuel ddepth).
Local Notation tpn := (unw_next umax cc so2 co2 rc_alloc bnd2).
Local Notation tpd := (unw_nested umax cc so2 co2 rc_alloc bnd2).
Local Notation tpa := (unw_all umax cc so2 co2 rc_alloc bnd2).
Lemma parsers_out f :
  (forall m K s d h w1 w2, rw h w1 w2 -> consistent h (held w1 ++ K) -> deep h (held w1) ->
     out K (held w1) h owns opt (rpn f m (PState s d (h, w1))) (tpn f m (PState s d w2))) /\
  (forall K s d h w1 w2, rw h w1 w2 -> consistent h (held w1 ++ K) -> deep h (held w1) ->
     out K (held w1) h owns opt (rpd f (PState s d (h, w1))) (tpd f (PState s d w2))) /\
  (forall m K head tail fill s d h w1 w2, rw h w1 w2 -> consistent h (kids head ++ held w1 ++ K) -> deep h (kids head ++ held w1) ->
     building held K h w1 head tail fill ->
     out K (kids head ++ held w1) h kids (fun h' _ n t => is_tree h' n (fill t)) (rpa f m head tail (PState s d (h, w1))) (tpa f m (PState s d w2))).
Proof.
  induction f as [|f (IHn & IHd & IHa)]; [split; [|split]; intros; apply out_fuel|]. split; [|split].
  - intros m K s d h w1 w2 Hw C D. cbn [ru_next unw_next].
    change (held w1) with ([] ++ held w1) in C, D |- *. rewrite <- app_assoc in C.
    apply plain_bind; [destruct (is_operator_mode m); [apply (same_skip _ HS)|apply same_ret]|auto|exact Hw|exact C|]. intros _ s1 d1.
    apply plain_bind; [apply (same_peek HS)|auto|exact Hw|exact C|]. intros o s2 d2. destruct o as [it|].
    + cbv zeta. destruct (is_nest_start cc (it_ch it)); [|destruct (is_nest_end cc (it_ch it))].
      * apply plain_bind; [apply same_incr|auto|exact Hw|exact C|]. intros _ s3 d3.
        eapply out_bind; [apply finally_out; [apply IHd; assumption|exact D]|exact D|]. intros o1 o2 s4 d4 h4 w14 w24 Hw4 Hr4 Mv4 D4.
        destruct o1 as [n1|], o2 as [t2|]; try contradiction.
        -- apply out_ret; [exact Hw4|exact Hr4|reflexivity|exact (mv_consistent Mv4)].
        -- apply IHn; [exact Hw4|exact (mv_consistent Mv4)|exact D4].
      * apply plain_bind; [apply same_get_depth|auto|exact Hw|exact C|]. intros dd s3 d3.
        apply plain_bind; [apply (same_check _ HS)|auto|exact Hw|exact C|]. intros _ s4 d4.
        apply out_ret; [exact Hw|exact I|reflexivity|exact C].
      * apply plain_bind; [apply (same_text _ _ HS HC)|auto|exact Hw|exact C|]. intros t s3 d3.
        apply out_ret; [exact Hw|constructor|reflexivity|exact C].
    + apply plain_bind; [apply same_get_depth|auto|exact Hw|exact C|]. intros dd s3 d3. destruct (dd =? 0)%N.
      * apply out_ret; [exact Hw|exact I|reflexivity|exact C].
      * apply out_raise; [exact Hw|exact C].
  - assert (All : forall K s d h w1 w2, rw h w1 w2 -> consistent h (held w1 ++ K) -> deep h (held w1) ->
      out K (held w1) h kids (fun h' _ n t => is_tree h' n t)
        (bind (rpa f Base (NLeaf None) None) (fun a => bind (or_unwind arc dfuel ddepth (Some a) (nest_end cc so1)) (fun _ => @ret S A1 Pos CO _ a)) (PState s d (h, w1)))
        (bind (tpa f Base) (fun a => bind (nest_end cc so2) (fun _ => @ret S W2 Pos CO _ a)) (PState s d w2))).
    { intros K s d h w1 w2 Hw C D.
      eapply out_bind; [apply (IHa Base K (NLeaf None) None (fun t => t)); [exact Hw|exact C|exact D|split; reflexivity]|exact D|].
      intros a t s' d' h' w1' w2' Hw' Ht Mv' D'. cbn beta in Ht. pose proof (mv_consistent Mv') as C'. rewrite <- app_assoc in C'.
      eapply out_bind; [apply or_unwind_out with (R0 := held w1') (o := Some a)| |].
      - apply plain_out; [apply (same_nest_end _ HS)|exact Hw'|]. eapply consistent_perm; [|exact C']. rewrite !app_assoc. apply Permutation_app_tail, Permutation_app_comm.
      - exact C'.
      - exact D'.
      - exact D'.
      - intros [] [] s'' d'' h'' w1'' w2'' Hw'' ((_ & -> & ->) & _) _ _. apply out_ret; [exact Hw''|exact Ht|rewrite app_nil_r; reflexivity|].
        rewrite app_nil_r, <- app_assoc. exact C'. }
    intros K s d h w1 w2 Hw C D. cbn [ru_nested unw_nested].
    change (held w1) with ([] ++ held w1) in C, D |- *. rewrite <- app_assoc in C.
    apply plain_bind; [apply (same_next HS)|auto|exact Hw|exact C|]. intros start s1 d1.
    apply plain_bind; [apply same_assert|auto|exact Hw|exact C|]. intros _ s2 d2.
    eapply out_bind; [apply IHn; assumption|exact D|]. intros o1 o2 s4 d4 h4 w14 w24 Hw4 Hr4 Mv4 D4.
    pose proof (mv_consistent Mv4) as C4. rewrite <- app_assoc in C4.
    rewrite regroup2.
    eapply out_bind; [apply or_unwind_out with (R0 := held w14) (o := o1)|exact D4|].
    { apply plain_out; [apply same_bind; [apply (same_peek HS)|]|exact Hw4|].
      - intros [it|]; [|apply same_ret]. destruct (is_whitespace cc (it_ch it)); [|apply same_ret].
        apply same_bind; [apply (same_next HS)|intros _; apply same_ret].
      - eapply consistent_perm; [|exact C4]. rewrite !app_assoc. apply Permutation_app_tail, Permutation_app_comm. }
    { exact C4. }
    { exact D4. }
    intros [] [] s6 d6 h6 w16 w26 Hw6 ((_ & -> & ->) & _) _ _. rewrite app_nil_r. clear Hw4. rename Hw6 into Hw4.
    destruct o1 as [n1|], o2 as [t1|]; try contradiction; cbn [owns] in *.
    + rewrite lookup_bind. pose proof (HB Hr4) as B. unfold opt in Hr4. cbn in Hr4.
      assert (CK : consistent h4 (held w14 ++ kids n1 ++ K)) by
        (eapply consistent_perm; [|exact C4]; rewrite !app_assoc; apply Permutation_app_tail, Permutation_app_comm).
      assert (DK : deep h4 (held w14)) by (eapply deep_incl; [|exact D4]; apply incl_appr, incl_refl).
      destruct (bnd1 h4 n1) as [[f1|f1]|], (bnd2 t1) as [[f2|f2]|]; try contradiction.
      * rewrite (regroup (parse_text umax cc so2 co2 f Operands) (nest_end cc so2) (fun operands => call (f2 t1 operands))).
        eapply out_bind; [apply or_unwind_out with (R0 := held w14) (o := Some n1); [|exact C4|exact D4]|exact D4|].
        -- apply plain_out; [|exact Hw4|exact CK]. apply same_bind; [apply (same_text _ _ HS HC)|intros t].
           apply same_bind; [apply (same_nest_end _ HS)|intros _; apply same_ret].
        -- intros t t' s7 d7 h7 w17 w27 Hw7 ((-> & -> & ->) & _) _ _. rewrite app_nil_r.
           apply call_out with (f1 := f1 n1 t') (f2 := f2 t1 t'); [apply B; assumption|exact C4].
      * rewrite (regroup (tpa f Base) (nest_end cc so2) (fun arguments => call (f2 t1 arguments))).
        eapply out_bind; [apply or_unwind_out with (R0 := held w14) (o := Some n1); [apply All; assumption|exact C4|exact D4]|exact D4|].
        intros a t s7 d7 h7 w17 w27 Hw7 (Ht & Mv7') Mv7 D7. cbn beta in Ht.
        apply call_out with (f1 := f1 n1 a) (f2 := f2 t1 t).
        -- apply B; [|exact Ht|exact Hw7]. eapply is_tree_frame; [exact Hr4|]. eapply frame_incl; [|exact (mv_others Mv7')]. apply incl_appl, incl_refl.
        -- pose proof (mv_consistent Mv7) as C7. rewrite <- app_assoc in C7. exact C7.
      * rewrite (regroup (tpa f Base) (nest_end cc so2) (fun operands => bind (new_datum rc_alloc t1) (fun r1 =>
          bind (new_datum rc_alloc operands) (fun r2 => @ret S W2 Pos CO _ (Some (DComb r1 r2)))))).
        eapply out_bind; [apply or_unwind_out with (R0 := held w14) (o := Some n1); [apply All; assumption|exact C4|exact D4]|exact D4|].
        intros a t s7 d7 h7 w17 w27 Hw7 (Ht & Mv7') Mv7 D7. cbn beta in Ht. rewrite !new_bind, !new_bind2.
        pose proof (mv_consistent Mv7) as C7. rewrite <- !app_assoc in C7.
        assert (is_tree h7 n1 t1) as Hn by (eapply is_tree_frame; [exact Hr4|]; eapply frame_incl; [|exact (mv_others Mv7')]; apply incl_appl, incl_refl).
        destruct (comb_step U held _ _ C7 Hn Ht) as (M8 & F8 & T8).
        eapply out_trans; [eapply moves_perm; [|reflexivity|exact M8]; rewrite app_assoc; reflexivity|].
        assert (length (cells (grow h7 (Cell 1 0 (Some n1)))) = Datatypes.S (length (cells h7))) as -> by (cbn; rewrite app_length; cbn; lia).
        apply out_ret; [|exact T8|reflexivity|exact (mv_consistent M8)].
        eapply HW; [exact Hw7|]. eapply frame_incl; [|exact F8]. apply incl_appl, incl_refl.
    + apply plain_bind; [apply (same_nest_end _ HS)|auto|exact Hw4|exact C4|]. intros _ s7 d7.
      apply out_ret; [exact Hw4|constructor|reflexivity|exact C4].
  - intros m K head tail fill s d h w1 w2 Hw C D B. cbn [ru_all unw_all].
    eapply out_bind; [apply or_unwind_out with (R0 := held w1) (o := Some head); [apply IHn with (K := kids head ++ K)|exact C|exact D]|exact D|].
    { exact Hw. }
    { eapply consistent_perm; [|exact C]. rewrite !app_assoc. apply Permutation_app_tail, Permutation_app_comm. }
    { eapply deep_incl; [|exact D]. apply incl_appr, incl_refl. }
    intros o1 o2 s1 d1 h1 w11 w21 Hw1 (Ho & Mv1') Mv1 D1. pose proof (mv_consistent Mv1) as C1. rewrite <- !app_assoc in C1.
    destruct (step_new held K w1 head tail fill o1 B w11 Mv1') as [Fr St].
    assert (FrH : frame (kids head) h h1) by (eapply frame_incl; [|exact Fr]; apply incl_appl, incl_refl).
    destruct o1 as [n1|], o2 as [t1|]; try contradiction; cbn [owns] in *.
    + assert (BT : match tail with
                   | None => head = NLeaf None /\ forall d, fill d = d
                   | Some t => cell_at h1 t = Some (Cell 1 0 (Some (NLeaf None))) /\ ~ reach h1 (kids n1 ++ held w11 ++ K) t /\
                       reach h1 (kids head) t /\ hole h1 head t fill
                   end).
      { destruct tail as [t|]; [|exact B]. destruct B as (_ & _ & Rt & Hl). split; [apply St|]. split; [apply St|]. split.
        - eapply frame_reach; eassumption.
        - eapply hole_frame; eassumption. }
      destruct (append_step U held K w11 head tail fill C1 Ho BT) as (M2 & F2 & B2).
      rewrite !new_bind, !new_bind2, link_bind.
      2:{ destruct tail as [t|]; [|trivial]. split; [|apply BT]. eapply cell_at_length. apply BT. }
      assert (length (cells (grow h1 (Cell 1 0 (Some n1)))) = Datatypes.S (length (cells h1))) as -> by (cbn; rewrite app_length; cbn; lia).
      erewrite mut_bind by apply B2. rewrite mut_bind2.
      eapply out_trans; [eapply moves_perm; [|reflexivity|exact M2]; rewrite !app_assoc; reflexivity|].
      apply out_map. apply IHa with (fill := fun t => fill (DList t1 t)).
      * eapply HW; [exact Hw1|]. eapply frame_incl; [|exact F2]. apply incl_appl, incl_refl.
      * pose proof (mv_consistent M2) as C2. rewrite <- app_assoc in C2. exact C2.
      * eapply deep_moves; [exact M2|]. rewrite <- app_assoc in D1. exact D1.
      * exact B2.
    + rewrite app_nil_r. apply out_ret; [exact Hw1| |reflexivity|].
      * destruct tail as [t|].
        -- destruct B as (_ & _ & Rt & Hl). apply Hl with (n := NLeaf None); [|unfold node_at; rewrite (proj1 St); reflexivity|constructor].
           intros y _ Hy. apply FrH. exact Hy.
        -- destruct B as [-> ->]. constructor.
      * rewrite <- app_assoc. exact C1.
Qed.
End Sim.