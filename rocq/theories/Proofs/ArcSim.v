(** The parser among other threads returns what the one over trees returns when the combiners
    answer the same. *)
From Coq Require Import List Arith NArith Bool Lia Permutation.
From Verif.Model Require Import Prelude Parser Unwind Iter Alloc Drop DropRc DropArc RcParser ArcParser.
From Verif.Spec Require Import Drops Threads RcParser ArcParser.
From Verif.Proofs Require Import HeapFacts HeapLink ThreadFacts RcHeap RcSim ArcTask.
Import ListNotations.
Set Implicit Arguments.

Section Sim.
Context {S T ET Pos CE : Type}.
Local Notation CO := (option CE).
Local Notation X := (leaf_value T ET).
Local Notation heap1 := (rc_mem T ET).
Local Notation datum1 := (rc_datum T ET).
Local Notation E := (error Pos CO).
Local Notation event := (event T ET Pos CE).
Local Notation task := (task T ET Pos CE).
Local Notation W2 := (oracle T ET Pos CE).
Local Notation Cell := (@Cell X).
Context (umax : N) (cc : classifier) (so1 : stream_ops S unit T Pos) (so2 : stream_ops S W2 T Pos) (co1 : concat_ops unit T) (co2 : concat_ops W2 T).
Context (HS : plain_stream so1 so2) (HC : plain_concat co1 co2).
Context (find : heap1 -> datum1 -> option arc_kind) (kind : datum T ET -> option arc_kind).
Context (HF : forall h n d, is_tree h n d -> find h n = kind d).
Implicit Types (h : heap1) (R L K : list nat) (es : list event).
Local Notation P1 := (@P S T ET Pos CE).
Local Notation M2 := (@M S W2 Pos CO).
Local Notation ok := (ok find).

(** ** What is known stays so *)
Lemma tree_guar h h' R n d : is_tree h n d -> guar R h h' -> incl (kids n) R -> is_tree h' n d.
Proof. intros H G I. eapply is_tree_frame; [exact H|]. eapply frame_incl; [exact I|exact (g_frame G)]. Qed.
Lemma operands_guar h h' R a a' : operands_are h a a' -> guar R h h' -> incl (a_refs a) R -> operands_are h' a a'.
Proof. destruct a as [t|n], a' as [t'|d]; cbn; auto. apply tree_guar. Qed.
Lemma option_guar h h' R o o' : is_option h o o' -> guar R h h' -> incl (owns o) R -> is_option h' o o'.
Proof. destruct o as [n|], o' as [d|]; cbn; auto. apply tree_guar. Qed.
Lemma tree_exists h L n : consistent h L -> incl (kids n) L -> exists d, is_tree h n d.
Proof.
  intros C I. destruct (cons_acyclic C) as (rank & HR).
  assert (Ref : forall k x, rank x < k -> In x (L ++ edges h) -> exists m d, node_at h x = Some m /\ is_tree h m d).
  { induction k as [|k IH]; intros x Lt Hx; [lia|]. destruct (node_at h x) as [m|] eqn:Em; [|destruct (cons_refs C _ Hx Em)].
    assert (HK : forall y, In y (kids m) -> exists m' d, node_at h y = Some m' /\ is_tree h m' d).
    { intros y Hy. apply IH; [pose proof (HR _ _ _ Em Hy); lia|]. apply in_or_app. right. eapply node_at_edges; eassumption. }
    exists m. destruct m as [a b|a b|[[t|t|]|]].
    - destruct (HK a) as (m1 & d1 & E1 & T1); [cbn; auto|]. destruct (HK b) as (m2 & d2 & E2 & T2); [cbn; auto|]. exists (DComb d1 d2). split; [reflexivity|]. econstructor; eassumption.
    - destruct (HK a) as (m1 & d1 & E1 & T1); [cbn; auto|]. destruct (HK b) as (m2 & d2 & E2 & T2); [cbn; auto|]. exists (DList d1 d2). split; [reflexivity|]. econstructor; eassumption.
    - exists (DText t). split; [reflexivity|constructor].
    - exists (DExtra t). split; [reflexivity|constructor].
    - exists DEmptyNest. split; [reflexivity|constructor].
    - exists DEmptyList. split; [reflexivity|constructor]. }
  assert (HK : forall y, In y (kids n) -> exists m' d, node_at h y = Some m' /\ is_tree h m' d).
  { intros y Hy. eapply Ref; [apply Nat.lt_succ_diag_r|]. apply in_or_app. left. apply I. exact Hy. }
  destruct n as [a b|a b|[[t|t|]|]].
  - destruct (HK a) as (m1 & d1 & E1 & T1); [cbn; auto|]. destruct (HK b) as (m2 & d2 & E2 & T2); [cbn; auto|]. exists (DComb d1 d2). econstructor; eassumption.
  - destruct (HK a) as (m1 & d1 & E1 & T1); [cbn; auto|]. destruct (HK b) as (m2 & d2 & E2 & T2); [cbn; auto|]. exists (DList d1 d2). econstructor; eassumption.
  - exists (DText t). constructor.
  - exists (DExtra t). constructor.
  - exists DEmptyNest. constructor.
  - exists DEmptyList. constructor.
Qed.

(** ** Results of the two parsers *)
(** With the answers of these calls, and asking these questions, the one over trees does the same. *)
Definition runs2 {Y} (m2 : M2 Y) s d (cs : list (asked T ET * answer T ET Pos CE)) (r2 : res E Y) s' d' : Prop :=
  forall more qs, m2 (PState s d (map snd cs ++ more, qs)) = (r2, PState s' d' (more, qs ++ map fst cs)).

(** The first parser started from [h0], and others have [K]. *)
Definition sim {Y1 Y2} (own : Y1 -> list nat) (rel : heap1 -> Y1 -> Y2 -> Prop) (m2 : M2 Y2) s d es0 K h0
    (rr : res E Y1 * pstate S unit) es R h : Prop :=
  guar K h0 h /\ exists ev cs r2, es = es0 ++ ev /\ Forall2 event_is ev cs /\ runs2 m2 s d cs r2 (ps_strm (snd rr)) (ps_depth (snd rr)) /\
  match fst rr, r2 with
  | Ok y1, Ok y2 => rel h y1 y2 /\ Permutation R (own y1 ++ K)
  | Err e1, Err e2 => e1 = e2 /\ Permutation R K
  | Panic, Panic => Permutation R K
  | OutOfFuel, OutOfFuel => incl K R
  | _, _ => False
  end.
(** The thread does [t] owning [R0]. *)
Definition run {Y1 Y2} (t : task (res E Y1 * pstate S unit)) (m2 : M2 Y2) s d (own : Y1 -> list nat) (rel : heap1 -> Y1 -> Y2 -> Prop) R0 K es h : Prop :=
  forall R, Permutation R (R0 ++ K) -> ok t (sim own rel m2 s d es K h) es R h.

Lemma perm_incl R R' : Permutation R R' -> incl R R'.
Proof. intros P x. apply Permutation_in. exact P. Qed.
Lemma perm_incl' R R' : Permutation R R' -> incl R' R.
Proof. intros P x. apply Permutation_in. symmetry. exact P. Qed.
Lemma incl_tail R R0 K : Permutation R (R0 ++ K) -> incl K R.
Proof. intros P x Hx. eapply Permutation_in; [symmetry; exact P|]. apply in_or_app. auto. Qed.

Lemma run_perm Y1 Y2 t (m2 : M2 Y2) s d (own : Y1 -> list nat) rel R0 R0' K es h : Permutation R0 R0' -> run t m2 s d own rel R0 K es h -> run t m2 s d own rel R0' K es h.
Proof. intros P H R PR. apply H. rewrite PR. apply Permutation_app_tail. symmetry. exact P. Qed.
(** Others did something before. *)
Lemma run_from Y1 Y2 t (m2 : M2 Y2) s d (own : Y1 -> list nat) rel R K es h h' : guar K h h' ->
  ok t (sim own rel m2 s d es K h') es R h' -> ok t (sim own rel m2 s d es K h) es R h'.
Proof.
  intros G H. eapply ok_mono; [|exact H]. intros rr es' R' h2 L C (G2 & H2). split; [eapply guar_trans; eassumption|exact H2].
Qed.
Lemma run_mono Y1 Y2 t (m2 : M2 Y2) s d (own own' : Y1 -> list nat) (rel rel' : heap1 -> Y1 -> Y2 -> Prop) R0 K es h :
  (forall y, Permutation (own y) (own' y)) -> (forall h' y1 y2, rel h' y1 y2 -> rel' h' y1 y2) ->
  run t m2 s d own rel R0 K es h -> run t m2 s d own' rel' R0 K es h.
Proof.
  intros PO HR H R PR. eapply ok_mono; [|exact (H R PR)]. intros [r1 st] es' R' h2 L C (G2 & ev & cs & r2 & A1 & A2 & A3 & A4). split; [exact G2|].
  exists ev, cs, r2. repeat split; auto. cbn [fst] in *. destruct r1, r2; auto. destruct A4 as [A4 P4]. split; [auto|]. rewrite P4. apply Permutation_app_tail, PO.
Qed.

Lemma run_bind Y1 Y2 Z1 Z2 own rel own' rel' (m1 : P1 Y1) (m2 : M2 Y2) (k1 : Y1 -> P1 Z1) (k2 : Y2 -> M2 Z2) s d R0 K es h :
  run (m1 (PState s d tt)) m2 s d own rel R0 K es h ->
  (forall y1 y2 s' d' es' h' L, rel h' y1 y2 -> guar K h h' -> consistent h' ((own y1 ++ K) ++ L) ->
     run (k1 y1 (PState s' d' tt)) (k2 y2) s' d' own' rel' (own y1) K es' h') ->
  run (p_then m1 k1 (PState s d tt)) (bind m2 k2) s d own' rel' R0 K es h.
Proof.
  intros HM HK R PR. unfold p_then. eapply ok_bind; [|exact (HM R PR)]. clear R PR HM. intros [r1 [s' d' []]] es1 R h1 HQ.
  apply ok_later. intros h2 L G2 C2. destruct (HQ h2 L G2 C2) as (G & ev & cs & r2 & -> & Fc & Rn & Hr). cbn [fst snd ps_strm ps_depth] in Rn, Hr.
  assert (Stop : forall (r : res E Z1) (r' : res E Z2), incl K R -> (forall more qs, bind m2 k2 (PState s d (map snd cs ++ more, qs)) = (r', PState s' d' (more, qs ++ map fst cs))) ->
    match r, r' with
    | Ok _, _ => False
    | Err e1, Err e2 => e1 = e2 /\ Permutation R K
    | Panic, Panic => Permutation R K
    | OutOfFuel, OutOfFuel => incl K R
    | _, _ => False
    end -> ok (Ended (r, PState s' d' tt)) (sim own' rel' (bind m2 k2) s d es K h) (es ++ ev) R h2).
  { intros r r' I Rn' Hr' h3 L3 G3 C3. split; [eapply guar_trans; [exact G|]; eapply guar_incl; [exact I|exact G3]|].
    exists ev, cs, r'. split; [reflexivity|]. split; [exact Fc|]. split; [exact Rn'|]. cbn [fst]. destruct r, r'; auto; contradiction. }
  destruct r1 as [y1|e1| |], r2 as [y2|e2| |]; try contradiction.
  - destruct Hr as [Hr PR]. eapply ok_mono; [|eapply HK; [exact Hr|exact G| |exact PR]].
    + clear - G Rn Fc. intros [r1 st] es' R' h3 L' C' (G3 & ev' & cs' & r2 & -> & Fc' & Rn' & Hr').
      split; [eapply guar_trans; eassumption|]. exists (ev ++ ev'), (cs ++ cs'), r2. split; [rewrite app_assoc; reflexivity|].
      split; [apply Forall2_app; assumption|]. split; [|exact Hr']. intros more qs. rewrite !map_app, <- app_assoc. unfold bind. rewrite Rn, Rn', <- app_assoc. reflexivity.
    + eapply consistent_perm; [|exact C2]. apply Permutation_app_tail. exact PR.
  - destruct Hr as [<- PR]. apply Stop with (r' := Err e1); [apply (perm_incl' PR)|intros more qs; unfold bind; rewrite Rn; reflexivity|auto].
  - apply Stop with (r' := Panic); [apply (perm_incl' Hr)|intros more qs; unfold bind; rewrite Rn; reflexivity|auto].
  - apply Stop with (r' := OutOfFuel); [exact Hr|intros more qs; unfold bind; rewrite Rn; reflexivity|auto].
Qed.

Lemma run_ret Y1 Y2 own (rel : heap1 -> Y1 -> Y2 -> Prop) y1 y2 s d R0 K es h : (forall h', guar (R0 ++ K) h h' -> rel h' y1 y2) ->
  Permutation R0 (own y1) -> run (quiet (@ret S unit Pos CO _ y1) (PState s d tt)) (@ret S W2 Pos CO _ y2) s d own rel R0 K es h.
Proof.
  intros Hr PO R PR h' L G C. assert (G0 : guar (R0 ++ K) h h') by (eapply guar_perm; eassumption).
  split; [eapply guar_incl; [|exact G0]; apply incl_appr, incl_refl|]. exists [], [], (Ok y2). rewrite app_nil_r. split; [reflexivity|].
  split; [constructor|]. split; [intros more qs; cbn [map app]; rewrite app_nil_r; reflexivity|]. cbn. split; [apply Hr; exact G0|].
  rewrite PR. apply Permutation_app_tail. exact PO.
Qed.

Lemma plain_run Y (m1 : @M S unit Pos CO Y) (m2 : M2 Y) s d K es h : same m1 m2 -> run (quiet m1 (PState s d tt)) m2 s d (fun _ => []) (fun _ y1 y2 => y1 = y2) [] K es h.
Proof.
  intros H R PR h' L G C. split; [eapply guar_perm; [exact PR|exact G]|].
  destruct (H s d tt ([], [])) as (r & s' & d' & E1 & _). rewrite E1. exists [], [], r. rewrite app_nil_r. split; [reflexivity|].
  split; [constructor|]. cbn [fst snd ps_strm ps_depth]. split.
  - intros more qs. cbn [map app]. rewrite app_nil_r. destruct (H s d tt (more, qs)) as (r0 & s0 & d0 & E1' & E2). rewrite E1 in E1'. injection E1' as <- <- <-. exact E2.
  - destruct r as [y|e| |]; auto. apply (perm_incl' PR).
Qed.
Lemma plain_bind Y Z1 Z2 own rel (m1 : @M S unit Pos CO Y) (m2 : M2 Y) (k1 : Y -> P1 Z1) (k2 : Y -> M2 Z2) s d K es h : same m1 m2 ->
  (forall y s' d' es' h', guar K h h' -> run (k1 y (PState s' d' tt)) (k2 y) s' d' own rel [] K es' h') ->
  run (p_then (quiet m1) k1 (PState s d tt)) (bind m2 k2) s d own rel [] K es h.
Proof.
  intros H HK. eapply run_bind; [apply plain_run; exact H|]. intros y1 y2 s' d' es' h' L -> G C. apply HK. exact G.
Qed.
Lemma plain_raise Y1 Y2 own (rel : heap1 -> Y1 -> Y2 -> Prop) e s d K es h :
  run (quiet (@raise S unit Pos CO _ e) (PState s d tt)) (@raise S W2 Pos CO _ e) s d own rel [] K es h.
Proof.
  intros R PR h' L G C. split; [eapply guar_perm; [exact PR|exact G]|]. exists [], [], (Err e). rewrite app_nil_r. split; [reflexivity|].
  split; [constructor|]. cbn [fst snd ps_strm ps_depth]. split; [intros more qs; cbn [map app]; rewrite app_nil_r; reflexivity|]. split; [reflexivity|exact PR].
Qed.

(** Something that is owned is kept, and dropped at an error. *)
Lemma run_unwind Y1 Y2 own (rel : heap1 -> Y1 -> Y2 -> Prop) o (m1 : P1 Y1) (m2 : M2 Y2) s d R0 K es h :
  run (m1 (PState s d tt)) m2 s d own rel R0 (owns o ++ K) es h ->
  run (p_or_unwind o m1 (PState s d tt)) m2 s d (fun y => owns o ++ own y) (fun h' y1 y2 => rel h' y1 y2 /\ guar (owns o ++ K) h h') (owns o ++ R0) K es h.
Proof.
  intros H R PR. unfold p_or_unwind. eapply ok_bind; [|apply (H R); rewrite PR, !app_assoc; apply Permutation_app_tail, Permutation_app_comm]. clear R PR H.
  assert (IK : incl K (owns o ++ K)) by apply incl_appr, incl_refl.
  assert (Drop : forall r st es' R h1, ok (Ended (r, st)) (sim own rel m2 s d es (owns o ++ K) h) es' R h1 -> Permutation R (owns o ++ K) ->
    match r with Err _ | Panic => True | _ => False end ->
    ok (drop_refs (o_refs o) (Ended (r, st))) (sim (fun y => owns o ++ own y) (fun h' y1 y2 => rel h' y1 y2 /\ guar (owns o ++ K) h h') m2 s d es K h) es' R h1).
  { intros r st es' R h1 HQ PR Hr. apply ok_later. intros h2 L G2 C2. destruct (HQ h2 L G2 C2) as (G & ev & cs & r2 & -> & Fc & Rn & Hs).
    apply ok_drop_refs with (R' := K); [exact PR|]. intros R1 PR1 h3 L3 G3 C3. split.
    - eapply guar_trans; [eapply guar_incl; [exact IK|exact G]|]. eapply guar_perm; [exact PR1|exact G3].
    - exists ev, cs, r2. repeat (split; [first [reflexivity|assumption]|]). cbn [fst snd] in *. destruct r as [y|e| |]; try contradiction; destruct r2 as [y2|e2| |]; try contradiction; [|exact PR1].
      split; [apply Hs|exact PR1]. }
  intros [r1 st] es1 R h1 HQ. destruct r1 as [y1|e1| |].
  - intros h2 L G2 C2. destruct (HQ h2 L G2 C2) as (G & ev & cs & r2 & -> & Fc & Rn & Hs). split; [eapply guar_incl; [exact IK|exact G]|].
    exists ev, cs, r2. repeat (split; [first [reflexivity|assumption]|]). cbn [fst snd] in *. destruct r2 as [y2|e2| |]; try contradiction.
    destruct Hs as [Hs PR]. split; [split; [exact Hs|exact G]|]. rewrite PR, !app_assoc. apply Permutation_app_tail, Permutation_app_comm.
  - apply ok_later. intros h2 L G2 C2. destruct (HQ h2 L G2 C2) as (G & ev & cs & r2 & _ & _ & _ & Hs). cbn [fst] in Hs. destruct r2 as [y2|e2| |]; try contradiction.
    eapply ok_rely; [exact G2|]. apply Drop; [exact HQ|apply Hs|trivial].
  - apply ok_later. intros h2 L G2 C2. destruct (HQ h2 L G2 C2) as (G & ev & cs & r2 & _ & _ & _ & Hs). cbn [fst] in Hs. destruct r2 as [y2|e2| |]; try contradiction.
    eapply ok_rely; [exact G2|]. apply Drop; [exact HQ|apply Hs|trivial].
  - intros h2 L G2 C2. destruct (HQ h2 L G2 C2) as (G & ev & cs & r2 & -> & Fc & Rn & Hs). split; [eapply guar_incl; [exact IK|exact G]|].
    exists ev, cs, r2. repeat (split; [first [reflexivity|assumption]|]). cbn [fst snd] in *. destruct r2 as [y2|e2| |]; try contradiction. intros x Hx. apply Hs, IK, Hx.
Qed.

Lemma run_ext Y1 Y2 t (m2 m2' : M2 Y2) s d (own : Y1 -> list nat) rel R0 K es h : (forall st, m2' st = m2 st) -> run t m2 s d own rel R0 K es h -> run t m2' s d own rel R0 K es h.
Proof.
  intros HE H R PR. eapply ok_mono; [|exact (H R PR)]. intros rr es' R' h2 L C (G2 & ev & cs & r2 & A1 & A2 & A3 & A4). split; [exact G2|].
  exists ev, cs, r2. repeat split; auto. intros more qs. rewrite HE. apply A3.
Qed.
Lemma run_map Y1 Y2 Z2 t (m2 : M2 Y2) (g : Y2 -> Z2) s d (own : Y1 -> list nat) rel R0 K es h :
  run t m2 s d own (fun h y1 y2 => rel h y1 (g y2)) R0 K es h -> run t (bind m2 (fun x => @ret S W2 Pos CO _ (g x))) s d own rel R0 K es h.
Proof.
  intros H R PR. eapply ok_mono; [|exact (H R PR)]. intros [r1 st] es' R' h2 L C (G2 & ev & cs & r2 & A1 & A2 & A3 & A4). split; [exact G2|].
  exists ev, cs, (match r2 with Ok y => Ok (g y) | Err e => Err e | Panic => Panic | OutOfFuel => OutOfFuel end).
  split; [exact A1|]. split; [exact A2|]. split; [intros more qs; unfold bind; rewrite A3; destruct r2; reflexivity|]. cbn [fst] in *. destruct r1, r2; auto.
Qed.

(** The second parser goes on as [m']. *)
Lemma sim_seq Y1 Y2 t (own : Y1 -> list nat) rel (m m' : M2 Y2) s d s' d' cs ev es K R h h2 : guar K h h2 -> Forall2 event_is ev cs ->
  (forall more qs, m (PState s d (map snd cs ++ more, qs)) = m' (PState s' d' (more, qs ++ map fst cs))) ->
  ok t (sim own rel m' s' d' (es ++ ev) K h2) (es ++ ev) R h2 -> ok t (sim own rel m s d es K h) (es ++ ev) R h2.
Proof.
  intros G Fc Rn H. eapply ok_mono; [|exact H]. intros rr es' R' h3 L' C' (G3 & ev' & cs' & r2 & -> & Fc' & Rn' & Hr').
  split; [eapply guar_trans; eassumption|]. exists (ev ++ ev'), (cs ++ cs'), r2. split; [rewrite app_assoc; reflexivity|].
  split; [apply Forall2_app; assumption|]. split; [|exact Hr']. intros more qs. rewrite !map_app, <- app_assoc, Rn, Rn', <- app_assoc. reflexivity.
Qed.
Lemma run_stop Y1 Y2 (own : Y1 -> list nat) (rel : heap1 -> Y1 -> Y2 -> Prop) (r : res E Y1) (r' : res E Y2) s d es K R h : incl K R ->
  match r, r' with
  | Err e1, Err e2 => e1 = e2 /\ Permutation R K
  | Panic, Panic => Permutation R K
  | OutOfFuel, OutOfFuel => True
  | _, _ => False
  end -> ok (Ended (r, PState s d tt)) (sim own rel (fun st => (r', st)) s d es K h) es R h.
Proof.
  intros I Hr h' L G C. split; [eapply guar_incl; eassumption|]. exists [], [], r'. rewrite app_nil_r. split; [reflexivity|]. split; [constructor|].
  cbn [fst snd ps_strm ps_depth]. split; [intros more qs; cbn [map app]; rewrite app_nil_r; reflexivity|]. destruct r, r'; auto; contradiction.
Qed.

(** The depth is decremented afterwards unless the thread unwinds. *)
Lemma run_finally (m1 : P1 (option datum1)) (m2 : M2 (option (datum T ET))) (fin1 : @M S unit Pos CO unit) (fin2 : M2 unit) s d K es h : same fin1 fin2 ->
  run (m1 (PState s d tt)) m2 s d owns is_option [] K es h ->
  run (p_unless_unwinding m1 (quiet fin1) (PState s d tt)) (unless_unwinding m2 fin2) s d owns is_option [] K es h.
Proof.
  intros HE HM R PR. unfold p_unless_unwinding. eapply ok_bind; [|exact (HM R PR)]. clear R PR HM. intros [r1 [s' d' []]] es1 R h1 HQ.
  apply ok_later. intros h2 L G2 C2. destruct (HQ h2 L G2 C2) as (G & ev & cs & r2 & -> & Fc & Rn & Hr). cbn [fst snd ps_strm ps_depth] in Rn, Hr.
  destruct r1 as [y1|e1| |], r2 as [y2|e2| |]; try contradiction.
  - destruct Hr as [Hr PR]. eapply sim_seq with (m' := bind fin2 (fun _ => @ret S W2 Pos CO _ y2)) (s' := s') (d' := d'); [exact G|exact Fc|intros more qs; unfold unless_unwinding; rewrite Rn; reflexivity|].
    eapply run_bind; [apply run_unwind with (R0 := []); apply plain_run; exact HE| |rewrite app_nil_r; exact PR]. cbn beta.
    intros [] [] s3 d3 es3 h3 L3 (_ & G3) _ C3. apply run_ret; [|apply Permutation_app_comm]. intros h4 G4.
    eapply option_guar; [exact Hr| |apply incl_appl with (m := K), incl_refl]. eapply guar_trans; [exact G3|]. rewrite app_nil_r in G4. exact G4.
  - destruct Hr as [<- PR]. destruct (unwinding e1) eqn:Ue.
    + eapply sim_seq with (m' := fun st => (Err e1, st)) (s' := s') (d' := d'); [exact G|exact Fc|intros more qs; unfold unless_unwinding; rewrite Rn, Ue; reflexivity|].
      apply run_stop; [apply (perm_incl' PR)|auto].
    + eapply sim_seq with (m' := bind fin2 (fun _ => @raise S W2 Pos CO _ e1)) (s' := s') (d' := d'); [exact G|exact Fc|intros more qs; unfold unless_unwinding; rewrite Rn, Ue; reflexivity|].
      eapply plain_bind; [exact HE| |exact PR]. intros [] s3 d3 es3 h3 G3. apply plain_raise.
  - eapply sim_seq with (m' := fun st => (Panic, st)) (s' := s') (d' := d'); [exact G|exact Fc|intros more qs; unfold unless_unwinding; rewrite Rn; reflexivity|].
    apply run_stop; [apply (perm_incl' Hr)|exact Hr].
  - eapply sim_seq with (m' := fun st => (OutOfFuel, st)) (s' := s') (d' := d'); [exact G|exact Fc|intros more qs; unfold unless_unwinding; rewrite Rn; reflexivity|].
    apply run_stop; [exact Hr|trivial].
Qed.

(** ** Single steps *)
Lemma run_call n a t a' s d K es h : is_tree h n t -> operands_are h a a' ->
  run (p_call n a (PState s d tt)) (call (ask t a')) s d owns is_option (kids n ++ a_refs a) K es h.
Proof.
  intros Ht Ha R PR h' L G C. cbn [p_call ok]. exists K. split; [rewrite PR, app_assoc; reflexivity|]. intros r h2 L2 G2 C2.
  assert (GR : guar ((kids n ++ a_refs a) ++ K) h h') by (eapply guar_perm; eassumption).
  assert (exists r', answer_is h2 r r') as (r' & Hr).
  { destruct r as [[m|]|e]; [|exists (inl None); exact I|exists (inr e); reflexivity].
    destruct (@tree_exists h2 (((kids m) ++ K) ++ L2) m) as (dm & Hd); [exact C2|apply incl_appl, incl_appl, incl_refl|]. exists (inl (Some dm)). exact Hd. }
  assert (EV : event_is (Event h' n a h2 r) ((t, a'), r')).
  { split; [|split]; cbn.
    - eapply tree_guar; [exact Ht|exact GR|apply incl_appl, incl_appl, incl_refl].
    - eapply operands_guar; [exact Ha|exact GR|apply incl_appl, incl_appr, incl_refl].
    - exact Hr. }
  assert (GK : guar K h h2) by (eapply guar_trans; [eapply guar_incl; [|exact GR]; apply incl_appr, incl_refl|exact G2]).
  destruct r as [o|e], r' as [o'|e']; try contradiction.
  - intros h3 L3 G3 C3. split; [eapply guar_trans; [exact GK|]; eapply guar_incl; [|exact G3]; apply incl_appr, incl_refl|].
    exists [Event h' n a h2 (inl o)], [((t, a'), inl o')], (Ok o'). split; [reflexivity|]. split; [constructor; [exact EV|constructor]|].
    split; [intros more qs; reflexivity|]. cbn. split; [|reflexivity]. eapply option_guar; [exact Hr|exact G3|apply incl_appl, incl_refl].
  - cbn in Hr. subst e'. intros h3 L3 G3 C3. split; [eapply guar_trans; [exact GK|]; eapply guar_incl; [|exact G3]; apply incl_appr, incl_refl|].
    exists [Event h' n a h2 (inr e)], [((t, a'), inr e)], (Err e). split; [reflexivity|]. split; [constructor; [exact EV|constructor]|].
    split; [intros more qs; reflexivity|]. cbn. auto.
Qed.

Lemma run_find Z1 Z2 (own : Z1 -> list nat) rel (k1 : option arc_kind -> P1 Z1) (m2 : M2 Z2) n t s d R0 K es h : is_tree h n t -> incl (kids n) (R0 ++ K) ->
  (forall h', guar (R0 ++ K) h h' -> run (k1 (kind t) (PState s d tt)) m2 s d own rel R0 K es h') ->
  run (p_then (p_find n) k1 (PState s d tt)) m2 s d own rel R0 K es h.
Proof.
  intros Ht I HK R PR h' L G C. cbn [t_bind p_find ok]. assert (G0 : guar (R0 ++ K) h h') by (eapply guar_perm; eassumption).
  split; [intros x Hx; eapply Permutation_in; [symmetry; exact PR|apply I, Hx]|]. rewrite (HF (tree_guar Ht G0 I)).
  apply run_from; [eapply guar_incl; [|exact G0]; apply incl_appr, incl_refl|]. apply HK; assumption.
Qed.
Lemma run_new Z1 Z2 (own : Z1 -> list nat) rel (k1 : nat -> P1 Z1) (m2 : M2 Z2) n s d R0 K es h :
  (forall h' L, guar (kids n ++ R0 ++ K) h h' -> consistent h' ((kids n ++ R0 ++ K) ++ L) ->
     run (k1 (length (cells h')) (PState s d tt)) m2 s d own rel (length (cells h') :: R0) K es (grow h' (Cell 1 0 (Some n)))) ->
  run (p_then (p_new n) k1 (PState s d tt)) m2 s d own rel (kids n ++ R0) K es h.
Proof.
  intros HK R PR h' L G C. cbn [t_bind p_new ok]. rewrite <- app_assoc in PR. assert (G0 : guar (kids n ++ R0 ++ K) h h') by (eapply guar_perm; eassumption).
  exists (R0 ++ K). split; [exact PR|]. assert (C0 : consistent h' ((kids n ++ R0 ++ K) ++ L)) by (eapply consistent_perm; [|exact C]; apply Permutation_app_tail; exact PR).
  apply run_from with (h' := grow h' (Cell 1 0 (Some n))).
  - eapply guar_trans; [eapply guar_incl; [|exact G0]; apply incl_appr, incl_appr, incl_refl|]. eapply grow_guar; [exact C0|]. apply incl_appl, incl_appr, incl_appr, incl_refl.
  - eapply HK; [exact G0|exact C0|reflexivity].
Qed.
Lemma run_get_mut Z1 Z2 (own : Z1 -> list nat) rel (k1 : bool -> P1 Z1) (m2 : M2 Z2) x v s d R0 K es h : exclusive h R0 x -> cell_at h x = Some (Cell 1 0 v) ->
  (forall h', guar (R0 ++ K) h h' -> run (k1 true (PState s d tt)) m2 s d own rel R0 K es h') ->
  run (p_then (p_get_mut x) k1 (PState s d tt)) m2 s d own rel R0 K es h.
Proof.
  intros HX Ex HK R PR h1 L1 G1 C1. cbn [t_bind p_get_mut ok]. assert (G10 : guar (R0 ++ K) h h1) by (eapply guar_perm; eassumption).
  assert (HX0 : exclusive h (R0 ++ K) x) by (eapply exclusive_incl; [|exact HX]; apply incl_appl, incl_refl).
  exists (Cell 1 0 v). split; [rewrite (g_only G10 HX0); exact Ex|]. cbn [weak Nat.eqb t_bind].
  intros h2 L2 G2 C2. assert (G20 : guar (R0 ++ K) h h2) by (eapply guar_trans; [exact G10|]; eapply guar_perm; eassumption).
  exists (Cell 1 0 v). split; [rewrite (g_only G20 HX0); exact Ex|]. cbn [strong Nat.eqb t_bind].
  apply run_from; [eapply guar_incl; [|exact G20]; apply incl_appr, incl_refl|]. apply HK; assumption.
Qed.
Lemma run_assign Z1 Z2 (own : Z1 -> list nat) rel (k1 : unit -> P1 Z1) (m2 : M2 Z2) x n s d R0 K es h : exclusive h R0 x -> cell_at h x = Some (Cell 1 0 (Some (NLeaf None))) ->
  (forall h' L, guar (kids n ++ R0 ++ K) h h' -> consistent h' ((kids n ++ R0 ++ K) ++ L) ->
     run (k1 tt (PState s d tt)) m2 s d own rel R0 K es (upd h' x (Some (Cell 1 0 (Some n))))) ->
  run (p_then (p_assign x n) k1 (PState s d tt)) m2 s d own rel (kids n ++ R0) K es h.
Proof.
  intros HX Ex HK R PR h' L G C. cbn [t_bind p_assign ok]. rewrite <- app_assoc in PR. assert (G0 : guar (kids n ++ R0 ++ K) h h') by (eapply guar_perm; eassumption).
  assert (C0 : consistent h' ((kids n ++ R0 ++ K) ++ L)) by (eapply consistent_perm; [|exact C]; apply Permutation_app_tail; exact PR).
  assert (HX1 : exclusive h' R0 x) by (eapply guar_exclusive; [|exact HX]; eapply guar_incl; [|exact G0]; apply incl_appr, incl_appl, incl_refl).
  assert (Ex1 : cell_at h' x = Some (Cell 1 0 (Some (NLeaf None)))).
  { rewrite (g_only G0); [exact Ex|]. eapply exclusive_incl; [|exact HX]. apply incl_appr, incl_appl, incl_refl. }
  exists (R0 ++ K). split; [exact PR|]. split; [eapply exclusive_incl; [|exact HX1]; apply incl_appl, incl_refl|]. split; [exact Ex1|].
  apply run_from with (h' := upd h' x (Some (Cell 1 0 (Some n)))).
  - eapply guar_trans; [eapply guar_incl; [|exact G0]; apply incl_appr, incl_appr, incl_refl|].
    assert (NR : ~ reach h' K x).
    { apply exclusive_apart with (K := R0 ++ kids n ++ L).
      - eapply consistent_perm; [|exact C0]. rewrite <- !app_assoc, (app_assoc (kids n) R0 (K ++ L)). etransitivity; [apply Permutation_app_swap_app|].
        apply Permutation_app_head. rewrite <- app_assoc. apply Permutation_app_swap_app.
      - eapply exclusive_incl; [|exact HX1]. apply incl_appl, incl_refl. }
    eapply upd_guar; eauto.
  - eapply HK; [exact G0|exact C0|reflexivity].
Qed.

(** ** A list that is being built *)
Definition build h (head : datum1) (tail : option nat) (fill : datum T ET -> datum T ET) : Prop :=
  match tail with
  | None => head = NLeaf None /\ forall d, fill d = d
  | Some t => cell_at h t = Some (Cell 1 0 (Some (NLeaf None))) /\ exclusive h (kids head) t /\ hole h head t fill
  end.
Lemma build_guar R h h' head tail fill : build h head tail fill -> guar R h h' -> incl (kids head) R -> build h' head tail fill.
Proof.
  destruct tail as [t|]; [|auto]. intros (Et & HX & HH) G I. pose proof (guar_incl I G) as G'. split; [rewrite (g_only G' HX); exact Et|].
  split; [exact (guar_exclusive G' HX)|]. eapply hole_frame; [exact HH|exact (g_frame G')].
Qed.
Lemma build_read h head tail fill : build h head tail fill -> is_tree h head (fill DEmptyList).
Proof.
  destruct tail as [t|]; intros B.
  - destruct B as (Et & _ & HH). apply (HH h (NLeaf None)); [reflexivity|unfold node_at; rewrite Et; reflexivity|constructor].
  - destruct B as [-> ->]. constructor.
Qed.

Definition item h e (t : datum T ET) : Prop := exists n, node_at h e = Some n /\ is_tree h n t.
Lemma reach_under h K x n y : reach h K x -> node_at h x = Some n -> reach h (kids n) y -> reach h K y.
Proof. intros Hx En H. induction H as [y H|z m y H IH Em Hy]; [eapply reach_kid; eassumption|eapply reach_kid; [exact IH|exact Em|exact Hy]]. Qed.
Lemma item_guar R h h' e t : item h e t -> guar R h h' -> In e R -> item h' e t.
Proof.
  intros (n & En & Ht) G I. exists n. split.
  - rewrite (g_frame G); [exact En|]. apply reach_root. exact I.
  - eapply is_tree_frame; [exact Ht|]. intros y Hy. apply (g_frame G). eapply reach_under; [apply reach_root; exact I|exact En|exact Hy].
Qed.
Lemma item_new h K0 n t : is_tree h n t -> consistent h K0 -> incl (kids n) K0 -> item (grow h (Cell 1 0 (Some n))) (length (cells h)) t.
Proof.
  intros Ht C I. exists n. split.
  - unfold node_at, cell_at, grow. cbn [cells]. rewrite nth_error_app2, Nat.sub_diag by lia. reflexivity.
  - eapply is_tree_frame; [exact Ht|]. eapply grow_frame; eassumption.
Qed.
Lemma hole_item h e n t : item h e t -> ~ reach h [e] n -> hole h (NList e n) n (fun d => DList t d).
Proof.
  intros (m & Em & Ht) N h' n' d F En Hd. assert (Re : reach h [e] e) by (apply reach_root; left; reflexivity).
  assert (Inc : forall y, reach h [e] y -> reach h (kids (NList e n : datum1)) y).
  { intros y. apply reach_incl. intros z [<-|[]]. left. reflexivity. }
  econstructor; [| | |exact Hd].
  - rewrite F; [exact Em|intros ->; contradiction|apply Inc, Re].
  - eapply is_tree_frame; [exact Ht|]. intros y Hy. assert (reach h [e] y) by (eapply reach_under; eassumption). apply F; [intros ->; contradiction|auto].
  - exact En.
Qed.
Lemma cell_upd_eq h t c oc : cell_at h t = Some c -> cell_at (upd h t oc) t = oc.
Proof. intros E1. rewrite (cell_at_upd _ _ _ _ E1), Nat.eqb_refl. reflexivity. Qed.
Lemma cell_upd_ne h t c oc y : cell_at h t = Some c -> y <> t -> cell_at (upd h t oc) y = cell_at h y.
Proof. intros E1 D. rewrite (cell_at_upd _ _ _ _ E1). apply Nat.eqb_neq in D. rewrite D. reflexivity. Qed.
Lemma exclusive_upd h K t n y : cell_at h t = Some (Cell 1 0 (Some (NLeaf None))) -> exclusive h K y -> exclusive (upd h t (Some (Cell 1 0 (Some n)))) K y.
Proof.
  intros Et H. assert (Cl : forall x v, cell_at h x = Some (Cell 1 0 v) -> exists v', cell_at (upd h t (Some (Cell 1 0 (Some n)))) x = Some (Cell 1 0 v')).
  { intros x v Ex. destruct (Nat.eq_dec x t) as [->|D].
    - exists (Some n). erewrite cell_upd_eq; [reflexivity|exact Et].
    - exists v. erewrite cell_upd_ne by (try exact D; exact Et). exact Ex. }
  induction H as [x v I Ex|x m y v H IH Em Iy Ey].
  - destruct (Cl x v Ex) as (v' & Ex'). eapply only_var; eassumption.
  - destruct (Cl y v Ey) as (v' & Ey'). eapply only_kid; [exact IH| |exact Iy|exact Ey']. erewrite node_upd; [exact Em|exact Et|].
    intros ->. unfold node_at in Em. rewrite Et in Em. cbn in Em. injection Em as <-. contradiction.
Qed.

(** The datum [n1] is put at the end. *)
Lemma build_link h L head t fill e n t1 : consistent h (([e; n] ++ kids head) ++ L) -> build h head (Some t) fill -> item h e t1 ->
  cell_at h n = Some (Cell 1 0 (Some (NLeaf None))) ->
  build (upd h t (Some (Cell 1 0 (Some (NList e n))))) head (Some n) (fun d => fill (DList t1 d)).
Proof.
  intros C (Et & HX & HH) It En.
  assert (Xn : exclusive h [n] n) by (eapply only_var; [left; reflexivity|exact En]).
  assert (Nn : ~ reach h (e :: kids head) n).
  { apply exclusive_apart with (K := n :: L).
    - eapply consistent_perm; [|exact C]. cbn. apply perm_skip. rewrite <- Permutation_middle. reflexivity.
    - eapply exclusive_incl; [|exact Xn]. intros z [<-|[]]. left. reflexivity. }
  assert (Nt : ~ reach h [e; n] t).
  { apply exclusive_apart with (K := kids head ++ L); [rewrite app_assoc; exact C|]. eapply exclusive_incl; [|exact HX]. apply incl_appl, incl_refl. }
  assert (Ne : ~ reach h [e] n) by (intros Hr; apply Nn; eapply reach_incl; [|exact Hr]; intros z [<-|[]]; left; reflexivity).
  assert (Nh : ~ reach h (kids head) n) by (intros Hr; apply Nn; eapply reach_incl; [|exact Hr]; apply incl_tl, incl_refl).
  pose proof (exclusive_reach HX) as Rt. assert (D : n <> t) by (intros ->; contradiction).
  set (h' := upd h t (Some (Cell 1 0 (Some (NList e n))))).
  assert (Nd : node_at h' t = Some (NList e n)) by (unfold h', node_at; erewrite cell_upd_eq; [reflexivity|exact Et]).
  assert (En' : cell_at h' n = Some (Cell 1 0 (Some (NLeaf None)))) by (unfold h'; erewrite cell_upd_ne by (try exact D; exact Et); exact En).
  split; [exact En'|]. split; [eapply only_kid; [eapply exclusive_upd; [exact Et|exact HX]|exact Nd|right; left; reflexivity|exact En']|].
  intros h2 m d F Em Hd. apply HH with (n := NList e n).
  - intros y Dy Hy. rewrite F; [|intros ->; contradiction|eapply reach_upd; [exact Et|exact Hy]]. eapply node_upd; [exact Et|exact Dy].
  - rewrite F; [exact Nd|congruence|eapply reach_upd; [exact Et|exact Rt]].
  - apply (hole_item It Ne) with (n := m); [|exact Em|exact Hd]. intros y Dy Hy. assert (y <> t) by (intros ->; contradiction).
    rewrite F; [eapply node_upd; eassumption|exact Dy|]. eapply reach_under; [eapply reach_upd; [exact Et|exact Rt]|exact Nd|]. eapply reach_upd; [exact Et|exact Hy].
Qed.

Section Append.
Context (Z1 Z2 : Type) (own : Z1 -> list nat) (rel : heap1 -> Z1 -> Z2 -> Prop) (k1 : datum1 -> nat -> P1 Z1) (m2 : M2 Z2).
Definition linking n1 head tail : P1 Z1 :=
  p_then (p_new n1) (fun e => p_then (p_new (NLeaf None)) (fun n =>
    p_then (match tail with
            | None => quiet (@ret S unit Pos CO _ (NList e n))
            | Some x => p_then (p_assign x (NList e n)) (fun _ => quiet (@ret S unit Pos CO _ head))
            end) (fun head' => p_then (p_get_mut n) (fun alone =>
      if alone : bool then k1 head' n else p_then (p_drop head') (fun _ => quiet (@raise S unit Pos CO _ FailedDerefTryMut)))))).

Lemma run_append n1 t1 head tail fill s d K es h : build h head tail fill -> is_tree h n1 t1 ->
  (forall head' x h', build h' head' (Some x) (fun d => fill (DList t1 d)) -> guar K h h' -> run (k1 head' x (PState s d tt)) m2 s d own rel (kids head') K es h') ->
  run (linking n1 head tail (PState s d tt)) m2 s d own rel (kids head ++ kids n1) K es h.
Proof.
  intros B Ht HK. eapply run_perm; [apply Permutation_app_comm|]. unfold linking. apply run_new. intros h1 L1 G1 C1.
  set (e := length (cells h1)). set (h1' := grow h1 (Cell 1 0 (Some n1))).
  assert (I1 : incl (kids n1) ((kids n1 ++ kids head ++ K) ++ L1)) by (apply incl_appl, incl_appl, incl_refl).
  assert (It1 : item h1' e t1) by (eapply item_new; [|exact C1|exact I1]; eapply tree_guar; [exact Ht|exact G1|apply incl_appl, incl_refl]).
  assert (G1' : guar (kids head ++ K) h h1').
  { eapply guar_trans; [eapply guar_incl; [|exact G1]; apply incl_appr, incl_refl|]. eapply grow_guar; [exact C1|]. apply incl_appl, incl_appr, incl_refl. }
  eapply run_perm with (R0 := kids (NLeaf None : datum1) ++ e :: kids head); [reflexivity|]. apply run_new. intros h2 L2 G2 C2.
  change (kids (NLeaf None : datum1) ++ (e :: kids head) ++ K) with (e :: kids head ++ K) in G2, C2.
  set (n := length (cells h2)). set (h3 := grow h2 (Cell 1 0 (Some (NLeaf None)))).
  assert (G3 : guar (e :: kids head ++ K) h1' h3) by (eapply guar_trans; [exact G2|]; eapply grow_guar; [exact C2|apply incl_appl, incl_refl]).
  assert (It3 : item h3 e t1) by (eapply item_guar; [exact It1|exact G3|left; reflexivity]).
  assert (En3 : cell_at h3 n = Some (Cell 1 0 (Some (NLeaf None)))).
  { unfold h3, grow, cell_at, n. cbn [cells]. rewrite nth_error_app2, Nat.sub_diag by lia. reflexivity. }
  assert (GH : guar (kids head ++ K) h h3) by (eapply guar_trans; [exact G1'|]; eapply guar_incl; [|exact G3]; apply incl_tl, incl_refl).
  assert (GK : guar K h h3) by (eapply guar_incl; [|exact GH]; apply incl_appr, incl_refl).
  assert (Last : forall head' h4, build h4 head' (Some n) (fun d => fill (DList t1 d)) -> guar K h h4 ->
    run (p_then (p_get_mut n) (fun alone => if alone : bool then k1 head' n else p_then (p_drop head') (fun _ => quiet (@raise S unit Pos CO _ FailedDerefTryMut))) (PState s d tt))
      m2 s d own rel (kids head') K es h4).
  { intros head' h4 B4 G4. eapply run_get_mut; [apply B4|apply B4|]. intros h5 G5. apply HK.
    - eapply build_guar; [exact B4|exact G5|apply incl_appl, incl_refl].
    - eapply guar_trans; [exact G4|]. eapply guar_incl; [|exact G5]. apply incl_appr, incl_refl. }
  destruct tail as [t|].
  - match goal with |- run (p_then (p_then ?a _) ?f ?st) _ _ _ _ _ _ _ _ _ => change (p_then (p_then a (fun _ => quiet (@ret S unit Pos CO _ head))) f st) with (p_then a (fun _ => f head) st) end.
    assert (B3 : build h3 head (Some t) fill) by (eapply build_guar; [exact B|exact GH|apply incl_appl, incl_refl]).
    eapply run_perm with (R0 := kids (NList e n : datum1) ++ kids head); [cbn; apply perm_swap|]. apply run_assign; [apply B3|apply B3|]. intros h4 L4 G4 C4. apply Last.
    + eapply build_link with (L := K ++ L4).
      * change (kids (NList e n : datum1)) with [e; n] in C4. rewrite <- !app_assoc. rewrite <- !app_assoc in C4. exact C4.
      * eapply build_guar; [exact B3|exact G4|apply incl_appr, incl_appl, incl_refl].
      * eapply item_guar; [exact It3|exact G4|left; reflexivity].
      * rewrite (g_only G4); [exact En3|]. eapply only_var; [right; left; reflexivity|exact En3].
    + assert (B4 : build h4 head (Some t) fill) by (eapply build_guar; [exact B3|exact G4|apply incl_appr, incl_appl, incl_refl]).
      assert (NR : ~ reach h4 K t).
      { apply exclusive_apart with (K := kids head ++ kids (NList e n : datum1) ++ L4).
        - eapply consistent_perm; [|exact C4]. rewrite <- !app_assoc, (app_assoc (kids (NList e n : datum1)) (kids head) (K ++ L4)). etransitivity; [apply Permutation_app_swap_app|].
          apply Permutation_app_head. rewrite <- app_assoc. apply Permutation_app_swap_app.
        - eapply exclusive_incl; [|apply B4]. apply incl_appl, incl_refl. }
      eapply guar_trans; [exact GK|]. eapply guar_trans; [eapply guar_incl; [|exact G4]; apply incl_appr, incl_appr, incl_refl|].
      eapply upd_guar; [apply B4|auto|auto].
  - destruct B as [-> Hf]. match goal with |- run (p_then _ ?f ?st) _ _ _ _ _ _ _ _ _ => change (run (f (NList e n) st) m2 s d own rel [n; e] K es h3) end.
    eapply run_perm with (R0 := kids (NList e n : datum1)); [apply perm_swap|]. apply Last; [|exact GK].
    split; [exact En3|]. split; [eapply only_var; [right; left; reflexivity|exact En3]|].
    intros h' m' d' F Em Hd. rewrite Hf. revert h' m' d' F Em Hd. apply hole_item; [exact It3|]. intros Hr.
    assert (Lt : n < length (cells h2)); [|unfold n in Lt; lia]. eapply reach_lt; [exact C2|apply incl_refl|]. eapply frame_reach'; [|eapply reach_incl; [|exact Hr]].
    + eapply grow_frame; [exact C2|apply incl_refl].
    + intros z [<-|[]]. left. reflexivity.
Qed.
End Append.

(** ** The parser *)
Lemma regroup Y Z Q (m : M2 Y) (n : M2 Q) (k : Y -> M2 Z) st :
  bind m (fun x => bind n (fun _ => k x)) st = bind (bind m (fun x => bind n (fun _ => @ret S W2 Pos CO _ x))) k st.
Proof. unfold bind. destruct (m st) as [[y|e| |] st']; try reflexivity. destruct (n st') as [[q|e| |] st'']; reflexivity. Qed.
Lemma regroup2 Y Z (m : M2 Y) (n : Y -> M2 unit) (k : M2 Z) st :
  bind m (fun x => bind (n x) (fun _ => k)) st = bind (bind m n) (fun _ => k) st.
Proof. unfold bind. destruct (m st) as [[y|e| |] st']; try reflexivity. Qed.
Lemma fuel_run Y1 Y2 (own : Y1 -> list nat) (rel : heap1 -> Y1 -> Y2 -> Prop) s d R0 K es h :
  run (quiet (@nofuel S unit Pos CO _) (PState s d tt)) (@nofuel S W2 Pos CO _) s d own rel R0 K es h.
Proof. intros R PR. apply run_stop; [eapply incl_tail; exact PR|trivial]. Qed.

Lemma same_decr : same (@decr_depth S unit Pos CO) (@decr_depth S W2 Pos CO).
Proof. intros s d a b. unfold decr_depth. cbn. destruct (0 <? d)%N; eauto 6. Qed.

Local Notation apn f m := (ap_next umax cc so1 co1 f m).
Local Notation apd f := (ap_nested umax cc so1 co1 f).
Local Notation apa f m := (ap_all umax cc so1 co1 f m).
Local Notation bnd2 := (told kind).
Local Notation tpn f m := (unw_next umax cc so2 co2 rc_alloc bnd2 f m).
Local Notation tpd f := (unw_nested umax cc so2 co2 rc_alloc bnd2 f).
Local Notation tpa f m := (unw_all umax cc so2 co2 rc_alloc bnd2 f m).

Lemma parsers_run f :
  (forall m K s d es h, run (apn f m (PState s d tt)) (tpn f m) s d owns is_option [] K es h) /\
  (forall K s d es h, run (apd f (PState s d tt)) (tpd f) s d owns is_option [] K es h) /\
  (forall m K head tail fill s d es h, build h head tail fill ->
     run (apa f m head tail (PState s d tt)) (tpa f m) s d kids (fun h' n t => is_tree h' n (fill t)) (kids head) K es h).
Proof.
  induction f as [|f (IHn & IHd & IHa)]; [split; [|split]; intros; apply fuel_run|]. split; [|split].
  - intros m K s d es h. cbn [ap_next unw_next].
    apply plain_bind; [destruct (is_operator_mode m); [apply (same_skip _ HS)|apply same_ret]|]. intros _ s1 d1 es1 h1 _.
    apply plain_bind; [apply (same_peek HS)|]. intros o s2 d2 es2 h2 _. destruct o as [it|].
    + cbv zeta. destruct (is_nest_start cc (it_ch it)); [|destruct (is_nest_end cc (it_ch it))].
      * apply plain_bind; [apply same_incr|]. intros _ s3 d3 es3 h3 _.
        eapply run_bind; [apply run_finally; [apply same_decr|apply IHd]|]. intros o1 o2 s4 d4 es4 h4 L4 Hr4 _ _.
        destruct o1 as [n1|], o2 as [t2|]; try contradiction; [|apply IHn].
        apply run_ret; [|reflexivity]. intros h5 G5. eapply option_guar; [exact Hr4|exact G5|apply incl_appl, incl_refl].
      * apply plain_bind; [apply same_get_depth|]. intros dd s3 d3 es3 h3 _.
        apply plain_bind; [apply (same_check _ HS)|]. intros _ s4 d4 es4 h4 _. apply run_ret; [intros; exact I|reflexivity].
      * apply plain_bind; [apply (same_text _ _ HS HC)|]. intros t s3 d3 es3 h3 _. apply run_ret; [intros; constructor|reflexivity].
    + apply plain_bind; [apply same_get_depth|]. intros dd s3 d3 es3 h3 _. destruct (dd =? 0)%N.
      * apply run_ret; [intros; exact I|reflexivity].
      * apply plain_raise.
  - assert (All : forall K s d es h,
      run (p_then (apa f Base (NLeaf None) None) (fun a => p_then (p_or_unwind (Some a) (quiet (nest_end cc so1))) (fun _ => quiet (@ret S unit Pos CO _ a))) (PState s d tt))
          (bind (tpa f Base) (fun a => bind (nest_end cc so2) (fun _ => @ret S W2 Pos CO _ a))) s d kids is_tree [] K es h).
    { intros K s d es h. eapply run_bind; [apply (IHa Base K (NLeaf None) None (fun t => t)); split; reflexivity|].
      intros a t s' d' es' h' L Ht _ C. cbn beta in Ht.
      eapply run_bind; [eapply run_perm; [|apply run_unwind with (R0 := []) (o := Some a); apply plain_run, (same_nest_end _ HS)]; apply Permutation_app_comm|].
      intros [] [] s2 d2 es2 h2 L2 (_ & G2) _ _. apply run_ret; [|apply Permutation_app_comm]. intros h3 G3. cbn [owns] in *. rewrite app_nil_r in G3.
      eapply tree_guar; [exact Ht|exact (guar_trans G2 G3)|apply incl_appl, incl_refl]. }
    intros K s d es h. cbn [ap_nested unw_nested].
    apply plain_bind; [apply (same_next HS)|]. intros start s1 d1 es1 h1 _.
    apply plain_bind; [apply same_assert|]. intros _ s2 d2 es2 h2 _.
    eapply run_bind; [apply IHn|]. intros o1 o2 s4 d4 es4 h4 L4 Hr4 _ _.
    eapply run_ext; [intros st; apply regroup2|].
    eapply run_bind; [eapply run_perm; [|apply run_unwind with (R0 := []) (own := fun _ => []) (rel := fun _ y1 y2 => y1 = y2)]; [rewrite app_nil_r; reflexivity|]|].
    { apply plain_bind; [apply (same_peek HS)|]. intros o s5 d5 es5 h5 _. destruct o as [it|]; [|apply run_ret; reflexivity].
      destruct (is_whitespace cc (it_ch it)); [|apply run_ret; reflexivity].
      apply plain_bind; [apply (same_next HS)|]. intros _ s6 d6 es6 h6 _. apply run_ret; reflexivity. }
    intros [] [] s5 d5 es5 h5 L5 (_ & G5) _ _. rewrite app_nil_r.
    destruct o1 as [n1|], o2 as [t1|]; try contradiction; cbn [owns] in *.
    + assert (Ht5 : is_tree h5 n1 t1) by (eapply tree_guar; [exact Hr4|exact G5|apply incl_appl, incl_refl]). clear Hr4.
      apply run_find with (t := t1); [exact Ht5|apply incl_appl, incl_refl|]. intros h6 G6.
      assert (Ht6 : is_tree h6 n1 t1) by (eapply tree_guar; [exact Ht5|exact G6|apply incl_appl, incl_refl]). 
      assert (EB : @told T ET Pos CE kind t1 = match kind t1 with
          | Some KOperative => Some (Operative (fun d t => ask d (inl t)))
          | Some KApplicative => Some (Applicative (fun d l => ask d (inr l)))
          | None => None
          end) by reflexivity. rewrite EB. clear EB.
      destruct (kind t1) as [[|]|].
      * eapply run_ext; [intros st; apply (regroup (parse_text umax cc so2 co2 f Operands) (nest_end cc so2))|].
        eapply run_bind; [eapply run_perm; [|apply run_unwind with (R0 := []) (o := Some n1) (own := fun _ => []) (rel := fun _ y1 y2 => y1 = y2)]; [cbn [owns]; rewrite app_nil_r; reflexivity|]|].
        -- apply plain_bind; [apply (same_text _ _ HS HC)|]. intros t s7 d7 es7 h7 _. apply plain_bind; [apply (same_nest_end _ HS)|]. intros _ s8 d8 es8 h8 _. apply run_ret; reflexivity.
        -- intros t t' s7 d7 es7 h7 L7 (-> & G7) _ _. apply (@run_call n1 (inl t') t1 (inl t')); [|reflexivity]. eapply tree_guar; [exact Ht6|exact G7|apply incl_appl, incl_refl].
      * eapply run_ext; [intros st; apply (regroup (tpa f Base) (nest_end cc so2))|].
        eapply run_bind; [eapply run_perm; [|apply run_unwind with (R0 := []) (o := Some n1); apply All]; cbn [owns]; rewrite app_nil_r; reflexivity|].
        intros a t s7 d7 es7 h7 L7 (Ht & G7) _ _. cbn [owns] in G7. apply (@run_call n1 (inr a) t1 (inr t)); [|exact Ht]. eapply tree_guar; [exact Ht6|exact G7|apply incl_appl, incl_refl].
      * eapply run_ext; [intros st; apply (regroup (tpa f Base) (nest_end cc so2))|].
        eapply run_bind; [eapply run_perm; [|apply run_unwind with (R0 := []) (o := Some n1); apply All]; cbn [owns]; rewrite app_nil_r; reflexivity|].
        intros a t s7 d7 es7 h7 L7 (Ht & G7) _ _. cbn [owns] in G7 |- *.
        assert (Ht7 : is_tree h7 n1 t1) by (eapply tree_guar; [exact Ht6|exact G7|apply incl_appl, incl_refl]).
        eapply run_ext with (m2 := @ret S W2 Pos CO _ (Some (DComb t1 t))); [intros [s0 d0 w0]; reflexivity|].
        apply run_new. intros h8 L8 G8 C8. set (x := length (cells h8)).
        assert (It : item (grow h8 (Cell 1 0 (Some n1))) x t1).
        { eapply item_new; [|exact C8|apply incl_appl, incl_appl, incl_refl]. eapply tree_guar; [exact Ht7|exact G8|apply incl_appl, incl_refl]. }
        assert (Ha : is_tree (grow h8 (Cell 1 0 (Some n1))) a t).
        { assert (is_tree h8 a t) as Ha8 by (eapply tree_guar; [exact Ht|exact G8|apply incl_appr, incl_appl, incl_refl]).
          eapply tree_guar; [exact Ha8|eapply grow_guar; [exact C8|apply incl_refl]|apply incl_appl, incl_appr, incl_appl, incl_refl]. }
        eapply run_perm with (R0 := kids a ++ [x]); [symmetry; apply Permutation_cons_append|]. apply run_new. intros h9 L9 G9 C9. set (y := length (cells h9)).
        apply run_ret; [|apply perm_swap]. intros h10 G10.
        assert (It9 : item h9 x t1) by (eapply item_guar; [exact It|exact G9|apply in_or_app; right; left; reflexivity]).
        assert (Itx : item h10 x t1).
        { eapply item_guar; [|exact G10|right; left; reflexivity]. eapply item_guar; [exact It9|eapply grow_guar; [exact C9|apply incl_refl]|].
          apply in_or_app; left. apply in_or_app. right. left. reflexivity. }
        assert (Ity : item h10 y t).
        { eapply item_guar; [|exact G10|left; reflexivity]. eapply item_new; [|exact C9|apply incl_appl, incl_appl, incl_refl].
          eapply tree_guar; [exact Ha|exact G9|apply incl_appl, incl_refl]. }
        destruct Itx as (nx & Ex & Tx), Ity as (ny & Ey & Ty). cbn. econstructor; eassumption.
    + apply plain_bind; [apply (same_nest_end _ HS)|]. intros _ s7 d7 es7 h7 _. apply run_ret; [intros; constructor|reflexivity].
  - intros m K head tail fill s d es h B. cbn [ap_all unw_all].
    eapply run_bind; [eapply run_perm; [|apply run_unwind with (R0 := []) (o := Some head); apply IHn]; cbn [owns]; rewrite app_nil_r; reflexivity|].
    intros o1 o2 s1 d1 es1 h1 L1 (Ho & G1) _ _. cbn [owns] in G1 |- *.
    assert (B1 : build h1 head tail fill) by (eapply build_guar; [exact B|exact G1|apply incl_appl, incl_refl]).
    destruct o1 as [n1|], o2 as [t1|]; try contradiction; cbn [owns] in *.
    + eapply run_ext with (m2 := bind (tpa f m) (fun rest => @ret S W2 Pos CO _ (DList t1 rest))); [intros [s0 d0 w0]; reflexivity|].
      eapply run_append with (k1 := fun head' x => apa f m head' (Some x)); [exact B1|exact Ho|]. intros head' x h2 B2 G2.
      eapply run_map with (g := fun rest => DList t1 rest). eapply run_mono; [reflexivity| |apply IHa; exact B2]. auto.
    + apply run_ret; [|rewrite app_nil_r; reflexivity]. intros h2 G2. rewrite app_nil_r in G2. eapply tree_guar; [eapply build_read; exact B1|exact G2|apply incl_appl, incl_refl].
Qed.
End Sim.
