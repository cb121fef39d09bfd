(** The parser over a source that panics in between: where it is when that happens. *)
From Coq Require Import List Arith NArith Bool Lia.
From Verif.Model Require Import Prelude Parser Iter.
From Verif.Spec Require Import Grammar AbsStream Interrupt.
From Verif.Proofs Require Import Wp GrammarFacts AbsParse Depth.
Import ListNotations.
Set Implicit Arguments.

Section CutParse.
Context {W ET Pos CE : Type}.
Local Notation source := (list (item Pos)).
Local Notation text := (list (item Pos)).
Local Notation events := (list (option (item Pos))).
Context (umax : N) (cc : classifier) (bnd : bindings W text ET Pos CE).
Context (DC : disjoint_classes cc).
Local Notation forms := (forms cc bnd).
Local Notation nest := (nest cc bnd).
Local Notation lead := (lead cc bnd).
Local Notation head := (head cc bnd).
Local Notation raw := (@raw Pos cc).
Local Notation quoted := (@quoted Pos cc).

(** As [abs_stream]: what is to come and what is accumulated. *)
Definition ev_state : Type := (events * text)%type.
Definition ev_stream : stream_ops ev_state W text Pos := {|
  s_peek := fun s => (answer (fst s), (match fst s with None :: r => r | _ => fst s end, snd s));
  s_next := fun s => (answer (fst s), (tl (fst s), []));
  s_next_accum := fun s w => (answer (fst s), ((tl (fst s), snd s ++ values (firstn 1 (fst s))), w));
  s_accum_done := fun s w => (Ok (snd s), ((fst s, []), w)) |}.

Local Notation so := ev_stream.
Local Notation co := (@abs_concat W Pos).
Local Notation ao := (@abs_alloc W ET Pos).
Local Notation st := (pstate ev_state W).

Definition est (r : events) (p : text) (d : N) (w : W) : st := PState (r, p) d w.

Definition after_peek (r : events) : events := match r with None :: r' => r' | _ => r end.
Lemma wpe_peek r p d w (Q : _ -> _ -> Prop) :
  Q (answer r) (est (after_peek r) p d w) -> wp (CE:=CE) (peek so) Q (est r p d w).
Proof. unfold wp, peek, est. cbn. destruct r as [|[x|] r]; exact (fun h => h). Qed.
Lemma wpe_next r p d w (Q : _ -> _ -> Prop) :
  Q (answer r) (est (tl r) [] d w) -> wp (CE:=CE) (next so) Q (est r p d w).
Proof. unfold wp, next, est. cbn. destruct r as [|[x|] r]; exact (fun h => h). Qed.
Lemma wpe_next_accum r p d w (Q : _ -> _ -> Prop) :
  Q (answer r) (est (tl r) (p ++ values (firstn 1 r)) d w) ->
  wp (CE:=CE) (next_accum so) Q (est r p d w).
Proof. unfold wp, next_accum, est. cbn. destruct r as [|[x|] r]; exact (fun h => h). Qed.
Lemma wpe_concat_accum t r p d w (Q : _ -> _ -> Prop) :
  Q (Ok (t ++ p)) (est r [] d w) ->
  wp (CE:=CE) (concat_accum so co t) Q (est r p d w).
Proof. exact (fun h => h). Qed.
Lemma wpe_done t r p d w (Q : _ -> _ -> Prop) :
  Q (Ok (t ++ p)) (est r [] d w) ->
  wp (CE:=CE) (parse_text_done so co t 0) Q (est r p d w).
Proof. exact (fun h => h). Qed.
Lemma wpe_new_datum x r p d w (Q : _ -> _ -> Prop) :
  Q (Ok x) (est r p d w) -> wp (Pos:=Pos) (CE:=CE) (new_datum ao x) Q (est r p d w).
Proof. exact (fun h => h). Qed.
Lemma wpe_call X (f : W -> (X + error Pos CE) * W) r p d w (Q : _ -> _ -> Prop) o w' :
  f w = (o, w') ->
  Q (match o with inl x => Ok x | inr e => Err e end) (est r p d w') ->
  wp (call f) Q (est r p d w).
Proof. intros E H. unfold wp, call. cbn. rewrite E. exact H. Qed.

Local Notation stop_of := (stop_of cc).

(** The next character ends a text. *)
Definition stops (m : mode) (d : N) (r : events) : Prop :=
  match r with
  | Some x :: _ => stop_of m (it_ch x) = true /\ (m = Base -> ends cc x -> (0 < d)%N)
  | _ => False
  end.

Lemma text_loop_cut : forall fuel m t0 r p d w, m <> Operands ->
  wp (CE:=CE) (parse_text_loop umax cc so co fuel m t0 0) (fun res s' =>
    match res with
    | Ok t => exists u r', s' = est r' [] d w /\
        (r' = [] \/ exists c, r = map Some u ++ r' /\ t = t0 ++ p ++ c /\ raw (stop_of m) u c /\ stops m d r')
    | Panic => exists u rest p', r = map Some u ++ None :: rest /\ s' = est rest p' d w /\ cut_text cc (stop_of m) p u p'
    | _ => True
    end) (est r p d w).
Proof.
  induction fuel as [|fuel IH]; intros m t0 r p d w Hm; [exact I|].
  cbn [parse_text_loop]. apply wp_bind, wpe_peek. destruct r as [|[x|] r]; cbn [answer after_peek].
  { apply wpe_done. exists [], []. auto. }
  2:{ exists [], r, p. repeat split; auto. constructor. }
  cbv zeta. change (0 =? 0)%N with true. cbn [andb].
  destruct (is_end_char cc (it_ch x) m) eqn:E1.
  { apply wpe_done.
    exists [], (Some x :: r). split; auto. right. exists []. rewrite app_nil_r. repeat split; auto.
    - constructor.
    - destruct m; cbn in *; [| |congruence].
      + unfold delimiter. rewrite E1. reflexivity.
      + unfold operator_delimiter, delimiter. rewrite orb_assoc. exact E1.
    - intros -> He. cbn in E1. unfold ends in He. destruct (dc_start DC _ E1). congruence. }
  destruct (is_nest_escape cc (it_ch x)) eqn:E2.
  { apply wp_bind, wpe_concat_accum. apply wp_bind, wpe_next.
    cbn [answer tl]. apply wp_bind, wpe_next_accum.
    destruct r as [|[y|] r]; cbn [answer tl firstn values app].
    3:{ exists [x], r, []. repeat split; auto. apply ct_escape. exact E2. }
    - eapply wp_mono; [apply IH; exact Hm|]. intros [t|e| |] s'; auto.
      + intros (u & r' & -> & H). exists [], r'. split; auto. left. destruct H as [H|(c & H & _)]; auto. symmetry in H. apply app_eq_nil in H. apply H.
      + intros (u & rest & p' & H & _). destruct u; discriminate.
    - eapply wp_mono; [apply IH; exact Hm|]. intros [t|e| |] s'; auto.
      + intros (u & r' & -> & H). exists (x :: y :: u), r'. split; auto. destruct H as [H|(c & -> & -> & Hc & Hs)]; auto.
        right. exists (y :: c). rewrite <- !app_assoc. repeat split; auto. apply raw_escaped; auto.
      + intros (u & rest & p' & -> & -> & H). exists (x :: y :: u), rest, p'. repeat split; auto. apply ct_escaped; auto. }
  destruct (is_nest_start cc (it_ch x)) eqn:E3.
  { exfalso. destruct m; cbn in E1; [congruence| |congruence].
    rewrite E3, orb_true_r in E1. discriminate. }
  destruct (is_nest_end cc (it_ch x)) eqn:E4.
  { destruct m; cbn in E1; [| |congruence].
    2:{ rewrite E4, orb_true_r in E1. discriminate. }
    cbn. apply wp_bind, wp_get_depth. unfold check_end_char. apply wp_bind, wp_bind, wpe_peek.
    cbn [answer after_peek]. apply wp_bind, wp_assert; [exact E4|]. cbn [est ps_depth].
    destruct (0 <? d)%N eqn:Hd.
    - apply wp_ret. apply wpe_done.
      exists [], (Some x :: r). split; auto. right. exists []. rewrite app_nil_r. repeat split; auto. { constructor. }
      + cbn. unfold delimiter. rewrite E3, E4. reflexivity.
      + intros. now apply N.ltb_lt.
    - apply wp_bind, wpe_next. cbn [answer]. apply wp_raise. exact I. }
  apply wp_bind, wpe_next_accum. cbn [tl firstn answer values].
  eapply wp_mono; [apply IH; exact Hm|].
  assert (SX : stop_of m (it_ch x) = false).
  { destruct m; cbn in *; [| |congruence].
    - unfold delimiter. rewrite E3, E4. reflexivity.
    - unfold operator_delimiter, delimiter. rewrite E3, E4. rewrite E3, E4, !orb_false_r in E1.
      rewrite E1. reflexivity. }
  assert (NX : ~ escapes cc x) by (unfold escapes; congruence).
  intros [t|e| |] s'; auto.
  - intros (u & r' & -> & H). exists (x :: u), r'. split; auto. destruct H as [H|(c & -> & -> & Hc & Hs)]; auto.
    right. exists (x :: c). rewrite <- !app_assoc. repeat split; auto. apply raw_plain; auto.
  - intros (u & rest & p' & -> & -> & H). exists (x :: u), rest, p'. repeat split; auto. apply ct_plain; auto.
Qed.

Lemma operands_loop_cut : forall fuel t0 nl r p d w, (N.of_nat nl + N.of_nat (length r) <= umax)%N ->
  wp (CE:=CE) (parse_text_loop umax cc so co fuel Operands t0 (N.of_nat nl)) (fun res s' =>
    match res with
    | Ok t => exists u r', s' = est r' [] d w /\
        (r' = [] \/ exists c, r = map Some u ++ r' /\ t = t0 ++ p ++ c /\ qn cc nl u c /\ exists x r'', r' = Some x :: r'' /\ ends cc x)
    | Panic => exists u rest p', r = map Some u ++ None :: rest /\ s' = est rest p' d w /\ cut_operands cc nl p u p'
    | _ => True
    end) (est r p d w).
Proof.
  induction fuel as [|fuel IH]; intros t0 nl r p d w HU; [exact I|].
  cbn [parse_text_loop]. apply wp_bind, wpe_peek. destruct r as [|[x|] r]; cbn [answer after_peek].
  { unfold parse_text_done. destruct (N.of_nat nl =? 0)%N eqn:Z; [|exact I].
    apply wpe_concat_accum. exists [], []. auto. }
  2:{ exists [], r, p. repeat split; auto. constructor. }
  cbv zeta.
  (* extending the consumed part *)
  assert (EXT : forall nl' v c0 r1 t1 p1 dn,
    Some x :: r = map Some v ++ r1 -> v <> [] -> nl' <= nl + length v ->
    (forall u c, qn cc nl' u c -> qn cc nl (v ++ u) (c0 ++ c)) ->
    (forall u p', cut_operands cc nl' p1 u p' -> cut_operands cc nl p (v ++ u) p') ->
    t1 ++ p1 = t0 ++ p ++ c0 -> dn = N.of_nat nl' ->
    wp (CE:=CE) (parse_text_loop umax cc so co fuel Operands t1 dn) (fun res s' =>
    match res with
    | Ok t => exists u r', s' = est r' [] d w /\
        (r' = [] \/ exists c, Some x :: r = map Some u ++ r' /\ t = t0 ++ p ++ c /\ qn cc nl u c /\ exists x r'', r' = Some x :: r'' /\ ends cc x)
    | Panic => exists u rest p', Some x :: r = map Some u ++ None :: rest /\ s' = est rest p' d w /\ cut_operands cc nl p u p'
    | _ => True
    end) (est r1 p1 d w)).
  { intros nl' v c0 r1 t1 p1 dn Hv Hne Hnl Hq Hc Ht ->.
    assert (LEN : (N.of_nat nl' + N.of_nat (length r1) <= umax)%N).
    { apply (f_equal (@length _)) in Hv. rewrite app_length, map_length in Hv. cbn [length] in *. lia. }
    eapply wp_mono; [apply IH; exact LEN|]. rewrite Hv.
    intros [t|e| |] s'; auto.
    - intros (u & r' & -> & H). exists (v ++ u), r'. split; auto. destruct H as [H|(c & -> & -> & HQ & HX)]; auto. right.
      exists (c0 ++ c). rewrite map_app, <- !app_assoc. repeat split; auto. rewrite !app_assoc in *. rewrite Ht. reflexivity.
    - intros (u & rest & p' & -> & -> & H). exists (v ++ u), rest, p'. rewrite map_app, <- app_assoc. auto. }
  destruct ((N.of_nat nl =? 0)%N && is_end_char cc (it_ch x) Operands) eqn:E1.
  { apply andb_true_iff in E1. destruct E1 as [Z E1]. cbn in E1.
    unfold parse_text_done. rewrite Z. apply N.eqb_eq in Z. apply wpe_concat_accum.
    exists [], (Some x :: r). split; auto. right. exists []. rewrite app_nil_r. repeat split; auto.
    - assert (nl = 0) as -> by lia. constructor.
    - eauto. }
  destruct (is_nest_escape cc (it_ch x)) eqn:E2.
  { apply wp_bind, wpe_concat_accum. apply wp_bind, wpe_next. cbn [answer tl].
    apply wp_bind, wpe_next_accum.
    destruct r as [|[y|] r]; cbn [answer tl firstn values app].
    3:{ exists [x], r, []. repeat split; auto. apply co_escape. exact E2. }
    - eapply wp_mono; [apply IH; cbn in *; lia|]. intros [t|e| |] s'; auto.
      + intros (u & r' & -> & H). exists [], r'. split; auto. left. destruct H as [H|(c & H & _)]; auto. symmetry in H. apply app_eq_nil in H. apply H.
      + intros (u & rest & p' & H & _). destruct u; discriminate.
    - eapply (EXT nl [x; y] [y]); auto; try discriminate; try (cbn [length]; lia).
      + intros u c Hu. cbn. apply qn_escaped; auto.
      + intros u p' Hu. cbn. apply co_escaped; auto.
      + rewrite app_assoc. reflexivity. }
  assert (NX : ~ escapes cc x) by (unfold escapes; congruence).
  destruct (is_nest_start cc (it_ch x)) eqn:E3.
  { apply wp_bind, wpe_next_accum. cbn [tl firstn answer values].
    replace (N.of_nat nl <? umax)%N with true by (symmetry; apply N.ltb_lt; cbn in HU; lia).
    eapply (EXT (S nl) [x] [x]); auto; try discriminate; try (cbn [length]; lia).
    - intros u c Hu. apply qn_start; auto.
    - intros u p' Hu. cbn. apply co_start; auto. }
  destruct (is_nest_end cc (it_ch x)) eqn:E4.
  { destruct (0 <? N.of_nat nl)%N eqn:Z.
    - apply N.ltb_lt in Z. destruct nl as [|nl]; [lia|].
      apply wp_bind, wpe_next_accum. cbn [tl firstn answer values].
      eapply (EXT nl [x] [x]); auto; try discriminate; try (cbn [length]; lia).
      + intros u c Hu. apply qn_end; auto.
      + intros u p' Hu. cbn. apply co_end; auto.
    - apply N.ltb_ge in Z. exfalso. assert (nl = 0) as -> by lia. cbn in E1. congruence. }
  apply wp_bind, wpe_next_accum. cbn [tl firstn answer values].
  assert (DX : delimiter cc (it_ch x) = false) by (unfold delimiter; rewrite E3, E4; reflexivity).
  eapply (EXT nl [x] [x]); auto; try discriminate; try (cbn [length]; lia).
  - intros u c Hu. apply qn_plain; auto.
  - intros u p' Hu. cbn. apply co_plain; auto.
Qed.

Lemma skip_whitespace_cut fuel : forall r d w,
  wp (CE:=CE) (skip_whitespace cc so fuel) (fun res s' =>
    match res with
    | Ok _ => exists u r', s' = est r' [] d w /\ r = map Some u ++ r' /\
       (forall w1 v w2, lead w1 v w2 -> lead w1 (u ++ v) w2) /\
       match r' with [] => True | Some x :: _ => ~ white cc x | None :: _ => False end
    | Panic => exists u rest, r = map Some u ++ None :: rest /\ s' = est rest [] d w /\ lead w u w
    | _ => True
    end) (est r [] d w).
Proof.
  induction fuel as [|fuel IH]; intros r d w; [exact I|].
  cbn [skip_whitespace]. apply wp_bind, wpe_peek. destruct r as [|[x|] r]; cbn [answer after_peek].
  { apply wp_ret. exists [], []. repeat split; auto. }
  2:{ exists [], r. repeat split; auto. constructor. }
  destruct (is_whitespace cc (it_ch x)) eqn:E.
  - apply wp_bind, wpe_next. cbn [tl answer]. eapply wp_mono; [apply IH|].
    intros [t|e| |] s'; auto.
    + intros (u & r' & -> & -> & Hu & Hr). exists (x :: u), r'. repeat split; auto. intros. cbn. apply l_white; auto.
    + intros (u & rest & -> & -> & Hu). exists (x :: u), rest. repeat split; auto. apply l_white; auto.
  - apply wp_ret. exists [], (Some x :: r). repeat split; auto. unfold white. congruence.
Qed.

Definition begun (m : mode) (w : W) (u : source) (w' : W) : Prop :=
  match m with Operator => lead w u w' | _ => forms false false w u [] w' false end.
Definition cut_next (m : mode) (p0 : text) (n : nat) (w : W) (s : source) (w' : W) (p : text) : Prop :=
  exists u v w1, s = u ++ v /\ begun m w u w1 /\
    ((n = 0 /\ w' = w1 /\ cut_text cc (stop_of m) (match u with [] => p0 | _ => [] end) v p) \/
     cut_nest cc bnd n w1 v w' p).
Definition cut_all (n : nat) (w : W) (s : source) (w' : W) (p : text) : Prop :=
  exists v u w1 ds b, s = v ++ u /\ forms false false w v ds w1 b /\
    ((n = 0 /\ b = false /\ w' = w1 /\ cut_text cc (delimiter cc) [] u p) \/ cut_nest cc bnd n w1 u w' p).

Definition panicked (d : N) (r : events) (G : nat -> source -> W -> text -> Prop) (s' : st) : Prop :=
  exists u rest n w' p, r = map Some u ++ None :: rest /\ s' = est rest p (d + N.of_nat n) w' /\ G n u w' p.

Definition next_ok (m : mode) (d : N) (r : events) (w : W) (o : option (datum text ET)) (s' : st) : Prop :=
  exists u r' w', s' = est r' [] d w' /\
    (r' = [] \/
     (r = map Some u ++ r' /\
      match o with
      | Some x => match m with
                  | Operator => exists l h w1 tx, u = l ++ h /\ lead w l w1 /\ head w1 h x tx w' /\ (tx = true -> stops Operator d r')
                  | _ => exists b, forms false false w u [x] w' b /\ (b = true -> stops Base d r')
                  end
      | None => (0 < d)%N /\ (exists y r'', r' = Some y :: r'' /\ ends cc y) /\ begun m w u w'
      end)).

Definition next_post (m : mode) (p0 : text) (d : N) (r : events) (w : W)
  (res : Prelude.res (error Pos CE) (option (datum text ET))) (s' : st) : Prop :=
  match res with
  | Ok o => p0 = [] -> next_ok m d r w o s'
  | Panic => panicked d r (fun n u w' p => cut_next m p0 n w u w' p) s'
  | _ => True
  end.
Definition nested_post (d : N) (r : events) (w : W)
  (res : Prelude.res (error Pos CE) (option (datum text ET))) (s' : st) : Prop :=
  match res with
  | Ok o => exists u r' w', s' = est r' [] d w' /\ (r' = [] \/ (r = map Some u ++ r' /\ nest w u (inl o) w'))
  | Panic => panicked d r (fun n u w' p => cut_nest cc bnd (S n) w u w' p) s'
  | _ => True
  end.
Definition all_post (d : N) (r : events) (w : W)
  (res : Prelude.res (error Pos CE) (datum text ET)) (s' : st) : Prop :=
  match res with
  | Ok x => exists u r' w' ds b, s' = est r' [] d w' /\
      (r' = [] \/ (r = map Some u ++ r' /\ forms false false w u ds w' b /\ x = dlist ds /\
                   exists y r'', r' = Some y :: r'' /\ ends cc y))
  | Panic => panicked d r (fun n u w' p => cut_all n w u w' p) s'
  | _ => True
  end.

Lemma panicked_nil d G s' : ~ panicked d [] G s'.
Proof. intros (u & rest & n & w' & p & H & _). destruct u; discriminate. Qed.
Lemma panicked_app d v r (G G' : nat -> source -> W -> text -> Prop) s' :
  panicked d r G s' -> (forall n u w' p, G n u w' p -> G' n (v ++ u) w' p) -> panicked d (map Some v ++ r) G' s'.
Proof.
  intros (u & rest & n & w' & p & -> & -> & H) HG. exists (v ++ u), rest, n, w', p.
  rewrite map_app, <- app_assoc. auto.
Qed.
Lemma next_ok_nil m d w o s' : next_ok m d [] w o s' -> exists w', s' = est [] [] d w'.
Proof.
  intros (u & r' & w' & -> & [->|(E & _)]); eauto. symmetry in E. apply app_eq_nil in E. destruct E as [_ ->]. eauto.
Qed.
Lemma bound_suffix d u (r r' : events) : r = map Some u ++ r' ->
  (d + N.of_nat (length r) <= umax)%N -> (d + N.of_nat (length r') <= umax)%N.
Proof. intros -> H. rewrite app_length in H. lia. Qed.

Lemma begun_nil m w : begun m w [] w.
Proof. destruct m; constructor. Qed.
Lemma begun_removed m w s w1 u w' : nest w s (inl None) w1 -> begun m w1 u w' -> begun m w (s ++ u) w'.
Proof. destruct m; cbn; intros; [eapply f_removed|eapply l_removed|eapply f_removed]; eauto. Qed.

Lemma cut_text_hd (p u p' : text) : cut_text cc (delimiter cc) p u p' -> match u with [] => True | y :: _ => ~ ends cc y end.
Proof.
  destruct 1 as [|? ? ? ? H|? ? H|? ? ? ? ? H]; auto; intros He; unfold ends, escapes in *.
  - unfold delimiter in H. rewrite He, orb_true_r in H. discriminate.
  - destruct (dc_end DC _ He). congruence.
  - destruct (dc_end DC _ He). congruence.
Qed.
Lemma cut_operands_hd (p u p' : text) : cut_operands cc 0 p u p' -> match u with [] => True | y :: _ => ~ ends cc y end.
Proof.
  remember 0 as n eqn:E.
  destruct 1 as [|? ? ? ? ? H|? ? ? H|? ? ? ? ? ? H|? ? ? ? ? H|]; auto; try discriminate; intros He; unfold ends, escapes, starts in *.
  - unfold delimiter in H. rewrite He, orb_true_r in H. discriminate.
  - destruct (dc_end DC _ He). congruence.
  - destruct (dc_end DC _ He). congruence.
  - destruct (dc_start DC _ H). congruence.
Qed.
Lemma cut_nest_hd n w u w' p : cut_nest cc bnd n w u w' p -> match u with [] => True | y :: _ => ~ ends cc y end.
Proof.
  assert (J : forall y : item Pos, starts cc y -> ~ ends cc y).
  { intros y H He. unfold ends, starts in *. destruct (dc_start DC _ H). congruence. }
  destruct 1; auto.
Qed.

Lemma parser_cut : forall fuel,
  (forall m r p0 d w, m <> Operands -> (m = Operator -> (0 < d)%N /\ p0 = []) -> (d + N.of_nat (length r) <= umax)%N ->
     wp (parse_next umax cc so co ao bnd fuel m) (next_post m p0 d r w) (est r p0 d w)) /\
  (forall x r p d w, (0 < d)%N -> (d + N.of_nat (length r) <= umax)%N -> starts cc x ->
     wp (parse_nested umax cc so co ao bnd fuel) (nested_post d (Some x :: r) w) (est (Some x :: r) p d w)) /\
  (forall r d w, (0 < d)%N -> (d + N.of_nat (length r) <= umax)%N ->
     wp (parse_all umax cc so co ao bnd fuel Base) (all_post d r w) (est r [] d w)).
Proof.
  induction fuel as [|fuel (IHn & IHd & IHa)].
  { repeat split; intros; exact I. }
  split; [|split].
  - (* parse_next *)
    intros m r p0 d w Hm Hd HU. cbn [parse_next]. cbv zeta. apply wp_bind.
    assert (SKIP : wp (CE:=CE) (if is_operator_mode m then skip_whitespace cc so fuel else ret tt)
       (fun res s' => match res with
          | Ok _ => exists u r', s' = est r' p0 d w /\ r = map Some u ++ r' /\
             (m = Operator -> match r' with Some x :: _ => ~ white cc x | _ => True end) /\
             match m with
             | Operator => forall w1 v w2, lead w1 v w2 -> lead w1 (u ++ v) w2
             | _ => u = [] end
          | Panic => m = Operator /\ exists u rest, r = map Some u ++ None :: rest /\ s' = est rest [] d w /\ lead w u w
          | _ => True end) (est r p0 d w)).
    { destruct m; cbn [is_operator_mode]; [| |congruence].
      - apply wp_ret. exists [], r. repeat split; auto. discriminate.
      - destruct (Hd eq_refl) as [_ ->]. eapply wp_mono; [apply skip_whitespace_cut|].
        intros [t|e| |] s'; auto.
        intros (u & r' & -> & -> & Hu & Hr). exists u, r'. repeat split; auto. destruct r' as [|[x|] r']; auto. }
    eapply wp_mono; [exact SKIP|]. clear SKIP.
    intros [[]|e| |] s' HS; try exact I.
    2:{ destruct HS as (-> & u & rest & -> & -> & Hu). exists u, rest, 0, w, []. rewrite N.add_0_r. repeat split; auto.
        exists u, [], w. rewrite app_nil_r. repeat split; auto. left. repeat split; auto.
        destruct (Hd eq_refl) as [_ ->]. destruct u; constructor. }
    destruct HS as (u0 & r0 & -> & E0 & Hw & Hu0).
    assert (B0 : forall u w1 w2, begun m w1 u w2 -> begun m w1 (u0 ++ u) w2).
    { destruct m; cbn; [subst u0; auto|auto|congruence]. }
    assert (B00 : begun m w u0 w). { rewrite <- (app_nil_r u0). apply B0, begun_nil. }
    assert (P0 : match u0 with [] => p0 | _ => [] end = p0).
    { destruct m; [subst u0; auto| |congruence]. destruct (Hd eq_refl) as [_ ->]. destruct u0; auto. }
    pose proof (@bound_suffix _ _ _ _ E0 HU) as HU0. subst r.
    apply wp_bind, wpe_peek. destruct r0 as [|[x|] r0]; cbn [answer after_peek].
    { apply wp_bind, wp_get_depth. cbn [est ps_depth]. destruct (d =? 0)%N; [|exact I].
      apply wp_ret. intros ->. exists u0, [], w. auto. }
    2:{ exists u0, r0, 0, w, p0. rewrite N.add_0_r. repeat split; auto.
        exists u0, [], w. rewrite app_nil_r. repeat split; auto. left. repeat split; auto.
        rewrite P0. constructor. }
    destruct (is_nest_start cc (it_ch x)) eqn:E1.
    { (* a nest *)
      apply wp_bind. apply wp_incr_depth; [cbn [est ps_depth]; cbn [length] in HU0; lia|].
      change (wp (bind (finally (parse_nested umax cc so co ao bnd fuel) decr_depth)
        (fun r => match r with Some d0 => ret (Some d0)
                  | None => parse_next umax cc so co ao bnd fuel m end))
        (next_post m p0 d (map Some u0 ++ Some x :: r0) w) (est (Some x :: r0) p0 (d + 1) w)).
      apply wp_bind, wp_finally.
      assert (KD : wp (parse_nested umax cc so co ao bnd fuel) (fun res s' => nested_post (d + 1) (Some x :: r0) w res s' /\
         match res with Err _ => ps_depth s' = (d + 1)%N | _ => True end) (est (Some x :: r0) p0 (d + 1) w)).
      { split; [apply IHd; [lia|cbn [length] in HU0; lia|exact E1]|].
        pose proof (proj1 (proj2 (kd_parse umax cc so co ao bnd fuel)) (est (Some x :: r0) p0 (d + 1) w)) as K.
        destruct (parse_nested umax cc so co ao bnd fuel (est (Some x :: r0) p0 (d + 1) w)) as [[o|e| |] s']; cbn [fst snd est ps_depth] in *; auto. }
      eapply wp_mono; [exact KD|]. clear KD.
      assert (DEC : forall r1 p1 w1 (Q : res (error Pos CE) unit -> st -> Prop),
        Q (Ok tt) (est r1 p1 d w1) -> wp decr_depth Q (est r1 p1 (d + 1) w1)).
      { intros r1 p1 w1 Q HQ. unfold wp, decr_depth. cbn [est ps_depth].
        replace (0 <? d + 1)%N with true by (symmetry; apply N.ltb_lt; lia). cbn.
        replace (d + 1 - 1)%N with d by lia. exact HQ. }
      intros [o|e| |] s' [HN KD]; auto.
      2:{ destruct s' as [[r1 p1] d1 w1]. cbn in KD. subst d1. apply DEC. exact I. }
      2:{ destruct HN as (u & rest & n & w' & p & Eu & -> & HC). exists (u0 ++ u), rest, (S n), w', p.
        rewrite Eu, map_app, <- app_assoc. repeat split; auto; [f_equal; lia|].
        exists u0, u, w. auto. }
      { clear KD. destruct HN as (u & r' & w' & -> & Hn). apply DEC.
        destruct o as [dat|].
        + apply wp_ret. intros ->. exists (u0 ++ u), r', w'. split; auto.
          destruct Hn as [->|(Eu & Hn)]; auto. right. rewrite Eu, map_app, <- app_assoc. split; auto.
          destruct m; [| |congruence].
          * subst u0. exists false. split; [|discriminate]. cbn. rewrite <- (app_nil_r u). eapply f_nest; eauto. constructor.
          * exists u0, u, w, false. repeat split; [exact B00|apply h_nest; auto|discriminate].
        + assert (HU1 : (d + N.of_nat (length r') <= umax)%N).
          { destruct Hn as [->|(Eu & _)]; [cbn; lia|]. exact (@bound_suffix _ _ _ _ Eu HU0). }
          eapply wp_mono; [apply IHn; auto; intros M; split; auto; apply (Hd M)|].
          intros [o|e| |] s'; auto.
          * intros HO _. specialize (HO eq_refl). destruct Hn as [->|(Eu & Hn)].
            { destruct (next_ok_nil HO) as (w2 & ->). exists [], [], w2. auto. }
            destruct HO as (v & r2 & w2 & -> & HO). exists (u0 ++ u ++ v), r2, w2. split; auto.
            destruct HO as [->|(-> & HO)]; auto. right. rewrite Eu, !map_app, <- !app_assoc. split; auto.
            destruct o as [y|].
            -- destruct m; [| |congruence].
               ++ subst u0. destruct HO as (b & HF & HB). exists b. split; auto. cbn. eapply f_removed; eauto.
               ++ destruct HO as (l & h & w1 & tx & -> & Hl & Hh & Htx). exists (u0 ++ u ++ l), h, w1, tx.
                  rewrite <- !app_assoc. repeat split; auto. apply Hu0. eapply l_removed; eauto.
            -- destruct HO as (H1 & H2 & H3). repeat split; auto. apply B0. eapply begun_removed; eauto.
          * destruct Hn as [->|(Eu & Hn)]; [intros H; destruct (panicked_nil H)|]. rewrite Eu, app_assoc, <- map_app. intros H.
            eapply panicked_app; [exact H|]. intros n v w2 p (u1 & v1 & w3 & -> & HB & HC).
            exists (u0 ++ u ++ u1), v1, w3. rewrite <- !app_assoc. split; auto. split; [apply B0; eapply begun_removed; eauto|].
            destruct (nest_cons Hn) as (z & u' & -> & _).
            replace (match u0 ++ (z :: u') ++ u1 with [] => p0 | _ => [] end) with ([] : text) by (destruct u0; reflexivity).
            destruct u1; exact HC.
      } }
    destruct (is_nest_end cc (it_ch x)) eqn:E2.
    { apply wp_bind, wp_get_depth. cbn [est ps_depth]. unfold check_end_char.
      apply wp_bind, wp_bind, wpe_peek. cbn [answer after_peek]. apply wp_bind, wp_assert; [exact E2|].
      destruct (0 <? d)%N eqn:Z.
      - apply N.ltb_lt in Z. apply wp_ret, wp_ret. intros ->. exists u0, (Some x :: r0), w.
        split; auto. right. repeat split; auto. eauto.
      - apply wp_bind, wpe_next. cbn [answer tl]. apply wp_raise. exact I. }
    (* a text *)
    apply wp_bind. unfold parse_text.
    eapply wp_mono; [apply text_loop_cut; exact Hm|].
    intros [t|e| |] s'; auto.
    + intros (u & r' & -> & HT). apply wp_ret. intros ->. exists (u0 ++ u), r', w. split; auto.
      destruct HT as [->|(c & Eu & -> & HR & HS)]; auto. right. cbn [app].
      assert (NE : u <> []).
      { intros ->. cbn in Eu. subst r'. cbn in HS. destruct HS as [HT _].
        unfold AbsParse.stop_of, operator_delimiter, delimiter in HT.
        destruct m; rewrite E1, E2 in HT; cbn in HT; try discriminate.
        rewrite !orb_false_r in HT. apply (Hw eq_refl). exact HT. }
      rewrite Eu, map_app, <- app_assoc. split; auto.
      destruct m; [| |congruence].
      * subst u0. cbn. exists true. split; auto. rewrite <- (app_nil_r u). eapply f_text; eauto. constructor.
      * exists u0, u, w, true. repeat split; auto. apply h_text; auto.
    + intros (u & rest & p' & Eu & -> & HC). exists (u0 ++ u), rest, 0, w, p'. rewrite N.add_0_r, Eu, map_app, <- app_assoc.
      repeat split; auto. exists u0, u, w. rewrite P0. repeat split; auto.
  - (* parse_nested *)
    intros x r p d w Hd HU Hx. cbn [parse_nested]. apply wp_bind, wpe_next. cbn [answer tl].
    apply wp_bind, wp_assert; [exact Hx|]. apply wp_bind.
    eapply wp_mono; [apply IHn; [discriminate|auto|exact HU]|].
    intros [op|e| |] s'; auto.
    2:{ intros H. change (Some x :: r) with (map Some [x] ++ r). eapply panicked_app; [exact H|]. clear H.
        intros n u w' p' (l & v & w1 & -> & Hl & [(-> & -> & HC)|HC]); cbn.
        - apply cn_operator; [exact Hx|exact Hl|destruct l; exact HC].
        - eapply cn_operator_nest; eauto. }
    intros HO. specialize (HO eq_refl).
    assert (CASES : (exists w2, s' = est [] [] d w2) \/ exists u r2 w2, r2 <> [] /\ s' = est r2 [] d w2 /\ r = map Some u ++ r2 /\
      match op with
      | Some op => exists l h w1 tx, u = l ++ h /\ lead w l w1 /\ head w1 h op tx w2 /\ (tx = true -> stops Operator d r2)
      | None => (0 < d)%N /\ (exists y r'', r2 = Some y :: r'' /\ ends cc y) /\ lead w u w2
      end).
    { destruct HO as (u & r2 & w2 & -> & [->|(E & HO)]); [left; eauto|]. destruct r2 as [|z r2]; [left; eauto|right]. exists u, (z :: r2), w2. repeat split; auto. discriminate. }
    clear HO. destruct CASES as [(w2 & ->)|(u & r2 & w2 & NE2 & -> & -> & HO)].
    { (* the end of the source *)
      assert (DONE : forall (k : M (S:=ev_state) (A:=W) (Pos:=Pos) (CE:=CE) (option (datum text ET))) w4,
         wp (bind (nest_end cc so) (fun _ => k)) (nested_post d (Some x :: r) w) (est [] [] d w4)).
      { intros k w4. unfold nest_end. apply wp_bind, wp_bind, wpe_next. cbn [answer tl]. exact I. }
      apply wp_bind, wpe_peek. cbn [answer after_peek]. apply wp_bind, wp_ret.
      destruct op as [op|]; [|apply DONE].
      assert (ALL : forall (k : datum text ET -> M (S:=ev_state) (A:=W) (Pos:=Pos) (CE:=CE) (option (datum text ET))),
        (forall y w4, wp (k y) (nested_post d (Some x :: r) w) (est [] [] d w4)) ->
        wp (bind (parse_all umax cc so co ao bnd fuel Base) k) (nested_post d (Some x :: r) w) (est [] [] d w2)).
      { intros k Hk. apply wp_bind. eapply wp_mono; [apply IHa; [exact Hd|cbn; lia]|].
        intros [t|e| |] s'; auto.
        - intros (v & r4 & w3 & ds & b & -> & [->|(E4 & _)]); [apply Hk|].
          symmetry in E4. apply app_eq_nil in E4. destruct E4 as [_ ->]. apply Hk.
        - intros H. destruct (panicked_nil H). }
      destruct (bnd op) as [[f|f]|].
      - apply wp_bind. unfold parse_text. eapply wp_mono; [apply (operands_loop_cut fuel [] 0); cbn; lia|].
        intros [t|e| |] s'; auto.
        + intros (v & r4 & -> & [->|(c & E4 & _)]); [apply DONE|].
          symmetry in E4. apply app_eq_nil in E4. destruct E4 as [_ ->]. apply DONE.
        + intros (v & rest & p' & E & _). destruct v; discriminate.
      - apply ALL. intros. apply DONE.
      - apply ALL. intros. apply DONE. }
    destruct op as [op|].
    2:{ (* empty nest *)
        destruct HO as (_ & (y & r3 & -> & Hy) & HL).
        apply wp_bind, wpe_peek. cbn [answer after_peek].
        assert (is_whitespace cc (it_ch y) = false) as -> by (apply (dc_end DC _ Hy)).
        apply wp_bind, wp_ret. unfold nest_end. apply wp_bind, wp_bind, wpe_next. cbn [answer tl].
        apply wp_assert; [exact Hy|]. apply wp_ret.
        exists (x :: u ++ [y]), r3, w2. split; auto. right. cbn. rewrite map_app, <- app_assoc. split; auto.
        apply n_empty; auto. }
    destruct HO as (l & h & w1 & tx & -> & Hl & Hh & Htx).
    pose proof (@bound_suffix _ _ _ _ eq_refl HU) as HU2.
    apply wp_bind, wpe_peek.
    destruct r2 as [|[z|] r2]; cbn [answer after_peek].
    3:{ (* after an operator that is a nest form *)
        destruct tx; [destruct (Htx eq_refl)|].
        exists (x :: l ++ h), r2, 0, w2, []. rewrite N.add_0_r. repeat split; auto.
        assert (SP0 : forall q : source, q = [] -> sep cc false q q) by (intros q ->; right; split; auto).
        destruct (bnd op) as [[f|f]|] eqn:EB.
        - assert (J : cut_nest cc bnd 1 w (x :: l ++ h ++ [] ++ []) w2 []).
          { eapply cn_operative; eauto; [constructor|discriminate]. }
          rewrite app_nil_r in J. exact J.
        - assert (J : cut_nest cc bnd 1 w (x :: l ++ h ++ [] ++ [] ++ []) w2 []).
          { eapply cn_operands; [exact Hx|exact Hl|exact Hh|rewrite EB; exact I|cbn; auto|apply f_nil|apply ct_nil|discriminate]. }
          rewrite app_nil_r in J. exact J.
        - assert (J : cut_nest cc bnd 1 w (x :: l ++ h ++ [] ++ [] ++ []) w2 []).
          { eapply cn_operands; [exact Hx|exact Hl|exact Hh|rewrite EB; exact I|cbn; auto|apply f_nil|apply ct_nil|discriminate]. }
          rewrite app_nil_r in J. exact J. }
    { congruence. }
    clear NE2. apply wp_bind.
    (* separator *)
    assert (SEP : wp (CE:=CE) (if is_whitespace cc (it_ch z) then bind (next so) (fun _ => ret tt) else ret tt)
        (fun res s' => res = Ok tt /\ exists sp r3, s' = est r3 [] d w2 /\ Some z :: r2 = map Some sp ++ r3 /\
           ((exists y, sp = [y] /\ white cc y) \/ (sp = [] /\ r3 = Some z :: r2 /\ ~ white cc z)))
        (est (Some z :: r2) [] d w2)).
    { destruct (is_whitespace cc (it_ch z)) eqn:Ez.
      - apply wp_bind, wpe_next. apply wp_ret. split; auto. exists [z], r2. repeat split; auto. left. eauto.
      - apply wp_ret. split; auto. exists [], (Some z :: r2). repeat split; auto. right.
        repeat split; auto. unfold white. congruence. }
    eapply wp_mono; [exact SEP|]. clear SEP. intros ? s' (-> & sp & r3 & -> & E3 & HSP).
    assert (HU3 : (d + N.of_nat (length r3) <= umax)%N) by exact (@bound_suffix _ _ _ _ E3 HU2).
    assert (SEPOK : forall body q, r3 = map Some body ++ q ->
       match body with [] => True | y :: _ => ~ ends cc y end -> sep cc tx sp body).
    { intros body q E4 Hb. destruct HSP as [HSP|(-> & E5 & HSP)]; [left; auto|right].
      split; auto. destruct body as [|y body]; auto. rewrite E5 in E4. cbn in E4. injection E4 as <- _.
      destruct tx; [|exact HSP]. specialize (Htx eq_refl). cbn in Htx. destruct Htx as [Htx _].
      unfold operator_delimiter, delimiter in Htx. unfold white in HSP.
      apply not_true_is_false in HSP. rewrite HSP in Htx. cbn in Htx.
      apply orb_true_iff in Htx. destruct Htx as [Htx|Htx]; [exact Htx|]. contradiction. }
    assert (NE3 : forall body rest, r3 = map Some body ++ None :: rest -> sp ++ body <> []).
    { intros body rest E4 E5. apply app_eq_nil in E5. destruct E5 as [-> ->].
      destruct HSP as [(y & H & _)|(_ & H & _)]; [discriminate|]. rewrite H in E4. discriminate. }
    assert (WHOLE : forall v q, r3 = map Some v ++ q ->
       Some x :: map Some (l ++ h) ++ Some z :: r2 = map Some (x :: l ++ h ++ sp ++ v) ++ q).
    { intros v q E4. rewrite E3, E4. cbn [map]. rewrite !map_app, <- !app_comm_cons, <- !app_assoc. reflexivity. }
    (* the end of a nest *)
    assert (END : forall y r4 w4 (k : M (S:=ev_state) (A:=W) (Pos:=Pos) (CE:=CE) (option (datum text ET))) Q,
       ends cc y -> wp k Q (est r4 [] d w4) ->
       wp (bind (nest_end cc so) (fun _ => k)) Q (est (Some y :: r4) [] d w4)).
    { intros y r4 w4 k Q Hy HQ. unfold nest_end. apply wp_bind, wp_bind, wpe_next. cbn [answer tl].
      apply wp_assert; auto. }
    assert (DONE : forall (k : M (S:=ev_state) (A:=W) (Pos:=Pos) (CE:=CE) (option (datum text ET))) r0 w4,
       wp (bind (nest_end cc so) (fun _ => k)) (nested_post d r0 w) (est [] [] d w4)).
    { intros k r0 w4. unfold nest_end. apply wp_bind, wp_bind, wpe_next. cbn [answer tl]. exact I. }
    assert (CUT : match bnd op with Some (Operative _) => False | _ => True end ->
       forall s', panicked d r3 (fun n u w' p => cut_all n w2 u w' p) s' ->
       panicked d (Some x :: map Some (l ++ h) ++ Some z :: r2) (fun n u w' p => cut_nest cc bnd (S n) w u w' p) s').
    { intros HB s' (q & rest & n & w' & p' & E4 & -> & (v & v' & w3 & ds & b & -> & HF & HC)).
      exists (x :: l ++ h ++ sp ++ v ++ v'), rest, n, w', p'. split; [apply WHOLE; exact E4|]. split; auto.
      assert (HS : sep cc tx sp (v ++ v')).
      { eapply SEPOK; [exact E4|]. destruct v as [|y v]; [|exact (forms_hd_not_end DC HF)].
        destruct HC as [(_ & _ & _ & HC)|HC]; [exact (cut_text_hd HC)|exact (cut_nest_hd HC)]. }
      destruct HC as [(-> & -> & -> & HC)|HC].
      - eapply cn_operands; eauto.
      - eapply cn_operand; eauto. }
    destruct (bnd op) as [[f|f]|] eqn:EB.
    + (* operative *)
      apply wp_bind. unfold parse_text.
      eapply wp_mono; [apply (operands_loop_cut fuel [] 0); cbn [N.of_nat]; lia|].
      intros [t|e| |] s'; auto.
      * intros (v & r4 & -> & [->|(c & E4 & -> & HQ & y & r5 & -> & Hy)]); [apply DONE|].
        apply END; auto. cbn [app].
        destruct (f op c w2) as [o w3] eqn:EF. eapply wpe_call; [exact EF|].
        destruct o as [o|e]; [|exact I].
        apply qn_quoted in HQ.
        assert (HS : sep cc tx sp v).
        { eapply SEPOK; eauto. destruct HQ as [|a ? ? Hz| a ? ? ? Hz|a ? ? ? ? ? Hz]; auto; intros Ez.
          - unfold delimiter in Hz. unfold ends in Ez. rewrite Ez, orb_true_r in Hz. discriminate.
          - unfold ends, escapes in *. destruct (dc_end DC _ Ez). congruence.
          - unfold ends, starts in *. destruct (dc_start DC _ Hz). congruence. }
        exists (x :: l ++ h ++ sp ++ v ++ [y]), r5, w3. split; auto. right. split.
        -- apply WHOLE. rewrite E4, map_app, <- app_assoc. reflexivity.
        -- eapply n_operative; eauto.
      * intros (v & rest & p' & E4 & -> & HC). exists (x :: l ++ h ++ sp ++ v), rest, 0, w2, p'.
        rewrite N.add_0_r. split; [apply WHOLE; exact E4|]. split; auto.
        eapply cn_operative; eauto. eapply SEPOK; [exact E4|exact (cut_operands_hd HC)].
    + (* applicative *)
      apply wp_bind. eapply wp_mono; [apply IHa; [exact Hd|exact HU3]|].
      intros [t|e| |] s'; auto; [|intros H; apply CUT; auto].
      intros (v & r4 & w3 & ds & b & -> & [->|(E4 & HF & -> & y & r5 & -> & Hy)]); [apply DONE|].
      apply END; auto.
      destruct (f op (dlist ds) w3) as [o w4] eqn:EF. eapply wpe_call; [exact EF|].
      destruct o as [o|e]; [|exact I].
      exists (x :: l ++ h ++ sp ++ v ++ [y]), r5, w4. split; auto. right. split.
      * apply WHOLE. rewrite E4, map_app, <- app_assoc. reflexivity.
      * eapply n_applicative; eauto. eapply SEPOK; eauto. exact (forms_hd_not_end DC HF).
    + (* unbound *)
      apply wp_bind. eapply wp_mono; [apply IHa; [exact Hd|exact HU3]|].
      intros [t|e| |] s'; auto; [|intros H; apply CUT; auto].
      intros (v & r4 & w3 & ds & b & -> & [->|(E4 & HF & -> & y & r5 & -> & Hy)]); [apply DONE|].
      apply END; auto. apply wp_bind, wpe_new_datum. apply wp_bind, wpe_new_datum. apply wp_ret.
      exists (x :: l ++ h ++ sp ++ v ++ [y]), r5, w3. split; auto. right. split.
      * apply WHOLE. rewrite E4, map_app, <- app_assoc. reflexivity.
      * eapply n_unbound; eauto. eapply SEPOK; eauto. exact (forms_hd_not_end DC HF).
  - (* parse_all *)
    intros r d w Hd HU. cbn [parse_all]. apply wp_bind.
    eapply wp_mono; [apply IHn; [discriminate|discriminate|exact HU]|].
    intros [[y|]|e| |] s'; auto.
    + intros HO. specialize (HO eq_refl). destruct HO as (u & r' & w' & -> & HO).
      apply wp_bind, wpe_new_datum. apply wp_bind, wpe_new_datum. apply wp_bind.
      unfold wp at 1. cbn [fst snd a_get_mut abs_alloc]. apply wp_bind.
      assert (HU1 : (d + N.of_nat (length r') <= umax)%N).
      { destruct HO as [->|(E & _)]; [cbn; lia|exact (@bound_suffix _ _ _ _ E HU)]. }
      eapply wp_mono; [apply IHa; [exact Hd|exact HU1]|].
      intros [t|e| |] s'; auto.
      * intros (v & r4 & w3 & ds & b' & -> & HA). apply wp_ret. exists (u ++ v), r4, w3, (y :: ds).
        destruct HA as [->|(E4 & HF' & -> & z & r5 & -> & Hz)]; [exists false; auto|].
        destruct HO as [->|(E & b & HF & HB)]; [destruct v; discriminate|].
        assert (J : exists b'', forms false false w (u ++ v) (y :: ds) w3 b'').
        { destruct v as [|a v].
          - destruct (forms_nil_inv HF') as (-> & -> & ->). rewrite app_nil_r. eauto.
          - exists b'. change (y :: ds) with ([y] ++ ds). eapply forms_app; [exact HF|].
            destruct b; [|exact HF']. apply forms_after_text; auto; [|discriminate].
            specialize (HB eq_refl). rewrite E4 in HB. cbn in HB. apply HB. }
        destruct J as (b'' & J). exists b''. split; auto. right. rewrite E, E4, map_app, <- app_assoc.
        repeat split; eauto.
      * destruct HO as [->|(E & b & HF & HB)]; [intros H; destruct (panicked_nil H)|].
        rewrite E. intros (q & rest & n & w3 & p' & E4 & -> & (v & v' & w4 & ds & b' & -> & HF' & HC)).
        exists (u ++ v ++ v'), rest, n, w3, p'. rewrite E4, !map_app, <- !app_assoc. split; auto. split; auto.
        exists (u ++ v), v', w4, (y :: ds).
        destruct v as [|a v].
        -- destruct (forms_nil_inv HF') as (-> & -> & ->). exists b. rewrite app_nil_r. repeat split; auto.
           destruct HC as [(-> & _ & -> & HC)|HC]; [left|auto]. repeat split; auto.
           destruct b; auto. specialize (HB eq_refl). rewrite E4 in HB. cbn in HB.
           destruct v' as [|z v']; [destruct HB|]. cbn in HB. destruct HB as [HB _].
           inversion HC as [|? ? ? ? H|? ? H|? ? ? ? ? H]; subst; [congruence| |];
             apply delimiter_escape in H; auto; congruence.
        -- exists b'. split; [rewrite <- app_assoc; reflexivity|]. split; [|exact HC].
           change (y :: ds) with ([y] ++ ds). eapply forms_app; [exact HF|].
           destruct b; [|exact HF']. apply forms_after_text; auto; [|discriminate].
           specialize (HB eq_refl). rewrite E4 in HB. cbn in HB. apply HB.
    + intros HO. specialize (HO eq_refl). destruct HO as (u & r' & w' & -> & HO). apply wp_ret.
      exists u, r', w', [], false. split; auto. destruct HO as [->|(E & _ & HY & HF)]; auto.
    + intros (q & rest & n & w' & p' & E & -> & (u & v & w1 & -> & HF & HC)).
      exists (u ++ v), rest, n, w', p'. repeat split; auto.
      exists u, v, w1, [], false. repeat split; auto.
      destruct HC as [(-> & -> & HC)|HC]; [left|auto]. repeat split; auto. destruct u; exact HC.
Qed.

End CutParse.
