(** The parser over the abstract stream against the grammar: whatever it
    returns is what the grammar assigns to the characters consumed; errors are
    explained by the balance counter or by a combiner. *)
From Coq Require Import List Arith NArith Bool Lia.
From Verif.Model Require Import Prelude Parser Iter.
From Verif.Spec Require Import Grammar Balance AbsStream Trace Fails Unclosed.
From Verif.Proofs Require Import Wp GrammarFacts.
Import ListNotations.
Set Implicit Arguments.

Section AbsParse.
Context {W ET Pos CE : Type}.
Local Notation source := (list (item Pos)).
Local Notation text := (list (item Pos)).
Context (umax : N) (cc : classifier) (bnd : bindings W text ET Pos CE).
Context (DC : disjoint_classes cc).
Local Notation forms := (forms cc bnd).
Local Notation nest := (nest cc bnd).
Local Notation lead := (lead cc bnd).
Local Notation head := (head cc bnd).
Local Notation fails := (fails cc bnd).
Local Notation unclosed := (unclosed cc bnd).
Local Notation raw := (@raw Pos cc).
Local Notation quoted := (@quoted Pos cc).
Local Notation scn := (@scan Pos cc).
Local Notation calls := (calls bnd).
Local Notation so := (@abs_stream W Pos).
Local Notation co := (@abs_concat W Pos).
Local Notation ao := (@abs_alloc W ET Pos).
Local Notation st := (pstate (@abs_state Pos) W).

Definition ast (r p : source) (d : N) (w : W) : st := PState (r, p) d w.

Lemma wpa_peek r p d w (Q : _ -> _ -> Prop) :
  Q (Ok (hd_error r)) (ast r p d w) -> wp (CE:=CE) (peek so) Q (ast r p d w).
Proof. exact (fun h => h). Qed.
Lemma wpa_next r p d w (Q : _ -> _ -> Prop) :
  Q (Ok (hd_error r)) (ast (tl r) [] d w) -> wp (CE:=CE) (next so) Q (ast r p d w).
Proof. exact (fun h => h). Qed.
Lemma wpa_next_accum r p d w (Q : _ -> _ -> Prop) :
  Q (Ok (hd_error r)) (ast (tl r) (p ++ firstn 1 r) d w) ->
  wp (CE:=CE) (next_accum so) Q (ast r p d w).
Proof. exact (fun h => h). Qed.
Lemma wpa_concat_accum t r p d w (Q : _ -> _ -> Prop) :
  Q (Ok (t ++ p)) (ast r [] d w) ->
  wp (CE:=CE) (concat_accum so co t) Q (ast r p d w).
Proof. exact (fun h => h). Qed.
Lemma wpa_done t r p d w (Q : _ -> _ -> Prop) :
  Q (Ok (t ++ p)) (ast r [] d w) ->
  wp (CE:=CE) (parse_text_done so co t 0) Q (ast r p d w).
Proof. exact (fun h => h). Qed.
Lemma wpa_new_datum x r p d w (Q : _ -> _ -> Prop) :
  Q (Ok x) (ast r p d w) -> wp (Pos:=Pos) (CE:=CE) (new_datum ao x) Q (ast r p d w).
Proof. exact (fun h => h). Qed.
Lemma wpa_call X (f : W -> (X + error Pos CE) * W) r p d w (Q : _ -> _ -> Prop) o w' :
  f w = (o, w') ->
  Q (match o with inl x => Ok x | inr e => Err e end) (ast r p d w') ->
  wp (call f) Q (ast r p d w).
Proof. intros E H. unfold wp, call. cbn. rewrite E. exact H. Qed.

Lemma wp_true X (m : M (S:=@abs_state Pos) (A:=W) (Pos:=Pos) (CE:=CE) X) s : wp m (fun _ _ => True) s.
Proof. exact I. Qed.

(** Checks whether the next character ends a text. *)
Definition stop_of (m : mode) : char -> bool :=
  match m with Operator => operator_delimiter cc | _ => delimiter cc end.

Definition text_stop (m : mode) (d : N) (r : source) : Prop :=
  match r with
  | [] => True
  | x :: _ => stop_of m (it_ch x) = true /\ (m = Base -> ends cc x -> (0 < d)%N)
  end.

Lemma stop_delim m c : stop_of m c = false -> delimiter cc c = false.
Proof. destruct m; cbn; auto using operator_delimiter_delimiter. Qed.

Definition text_ok (m : mode) (d : N) (r : source) (c u r' : source) : Prop :=
  r = u ++ r' /\
  ((raw (stop_of m) u c /\ text_stop m d r') \/
   (r' = [] /\ exists u' x, u = u' ++ [x] /\ escapes cc x /\ raw (stop_of m) u' c)).

(** Texts of the modes [Base] and [Operator]. *)
Lemma text_loop_spec : forall fuel m t0 r p d w, m <> Operands ->
  wp (CE:=CE) (parse_text_loop umax cc so co fuel m t0 0) (fun res s' =>
    match res with
    | Ok t => exists u c r', s' = ast r' [] d w /\ t = t0 ++ p ++ c /\ text_ok m d r c u r'
    | Err e => m = Base /\ d = 0%N /\ exists u c x r', s' = ast r' [] d w /\ r = u ++ x :: r' /\
                 raw (delimiter cc) u c /\ ends cc x /\ e = UnbalancedEndChar (it_pos x)
    | Panic => False
    | OutOfFuel => True
    end) (ast r p d w).
Proof.
  induction fuel as [|fuel IH]; intros m t0 r p d w Hm; [exact I|].
  cbn [parse_text_loop]. apply wp_bind, wpa_peek. destruct r as [|x r]; cbn [hd_error].
  { apply wpa_done.
    exists [], [], []. rewrite app_nil_r. repeat split; auto. left. split; [constructor|exact I]. }
  cbv zeta. change (0 =? 0)%N with true. cbn [andb].
  destruct (is_end_char cc (it_ch x) m) eqn:E1.
  { apply wpa_done.
    exists [], [], (x :: r). rewrite app_nil_r. repeat split; auto. left. split; [constructor|].
    cbn. destruct m; cbn in *; [| |congruence].
    - split; [unfold delimiter; rewrite E1; reflexivity|]. intros _ He. unfold ends in He.
      destruct (dc_start DC _ E1). congruence.
    - split; [|congruence]. unfold operator_delimiter, delimiter. rewrite orb_assoc. exact E1. }
  destruct (is_nest_escape cc (it_ch x)) eqn:E2.
  { apply wp_bind, wpa_concat_accum. apply wp_bind, wpa_next.
    apply wp_bind, wpa_next_accum. cbn [hd_error tl].
    eapply wp_mono; [apply IH; exact Hm|].
    destruct r as [|y r]; cbn [tl firstn app].
    - intros [t|e| |] s'; auto.
      + intros (u & c & r' & -> & -> & Hu & Hc). symmetry in Hu.
        apply app_eq_nil in Hu. destruct Hu as [-> ->].
        exists [x], [], []. rewrite !app_nil_r. cbn.
        assert (c = []) as ->.
        { destruct Hc as [[Hc _]|(_ & u' & z & E & _)]; [inversion Hc; auto|].
          destruct u'; discriminate. }
        rewrite !app_nil_r. repeat split; auto.
        right. split; auto. exists [], x. repeat split; auto. constructor.
      + intros (Em & Hd & u & c & z & r' & -> & E & _). destruct u; discriminate.
    - intros [t|e| |] s'; auto.
      + intros (u & c & r' & -> & -> & Hu & Hc).
        exists (x :: y :: u), (y :: c), r'. rewrite <- !app_assoc. cbn.
        repeat split; [cbn; congruence|].
        destruct Hc as [[Hc Hs]|(-> & u' & z & -> & Hz & Hc)].
        * left. split; auto. apply raw_escaped; auto.
        * right. split; auto. exists (x :: y :: u'), z. repeat split; auto. apply raw_escaped; auto.
      + intros (Em & Hd & u & c & z & r' & -> & E & Hr & Hz & He). repeat split; auto.
        exists (x :: y :: u), (y :: c), z, r'. cbn. repeat split; [congruence|apply raw_escaped; auto|auto..]. }
  destruct (is_nest_start cc (it_ch x)) eqn:E3.
  { exfalso. destruct m; cbn in E1; [congruence| |congruence].
    rewrite E3, orb_true_r in E1. discriminate. }
  destruct (is_nest_end cc (it_ch x)) eqn:E4.
  { destruct m; cbn in E1; [| |congruence].
    2:{ rewrite E4, orb_true_r in E1. discriminate. }
    cbn. apply wp_bind, wp_get_depth. unfold check_end_char. apply wp_bind, wp_bind, wpa_peek.
    cbn [hd_error]. apply wp_bind, wp_assert; [exact E4|]. cbn [ast ps_depth].
    destruct (0 <? d)%N eqn:Hd.
    - apply wp_ret. apply wpa_done.
      exists [], [], (x :: r). rewrite app_nil_r. repeat split; auto. left. split; [constructor|].
      cbn. unfold delimiter. rewrite E3, E4. split; auto. intros. now apply N.ltb_lt.
    - apply N.ltb_ge in Hd. apply wp_bind, wpa_next. cbn [hd_error]. apply wp_raise.
      repeat split; [lia|]. exists [], [], x, r. repeat split; auto. constructor. }
  apply wp_bind, wpa_next_accum. cbn [tl firstn].
  eapply wp_mono; [apply IH; exact Hm|].
  assert (SX : stop_of m (it_ch x) = false).
  { destruct m; cbn in *; [| |congruence].
    - unfold delimiter. rewrite E3, E4. reflexivity.
    - unfold operator_delimiter, delimiter. rewrite E3, E4. rewrite E3, E4, !orb_false_r in E1.
      rewrite E1. reflexivity. }
  assert (NX : ~ escapes cc x) by (unfold escapes; congruence).
  intros [t|e| |] s'; auto.
  - intros (u & c & r' & -> & -> & Hu & Hc).
    exists (x :: u), (x :: c), r'. rewrite <- !app_assoc. cbn.
    repeat split; [cbn; congruence|].
    destruct Hc as [[Hc Hs]|(-> & u' & z & -> & Hz & Hc)].
    + left. split; auto. apply raw_plain; auto.
    + right. split; auto. exists (x :: u'), z. repeat split; auto. apply raw_plain; auto.
  - intros (Em & Hd & u & c & z & r' & -> & E & Hr & Hz & He). repeat split; auto.
    exists (x :: u), (x :: c), z, r'. cbn. subst m. repeat split; [congruence|apply raw_plain; auto|auto..].
Qed.

Definition no_unmatched (nl : nat) (r : source) : Prop := forall q, scn false (N.of_nat nl) r <> Unmatched q.

(** Unparsed operands. *)
Lemma operands_loop_spec : forall fuel t0 nl r p d w, (0 < d)%N ->
  wp (CE:=CE) (parse_text_loop umax cc so co fuel Operands t0 (N.of_nat nl)) (fun res s' =>
    match res with
    | Ok t => exists u c r', s' = ast r' [] d w /\ t = t0 ++ p ++ c /\ r = u ++ r' /\
              scn false (d + N.of_nat nl) r = scn false d r' /\
              (r' = [] /\ no_unmatched nl r \/ (qn cc nl u c /\ exists x r'', r' = x :: r'' /\ ends cc x))
    | Err e => e = MissingEndChar /\ exists p', s' = ast [] p' d w /\
               scn false (d + N.of_nat nl) r = Unclosed /\ no_unmatched nl r
    | _ => True
    end) (ast r p d w).
Proof.
  induction fuel as [|fuel IH]; intros t0 nl r p d w Hd; [exact I|].
  cbn [parse_text_loop]. apply wp_bind, wpa_peek. destruct r as [|x r]; cbn [hd_error].
  { unfold parse_text_done. destruct (N.of_nat nl =? 0)%N eqn:Z.
    - apply N.eqb_eq in Z. apply wpa_concat_accum. exists [], [], []. rewrite app_nil_r.
      rewrite Z, N.add_0_r. repeat split; auto. left. split; auto. intros q. cbn. destruct (_ =? _)%N; discriminate.
    - apply N.eqb_neq in Z. apply wp_raise. split; auto. exists p. split; auto. split.
      + cbn. destruct (d + N.of_nat nl =? 0)%N eqn:Z'; auto. apply N.eqb_eq in Z'. lia.
      + intros q. cbn. destruct (_ =? _)%N; discriminate. }
  cbv zeta.
  (* extending the consumed part *)
  assert (EXT : forall nl' v c0 r1 t1 p1 dn,
    r1 = tl (v ++ r1) \/ v ++ r1 = x :: r -> v ++ r1 = x :: r ->
    (forall u c, qn cc nl' u c -> qn cc nl (v ++ u) (c0 ++ c)) ->
    (forall d0, scn false (d0 + N.of_nat nl) (x :: r) = scn false (d0 + N.of_nat nl') r1) ->
    t1 ++ p1 = t0 ++ p ++ c0 -> dn = N.of_nat nl' ->
    wp (CE:=CE) (parse_text_loop umax cc so co fuel Operands t1 dn) (fun res s' =>
    match res with
    | Ok t => exists u c r', s' = ast r' [] d w /\ t = t0 ++ p ++ c /\ x :: r = u ++ r' /\
              scn false (d + N.of_nat nl) (x :: r) = scn false d r' /\
              (r' = [] /\ no_unmatched nl (x :: r) \/ (qn cc nl u c /\ exists y r'', r' = y :: r'' /\ ends cc y))
    | Err e => e = MissingEndChar /\ exists p', s' = ast [] p' d w /\
               scn false (d + N.of_nat nl) (x :: r) = Unclosed /\ no_unmatched nl (x :: r)
    | _ => True
    end) (ast r1 p1 d w)).
  { intros nl' v c0 r1 t1 p1 dn _ Hv Hq Hs Ht ->.
    assert (NU : no_unmatched nl' r1 -> no_unmatched nl (x :: r)).
    { intros H q. specialize (Hs 0%N). rewrite !N.add_0_l in Hs. rewrite Hs. apply H. }
    specialize (Hs d).
    eapply wp_mono; [apply IH; exact Hd|].
    intros [t|e| |] s'; auto.
    - intros (u & c & r' & -> & -> & Hu & Hsc & Hc).
      exists (v ++ u), (c0 ++ c), r'. repeat split.
      + rewrite !app_assoc in *. rewrite Ht. reflexivity.
      + rewrite <- Hv, Hu, app_assoc. reflexivity.
      + congruence.
      + destruct Hc as [[Hc Hn]|[Hc Hx]]; auto.
    - intros (-> & p' & -> & Hsc & Hn). split; auto. exists p'. split; auto. split; auto. congruence. }
  destruct ((N.of_nat nl =? 0)%N && is_end_char cc (it_ch x) Operands) eqn:E1.
  { apply andb_true_iff in E1. destruct E1 as [Z E1]. cbn in E1.
    unfold parse_text_done. rewrite Z. apply N.eqb_eq in Z. apply wpa_concat_accum.
    exists [], [], (x :: r). rewrite app_nil_r, Z, N.add_0_r. repeat split; auto.
    right. assert (nl = 0) as -> by lia. split; [constructor|]. eauto. }
  destruct (is_nest_escape cc (it_ch x)) eqn:E2.
  { apply wp_bind, wpa_concat_accum. apply wp_bind, wpa_next.
    apply wp_bind, wpa_next_accum. cbn [hd_error tl].
    destruct r as [|y r]; cbn [tl firstn app].
    - destruct fuel as [|fuel']; [exact I|]. cbn [parse_text_loop].
      apply wp_bind, wpa_peek. cbn [hd_error]. unfold parse_text_done.
      destruct (N.of_nat nl =? 0)%N eqn:Z.
      + apply N.eqb_eq in Z. apply wpa_concat_accum. exists [x], [], []. rewrite !app_nil_r.
        rewrite Z, N.add_0_r. repeat split; auto. { now apply scan_dangling. }
        left. split; auto. intros q. rewrite scan_dangling by auto. cbn. destruct (_ =? _)%N; discriminate.
      + apply N.eqb_neq in Z. apply wp_raise. split; auto. exists []. split; auto. split.
        * rewrite scan_dangling by auto. cbn.
          destruct (d + N.of_nat nl =? 0)%N eqn:Z'; auto. apply N.eqb_eq in Z'. lia.
        * intros q. rewrite scan_dangling by auto. cbn. destruct (_ =? _)%N; discriminate.
    - eapply (EXT nl [x; y] [y]); auto.
      + intros u c Hu. cbn. apply qn_escaped; auto.
      + intros d0. apply scan_escaped; auto.
      + rewrite app_assoc. reflexivity. }
  assert (NX : ~ escapes cc x) by (unfold escapes; congruence).
  destruct (is_nest_start cc (it_ch x)) eqn:E3.
  { apply wp_bind, wpa_next_accum. cbn [tl firstn].
    destruct (N.of_nat nl <? umax)%N; [|exact I].
    eapply (EXT (S nl) [x] [x]); auto.
    - intros u c Hu. apply qn_start; auto.
    - intros d0. rewrite scan_start by auto. f_equal. lia.
    - lia. }
  destruct (is_nest_end cc (it_ch x)) eqn:E4.
  { destruct (0 <? N.of_nat nl)%N eqn:Z.
    - apply N.ltb_lt in Z. destruct nl as [|nl]; [lia|].
      apply wp_bind, wpa_next_accum. cbn [tl firstn].
      eapply (EXT nl [x] [x]); auto.
      + intros u c Hu. apply qn_end; auto.
      + intros d0. rewrite scan_end; auto; [|lia]. f_equal. lia.
      + lia.
    - apply N.ltb_ge in Z. exfalso. assert (nl = 0) as -> by lia. cbn in E1. congruence. }
  apply wp_bind, wpa_next_accum. cbn [tl firstn].
  assert (DX : delimiter cc (it_ch x) = false) by (unfold delimiter; rewrite E3, E4; reflexivity).
  eapply (EXT nl [x] [x]); auto.
  - intros u c Hu. apply qn_plain; auto.
  - intros d0. apply scan_plain; auto.
Qed.

Definition at_end (r : source) : bool := match r with [] => true | _ => false end.

Lemma text_ok_scan m d c u r' r k : text_ok m k r c u r' -> scn false d r = scn false d r'.
Proof.
  intros (-> & [[H _]|(-> & u' & x & -> & Hx & H)]).
  - eapply scan_raw; [apply stop_delim|exact H].
  - rewrite app_nil_r. erewrite scan_raw; [|apply stop_delim|exact H].
    apply scan_dangling; auto.
Qed.

Lemma calls_trans w w1 w2 : calls w w1 -> calls w1 w2 -> calls w w2.
Proof.
  intros H H'. induction H'; auto.
  - eapply calls_operative; [apply IHH'; exact H| |]; eauto.
  - eapply calls_applicative; [apply IHH'; exact H| |]; eauto.
Qed.

Lemma calls_grammar :
  (forall eof b w s ds w' b', forms eof b w s ds w' b' -> calls w w') /\
  (forall w s o w', nest w s o w' -> match o with inl _ => calls w w' | inr _ => True end) /\
  (forall w s w', lead w s w' -> calls w w') /\
  (forall w s dd tx w', head w s dd tx w' -> calls w w').
Proof.
  apply grammar_mind; intros; auto using calls_refl; try (eapply calls_trans; eassumption).
  - eapply calls_trans; [eassumption|]. eapply calls_trans; eassumption.
  - destruct r; auto. eapply calls_applicative; [|eassumption|eassumption].
    eapply calls_trans; [eassumption|]. eapply calls_trans; eassumption.
  - destruct r; auto. eapply calls_operative; [|eassumption|eassumption].
    eapply calls_trans; eassumption.
Qed.

Lemma calls_forms eof b w s ds w' b' : forms eof b w s ds w' b' -> calls w w'.
Proof. apply calls_grammar. Qed.
Lemma calls_nest w s o w' : nest w s (inl o) w' -> calls w w'.
Proof. intros H. exact (proj1 (proj2 calls_grammar) _ _ _ _ H). Qed.
Lemma calls_lead w s w' : lead w s w' -> calls w w'.
Proof. apply calls_grammar. Qed.
Lemma calls_head w s dd tx w' : head w s dd tx w' -> calls w w'.
Proof. apply calls_grammar. Qed.

Lemma forms_nil_inv b w ds w' b' : forms false b w [] ds w' b' -> ds = [] /\ w' = w /\ b' = b.
Proof.
  intros H. remember [] as s eqn:E. destruct H; auto; apply app_eq_nil in E; destruct E; subst;
  try congruence; try discriminate;
  match goal with H : Grammar.nest _ _ _ [] _ _ |- _ => destruct (nest_cons H) as (? & ? & ? & _) end;
  discriminate.
Qed.

Lemma fails_nest w s e w' : fails w s e w' ->
  exists u s0 w1, s = u ++ s0 /\ nest w1 s0 (inr e) w' /\ calls w w1.
Proof.
  induction 1 as [w s e w' H|w x l w1 s e w' _ Hl _ (u & s0 & w2 & -> & Hn & Hc)
                 |w x l w1 h d tx w2 sp body ds w3 b s e w' _ Hl Hh _ _ Hf _ (u & s0 & w4 & -> & Hn & Hc)].
  - exists [], s, w. auto using calls_refl.
  - exists (x :: l ++ u), s0, w2. cbn. rewrite <- app_assoc. repeat split; auto.
    eapply calls_trans; [eapply calls_lead; eauto|exact Hc].
  - exists (x :: l ++ h ++ sp ++ body ++ u), s0, w4. cbn. rewrite <- !app_assoc. repeat split; auto.
    eapply calls_trans; [eapply calls_lead; eauto|]. eapply calls_trans; [eapply calls_head; eauto|].
    eapply calls_trans; [eapply calls_forms; eauto|exact Hc].
Qed.

Lemma fails_cons w s e w' : fails w s e w' -> exists x s', s = x :: s' /\ starts cc x.
Proof. intros H. destruct H; eauto. eapply nest_cons; eauto. Qed.

(** What comes before the end of the source, inside a nest form if [0 < d]. *)
Definition missing (m : mode) (d : N) (w : W) (r : source) (w' : W) : Prop :=
  exists u s w1, r = u ++ s /\
    match m with Operator => lead w u w1 | _ => forms false false w u [] w1 false end /\
    ((s = [] /\ w' = w1 /\ (0 < d)%N) \/ unclosed w1 s w').
Definition all_missing (w : W) (r : source) (w' : W) : Prop :=
  exists u s w1 ds b, r = u ++ s /\
    ((s = [] /\ forms true false w u ds w' b) \/ (forms false false w u ds w1 b /\ unclosed w1 s w')).

Definition rest_missing (c : option (combiner W source ET Pos CE)) (w : W) (r : source) (w' : W) : Prop :=
  match c with
  | Some (Operative _) => w' = w /\ no_unmatched 0 r
  | _ => all_missing w r w'
  end.

Lemma unclosed_cons w s w' : unclosed w s w' -> exists x s', s = x :: s' /\ starts cc x.
Proof. destruct 1; eauto. Qed.

Lemma all_missing_nil w w' : all_missing w [] w' -> w' = w.
Proof.
  intros (u & s & w1 & ds & b & E & H). symmetry in E. apply app_eq_nil in E. destruct E as [-> ->].
  destruct H as [(_ & H)|(_ & H)].
  - remember ([] : source) as n eqn:E. destruct H as [|? ? ? ? ? ? ? ? Hne|? v| ? ? ? ? ? ? ? ? ? ? Hn|? ? ? ? ? ? ? ? ? Hn]; auto.
    + apply app_eq_nil in E. tauto.
    + destruct (nest_cons Hn) as (? & ? & -> & _). discriminate.
    + destruct (nest_cons Hn) as (? & ? & -> & _). discriminate.
  - destruct (unclosed_cons H) as (? & ? & ? & _). discriminate.
Qed.

Lemma all_missing_hd w r w' : all_missing w r w' -> match r with [] => True | y :: _ => ~ ends cc y end.
Proof.
  intros (u & s & w1 & ds & b & -> & H). destruct H as [(-> & H)|(H & Hu)].
  - rewrite app_nil_r. eapply forms_hd_not_end; eauto.
  - destruct u as [|y u].
    + destruct (unclosed_cons Hu) as (z & s' & -> & Hz). cbn. unfold ends, starts in *. destruct (dc_start DC _ Hz). congruence.
    + exact (forms_hd_not_end DC H).
Qed.

Lemma rest_missing_nil c w w' : rest_missing c w [] w' -> w' = w.
Proof. destruct c as [[f|f]|]; cbn; [tauto| |]; apply all_missing_nil. Qed.

Lemma rest_missing_hd c w r w' : rest_missing c w r w' -> match r with [] => True | y :: _ => ~ ends cc y end.
Proof.
  destruct c as [[f|f]|]; cbn; [|apply all_missing_hd|apply all_missing_hd].
  intros [_ H]. destruct r as [|y r]; auto. intros Hy. apply (H (it_pos y)). unfold ends in Hy.
  cbn. destruct (dc_end DC _ Hy) as (-> & _). destruct (is_nest_start cc (it_ch y)) eqn:E.
  { destruct (dc_start DC _ E). congruence. }
  rewrite Hy. reflexivity.
Qed.

(** What an error of the parser at depth [d], with [r] to come, means. *)
Definition err_means (m : mode) (d : N) (r : source) (w : W) (e : error Pos CE) (s' : st) : Prop :=
  exists r' p' w', s' = ast r' p' d w' /\
  ((e = MissingEndChar /\ r' = [] /\ scn false d r = Unclosed /\ calls w w' /\ missing m d w r w') \/
   (d = 0%N /\ p' = [] /\ exists u x ds b, r = u ++ x :: r' /\ forms false false w u ds w' b /\
      (if b then exists t, ds = [DText t] else ds = []) /\
      ends cc x /\ e = UnbalancedEndChar (it_pos x)) \/
   (p' = [] /\ exists u s w1, r = u ++ s ++ r' /\ fails w1 s e w' /\
      match m with Operator => lead w u w1 | _ => forms false false w u [] w1 false end)).

Definition next_means (m : mode) (d : N) (r : source) (w : W)
  (res : Prelude.res (error Pos CE) (option (datum text ET))) (s' : st) : Prop :=
  match res with
  | Ok (Some x) => exists u r' w', s' = ast r' [] d w' /\ r = u ++ r' /\
      scn false d r = scn false d r' /\
      match m with
      | Operator => (r' = [] /\ calls w w' /\ exists l h z t, u = l ++ h ++ [z] /\ lead w l w' /\
                       raw (operator_delimiter cc) h t /\ escapes cc z) \/ exists l h w1 tx, u = l ++ h /\ lead w l w1 /\
                      head w1 h x tx w' /\ (tx = true -> text_stop Operator d r')
      | _ => exists b, forms (at_end r') false w u [x] w' b /\ (b = true -> text_stop Base d r')
      end
  | Ok None => exists u r' w', s' = ast r' [] d w' /\ r = u ++ r' /\
      ((d = 0%N /\ r' = []) \/ ((0 < d)%N /\ exists y r'', r' = y :: r'' /\ ends cc y)) /\
      match m with
      | Operator => lead w u w'
      | _ => forms false false w u [] w' false
      end
  | Err e => err_means m d r w e s'
  | _ => True
  end.

Definition nested_means (d : N) (r : source) (w : W)
  (res : Prelude.res (error Pos CE) (option (datum text ET))) (s' : st) : Prop :=
  match res with
  | Ok o => exists u r' w', s' = ast r' [] d w' /\ r = u ++ r' /\ nest w u (inl o) w'
  | Err e => exists r' p' w', s' = ast r' p' d w' /\
      ((e = MissingEndChar /\ r' = [] /\ scn false (d - 1) r = Unclosed /\ calls w w' /\ unclosed w r w') \/
       (p' = [] /\ exists s, r = s ++ r' /\ fails w s e w'))
  | _ => True
  end.

Definition all_means (d : N) (r : source) (w : W)
  (res : Prelude.res (error Pos CE) (datum text ET)) (s' : st) : Prop :=
  match res with
  | Ok x => exists u r' w' ds b, s' = ast r' [] d w' /\ r = u ++ r' /\
      forms false false w u ds w' b /\ x = dlist ds /\ exists y r'', r' = y :: r'' /\ ends cc y
  | Err e => exists r' p' w', s' = ast r' p' d w' /\
      ((e = MissingEndChar /\ r' = [] /\ scn false d r = Unclosed /\ calls w w' /\ all_missing w r w') \/
       (p' = [] /\ exists u s w1 ds b, r = u ++ s ++ r' /\ forms false false w u ds w1 b /\ fails w1 s e w'))
  | _ => True
  end.

Lemma skip_whitespace_spec fuel : forall r d w,
  wp (CE:=CE) (skip_whitespace cc so fuel) (fun res s' =>
    match res with
    | Ok _ => exists u r', s' = ast r' [] d w /\ r = u ++ r' /\
       (forall w1 v w2, lead w1 v w2 -> lead w1 (u ++ v) w2) /\
       match r' with [] => True | x :: _ => ~ white cc x end
    | OutOfFuel => True
    | _ => False
    end) (ast r [] d w).
Proof.
  induction fuel as [|fuel IH]; intros r d w; [exact I|].
  cbn [skip_whitespace]. apply wp_bind, wpa_peek. destruct r as [|x r]; cbn [hd_error].
  { apply wp_ret. exists [], []. repeat split; auto. }
  destruct (is_whitespace cc (it_ch x)) eqn:E.
  - apply wp_bind, wpa_next. cbn [tl]. eapply wp_mono; [apply IH|].
    intros [t|e| |] s'; auto. intros (u & r' & -> & -> & Hu & Hr).
    exists (x :: u), r'. repeat split; auto. intros. cbn. apply l_white; auto.
  - apply wp_ret. exists [], (x :: r). repeat split; auto. unfold white. congruence.
Qed.

Lemma lead_app w l w1 l' w2 : lead w l w1 -> lead w1 l' w2 -> lead w (l ++ l') w2.
Proof.
  intros H. induction H; intros H2; cbn; auto.
  - apply l_white; auto.
  - rewrite <- app_assoc. eapply l_removed; eauto.
Qed.

Lemma scan_forms eof b w s ds w' b' d r : forms eof b w s ds w' b' -> (eof = true -> r = []) ->
  scn false d (s ++ r) = scn false d r.
Proof. intros. eapply (proj1 (scan_grammar bnd DC)); eauto. Qed.
Lemma scan_nest w s o w' d r : nest w s o w' -> scn false d (s ++ r) = scn false d r.
Proof. intros. eapply (proj1 (proj2 (scan_grammar bnd DC))); eauto. Qed.
Lemma scan_lead w s w' d r : lead w s w' -> scn false d (s ++ r) = scn false d r.
Proof. intros. eapply (proj1 (proj2 (proj2 (scan_grammar bnd DC)))); eauto. Qed.
Lemma scan_head w s x tx w' d r : head w s x tx w' -> scn false d (s ++ r) = scn false d r.
Proof. intros. eapply (proj2 (proj2 (proj2 (scan_grammar bnd DC)))); eauto. Qed.

Lemma unclosed_nil d : (0 < d)%N -> scn false d [] = Unclosed.
Proof. intros H. cbn. destruct (d =? 0)%N eqn:Z; auto. apply N.eqb_eq in Z. lia. Qed.

Lemma parser_means : forall fuel,
  (forall m r d w, m <> Operands -> (m = Operator -> (0 < d)%N) ->
     wp (parse_next umax cc so co ao bnd fuel m) (next_means m d r w) (ast r [] d w)) /\
  (forall x r d w, (0 < d)%N -> starts cc x ->
     wp (parse_nested umax cc so co ao bnd fuel) (nested_means d (x :: r) w) (ast (x :: r) [] d w)) /\
  (forall r d w, (0 < d)%N ->
     wp (parse_all umax cc so co ao bnd fuel Base) (all_means d r w) (ast r [] d w)).
Proof.
  induction fuel as [|fuel (IHn & IHd & IHa)].
  { repeat split; intros; exact I. }
  split; [|split].
  - (* parse_next *)
    intros m r d w Hm Hd. cbn [parse_next]. cbv zeta. apply wp_bind.
    assert (SKIP : wp (CE:=CE) (if is_operator_mode m then skip_whitespace cc so fuel else ret tt)
       (fun res s' => match res with
          | Ok _ => exists u r', s' = ast r' [] d w /\ r = u ++ r' /\
             (m = Operator -> match r' with [] => True | x :: _ => ~ white cc x end) /\
             match m with
             | Operator => forall w1 v w2, lead w1 v w2 -> lead w1 (u ++ v) w2
             | _ => u = [] end
          | OutOfFuel => True | _ => False end) (ast r [] d w)).
    { destruct m; cbn [is_operator_mode]; [| |congruence].
      - apply wp_ret. exists [], r. repeat split; auto. discriminate.
      - eapply wp_mono; [apply skip_whitespace_spec|].
        intros [t|e| |] s'; auto. intros (u & r' & -> & -> & Hu & Hr). exists u, r'. auto. }
    eapply wp_mono; [exact SKIP|]. clear SKIP.
    intros [[]|e| |] s' HS; try contradiction; [|exact I].
    destruct HS as (u0 & r0 & -> & -> & Hw & Hu0).
    (* scanning over what has been skipped *)
    assert (SC0 : forall r1, scn false d (u0 ++ r1) = scn false d r1).
    { intros r1. destruct m; [subst u0; auto| |congruence].
      specialize (Hu0 w [] w (l_nil _ _ _)). rewrite app_nil_r in Hu0. eapply scan_lead; eauto. }
    apply wp_bind, wpa_peek. destruct r0 as [|x r0]; cbn [hd_error].
    { apply wp_bind, wp_get_depth. cbn [ast ps_depth]. destruct (d =? 0)%N eqn:Z.
      - apply N.eqb_eq in Z. subst d. apply wp_ret. exists u0, [], w. rewrite app_nil_r.
        repeat split; auto. destruct m; [subst; constructor| |congruence].
        specialize (Hd eq_refl). lia.
      - apply N.eqb_neq in Z. apply wp_raise. exists [], [], w. split; auto. left.
        repeat split; auto using calls_refl. { rewrite SC0. apply unclosed_nil. lia. }
        exists u0, [], w. split; [reflexivity|]. split; [|left; repeat split; lia].
        destruct m; [subst u0; constructor| |congruence]. rewrite <- (app_nil_r u0). apply Hu0. constructor. }
    destruct (is_nest_start cc (it_ch x)) eqn:E1.
    { (* a nest *)
      apply wp_bind. unfold incr_depth, wp. cbn [ast ps_depth ps_strm ps_alloc].
      destruct (d <? umax)%N; [|exact I]. cbn [fst snd].
      change (wp (bind (finally (parse_nested umax cc so co ao bnd fuel) decr_depth)
        (fun r => match r with Some d0 => ret (Some d0)
                  | None => parse_next umax cc so co ao bnd fuel m end))
        (next_means m d (u0 ++ x :: r0) w) (ast (x :: r0) [] (d + 1) w)).
      apply wp_bind, wp_finally.
      eapply wp_mono; [apply IHd; [lia|exact E1]|].
      assert (DEC : forall r1 p1 w1 (Q : res (error Pos CE) unit -> st -> Prop),
        Q (Ok tt) (ast r1 p1 d w1) -> wp decr_depth Q (ast r1 p1 (d + 1) w1)).
      { intros r1 p1 w1 Q HQ. unfold wp, decr_depth. cbn [ast ps_depth].
        replace (0 <? d + 1)%N with true by (symmetry; apply N.ltb_lt; lia). cbn.
        replace (d + 1 - 1)%N with d by lia. exact HQ. }
      intros [o|e| |] s'; auto.
      - intros (u & r' & w' & -> & Eu & Hn). apply DEC.
        destruct o as [dat|].
        + apply wp_ret. exists (u0 ++ u), r', w'. rewrite Eu. rewrite <- app_assoc.
          repeat split; auto.
          * rewrite SC0. eapply scan_nest; eauto.
          * assert (FB : forall e, forms e false w u [dat] w' false).
            { intros e. rewrite <- (app_nil_r u). eapply f_nest; eauto. constructor. }
            destruct m; [| |congruence].
            -- subst u0. exists false. split; [apply FB|discriminate].
            -- right. exists u0, u, w, false. repeat split; [|apply h_nest; auto|discriminate].
               rewrite <- (app_nil_r u0). apply Hu0. constructor.
        + eapply wp_mono; [apply IHn; auto|].
          intros [[y|]|e| |] s'; auto.
          * intros (v & r2 & w2 & -> & Ev & Hsc & HM). exists (u0 ++ u ++ v), r2, w2.
            rewrite Eu, Ev. rewrite <- !app_assoc. repeat split; auto.
            { rewrite SC0. rewrite <- Ev. erewrite scan_nest by eauto. auto. }
            destruct m; [| |congruence].
            -- subst u0. destruct HM as (b & HF & HB). exists b. split; auto.
               cbn. eapply f_removed; eauto.
            -- destruct HM as [(-> & HM & l & h & z & t & -> & Hl & Hh & Hz)|(l & h & w1 & tx & -> & Hl & Hh & Htx)];
                 [left; split; [auto|split; [eapply calls_trans; [eapply calls_nest; eauto|exact HM]|]]|right].
               { exists (u0 ++ u ++ l), h, z, t. rewrite <- !app_assoc. repeat split; auto.
                 apply Hu0. eapply l_removed; eauto. }
               exists (u0 ++ u ++ l), h, w1, tx. rewrite <- !app_assoc. repeat split; auto.
               apply Hu0. eapply l_removed; eauto.
          * intros (v & r2 & w2 & -> & Ev & Hsc & HM). exists (u0 ++ u ++ v), r2, w2.
            rewrite Eu, Ev. rewrite <- !app_assoc. repeat split; auto.
            destruct m; [| |congruence].
            -- subst u0. cbn. eapply f_removed; eauto.
            -- apply Hu0. eapply l_removed; eauto.
          * intros (r2 & p2 & w2 & -> & HE). exists r2, p2, w2. split; auto.
            rewrite Eu. destruct HE as [(-> & -> & HE & HC & v & s & w1 & -> & Hv & Hs)|[(Hd0 & -> & v & y & ds & b & -> & HF & Hds & Hy & He)|(-> & v & s & w1 & -> & HE & HC)]].
            -- left. repeat split; auto.
               ++ rewrite SC0. erewrite scan_nest by eauto. auto.
               ++ eapply calls_trans; [eapply calls_nest; eauto|exact HC].
               ++ exists (u0 ++ u ++ v), s, w1. rewrite <- !app_assoc. split; auto. split; auto.
                  destruct m; [| |congruence].
                  ** subst u0. cbn. eapply f_removed; eauto.
                  ** apply Hu0. eapply l_removed; eauto.
            -- right. left. repeat split; auto. exists (u0 ++ u ++ v), y, ds, b.
               rewrite <- !app_assoc. repeat split; auto.
               destruct m; [subst u0; cbn; eapply f_removed; eauto| |congruence].
               specialize (Hd eq_refl). lia.
            -- right. right. split; auto. exists (u0 ++ u ++ v), s, w1.
               rewrite <- !app_assoc. repeat split; auto.
               destruct m; [| |congruence].
               ++ subst u0. cbn. eapply f_removed; eauto.
               ++ apply Hu0. eapply l_removed; eauto.
      - intros (r' & p' & w' & -> & HE). apply DEC. exists r', p', w'. split; auto.
        destruct HE as [(-> & -> & HE & HC & HN)|(-> & s & Ev & HE)].
        + left. repeat split; auto.
          { rewrite SC0. replace (d + 1 - 1)%N with d in HE by lia. auto. }
          exists u0, (x :: r0), w. repeat split; auto. destruct m; [subst u0; constructor| |congruence].
          rewrite <- (app_nil_r u0). apply Hu0. constructor.
        + right. right. split; auto. exists u0, s, w. rewrite Ev. repeat split; auto.
          destruct m; [subst u0; constructor| |congruence].
          rewrite <- (app_nil_r u0). apply Hu0. constructor. }
    destruct (is_nest_end cc (it_ch x)) eqn:E2.
    { apply wp_bind, wp_get_depth. cbn [ast ps_depth]. unfold check_end_char.
      apply wp_bind, wp_bind, wpa_peek. cbn [hd_error]. apply wp_bind, wp_assert; [exact E2|].
      destruct (0 <? d)%N eqn:Z.
      - apply N.ltb_lt in Z. apply wp_ret, wp_ret. exists u0, (x :: r0), w.
        repeat split; auto.
        + right. split; auto. eauto.
        + destruct m; [subst; constructor| |congruence].
          rewrite <- (app_nil_r u0). apply Hu0. constructor.
      - apply N.ltb_ge in Z. apply wp_bind, wpa_next. cbn [hd_error tl]. apply wp_raise.
        exists r0, [], w. split; auto. right. left. split; [lia|]. split; auto.
        destruct m; [| |congruence].
        + subst u0. exists [], x, [], false. repeat split; auto. constructor.
        + specialize (Hd eq_refl). lia. }
    (* a text *)
    apply wp_bind. unfold parse_text.
    eapply wp_mono; [apply text_loop_spec; exact Hm|].
    intros [t|e| |] s'; try contradiction; auto.
    + intros (u & c & r' & -> & -> & HT). apply wp_ret.
      pose proof (text_ok_scan d HT) as HSC. destruct HT as (Eu & HT). cbn [app].
      assert (NE : u <> []).
      { intros ->. cbn in Eu. subst r'.
        destruct HT as [[_ HT]|(HT & _)]; [|discriminate]. cbn in HT.
        destruct HT as [HT _]. unfold stop_of, operator_delimiter, delimiter in HT.
        destruct m; rewrite E1, E2 in HT; cbn in HT; try discriminate.
        rewrite !orb_false_r in HT. apply (Hw eq_refl). exact HT. }
      exists (u0 ++ u), r', w. rewrite Eu, <- app_assoc. repeat split; auto.
      { rewrite SC0. congruence. }
      destruct m; [| |congruence].
      * subst u0. cbn. exists true. destruct HT as [[HT HS]|(-> & u' & y & -> & Hy & HT)].
        -- split; auto. rewrite <- (app_nil_r u). eapply f_text; eauto. constructor.
        -- split; [cbn; apply f_dangling; auto|intros; exact I].
      * destruct HT as [[HT HS]|(-> & u' & y & -> & Hy & HT)]; [right|left].
        2:{ split; auto. split; [apply calls_refl|]. exists u0, u', y, c. repeat split; auto.
            rewrite <- (app_nil_r u0). apply Hu0. constructor. }
        exists u0, u, w, true. repeat split; auto.
        -- rewrite <- (app_nil_r u0). apply Hu0. constructor.
        -- apply h_text; auto.
    + intros (-> & Hd0 & u & c & y & r' & -> & Eu & HR & Hy & He). subst u0. cbn.
      exists r', [], w. split; auto. right. left. repeat split; auto.
      destruct u as [|z u].
      * exists [], y, [], false. repeat split; auto. constructor.
      * exists (z :: u), y, [DText c], true. repeat split; eauto.
        rewrite <- (app_nil_r (z :: u)). eapply f_text; eauto; [discriminate|constructor].
  - (* parse_nested *)
    intros x r d w Hd Hx. cbn [parse_nested]. apply wp_bind, wpa_next. cbn [hd_error tl].
    apply wp_bind, wp_assert; [exact Hx|]. apply wp_bind.
    assert (SCX : forall r1, scn false (d - 1) (x :: r1) = scn false d r1).
    { intros r1. rewrite scan_start by auto. f_equal. lia. }
    eapply wp_mono; [apply IHn; [discriminate|auto]|].
    intros [[op|]|e| |] s'; auto.
    3:{ intros (r' & p' & w' & -> & HE). exists r', p', w'. split; auto.
        destruct HE as [(-> & -> & HE & HC & v & s & w1 & -> & Hv & Hs)|[(Hd0 & _)|(-> & v & s & w1 & -> & HE & HL)]]; [| lia |].
        - left. repeat split; auto; [rewrite SCX; auto|].
          destruct Hs as [(-> & -> & _)|Hs]; [rewrite app_nil_r; apply uc_lead; auto|eapply uc_operator; eauto].
        - right. split; auto. exists (x :: v ++ s). cbn. rewrite <- app_assoc. split; auto.
          eapply fails_operator; eauto. }
    2:{ (* empty nest *)
        intros (l & r2 & w2 & -> & -> & HR & HL).
        destruct HR as [(? & _)|(_ & y & r3 & -> & Hy)]; [lia|].
        apply wp_bind, wpa_peek. cbn [hd_error].
        assert (is_whitespace cc (it_ch y) = false) as -> by (apply (dc_end DC _ Hy)).
        apply wp_bind, wp_ret. unfold nest_end. apply wp_bind, wp_bind, wpa_next. cbn [hd_error tl].
        apply wp_assert; [exact Hy|]. apply wp_ret.
        exists (x :: l ++ [y]), r3, w2. cbn. rewrite <- app_assoc. repeat split; auto.
        apply n_empty; auto. }
    intros (u & r2 & w2 & -> & -> & HSC & HM).
    apply wp_bind, wpa_peek. apply wp_bind.
    (* separator *)
    assert (SEP : wp (CE:=CE) (match hd_error r2 with
        | Some it => if is_whitespace cc (it_ch it)
                     then bind (next so) (fun _ => ret tt) else ret tt
        | None => ret tt end)
        (fun res s' => res = Ok tt /\ exists sp r3, s' = ast r3 [] d w2 /\ r2 = sp ++ r3 /\
           ((exists z, sp = [z] /\ white cc z) \/
            (sp = [] /\ match r3 with [] => True | z :: _ => ~ white cc z end)))
        (ast r2 [] d w2)).
    { destruct r2 as [|z r2]; cbn [hd_error].
      - apply wp_ret. split; auto. exists [], []. auto.
      - destruct (is_whitespace cc (it_ch z)) eqn:Ez.
        + apply wp_bind, wpa_next. apply wp_ret. split; auto. exists [z], r2.
          repeat split; auto. left. eauto.
        + apply wp_ret. split; auto. exists [], (z :: r2). repeat split; auto. right.
          split; auto. unfold white. congruence. }
    eapply wp_mono; [exact SEP|]. clear SEP. intros ? s' (-> & sp & r3 & -> & -> & HSP).
    assert (SC3 : scn false (d - 1) (x :: u ++ sp ++ r3) = scn false d r3).
    { rewrite SCX, HSC. destruct HSP as [(z & -> & Hz)|(-> & _)]; auto.
      cbn [app]. apply scan_white; auto. }
    (* the separator, once the body is known *)
    assert (SEPOK : forall tx body y r4, r3 = body ++ y :: r4 -> ends cc y ->
       match body with [] => True | z :: _ => ~ ends cc z end ->
       (tx = true -> text_stop Operator d (sp ++ r3)) -> sep cc tx sp body).
    { intros tx body y r4 E3 Hy Hb Htx. destruct HSP as [HSP|(-> & HSP)]; [left; auto|right].
      split; auto. destruct body as [|z body]; auto. cbn in E3. rewrite E3 in HSP, Htx.
      destruct tx; [|exact HSP]. specialize (Htx eq_refl). cbn in Htx. destruct Htx as [Htx _].
      unfold operator_delimiter, delimiter in Htx. unfold white in HSP.
      apply not_true_is_false in HSP. rewrite HSP in Htx. cbn in Htx.
      apply orb_true_iff in Htx. destruct Htx as [Htx|Htx]; [exact Htx|].
      contradiction. }
    assert (C2 : calls w w2).
    { destruct HM as [(_ & HM & _)|(l & h & w1 & tx & -> & Hl & Hh & Htx)]; [exact HM|].
      eapply calls_trans; [eapply calls_lead; eauto|eapply calls_head; eauto]. }
    (* errors after the operator *)
    assert (ERR3 : forall e s', (exists r' p' w', s' = ast r' p' d w' /\
        ((e = MissingEndChar /\ r' = [] /\ scn false d r3 = Unclosed /\ calls w2 w' /\ rest_missing (bnd op) w2 r3 w') \/
         (p' = [] /\ match bnd op with Some (Operative _) => False | _ => True end /\
          exists u s w1 ds b, r3 = u ++ s ++ r' /\ forms false false w2 u ds w1 b /\ fails w1 s e w'))) ->
        nested_means d (x :: u ++ sp ++ r3) w (Err e) s').
    { intros e s' (r' & p' & w' & -> & HE). exists r', p', w'. split; auto.
      destruct HE as [(-> & -> & HE & HC & HN)|(-> & HB & v & s & w1 & ds & b & -> & HF & HE)].
      - left. repeat split; auto; [congruence|eapply calls_trans; eauto|].
        destruct HM as [(HM & _ & l & h & z & t & -> & Hl & Hh & Hz)|(l & h & w3 & tx & -> & Hl & Hh & Htx)].
        { apply app_eq_nil in HM. destruct HM as [-> ->]. apply rest_missing_nil in HN. subst w'.
          rewrite !app_nil_r. eapply uc_dangling; eauto. }
        assert (HS : sep cc tx sp r3).
        { destruct HSP as [HSP|(-> & HSP)]; [left; exact HSP|right]. split; [reflexivity|].
          pose proof (rest_missing_hd _ _ _ _ HN) as NE. cbn [app] in Htx.
          destruct r3 as [|y q]; [exact I|]. destruct tx; [|exact HSP].
          specialize (Htx eq_refl). cbn in Htx. destruct Htx as [Htx _].
          unfold operator_delimiter, delimiter in Htx. unfold white in HSP.
          apply not_true_is_false in HSP. rewrite HSP in Htx. cbn in Htx.
          apply orb_true_iff in Htx. destruct Htx as [Htx|Htx]; [exact Htx|]. contradiction. }
        rewrite <- app_assoc. unfold rest_missing in HN.
        assert (CASES : (exists f, bnd op = Some (Operative f) /\ w' = w2 /\ no_unmatched 0 r3) \/
                        (match bnd op with Some (Operative _) => False | _ => True end /\ all_missing w2 r3 w')).
        { destruct (bnd op) as [[f|f]|]; [left; exists f; tauto|right; auto|right; auto]. }
        destruct CASES as [(f & HB & -> & HU)|(HB & v & s & w1 & ds & b & -> & [(-> & HF)|(HF & Hs)])].
        + eapply uc_operative; eauto.
        + rewrite app_nil_r in *. eapply uc_operands; eauto.
        + eapply uc_operand; eauto.
      - right. split; auto. destruct (fails_cons HE) as (z & s0 & Es & Hz).
        destruct HM as [[HM _]|(l & h & w3 & tx & -> & Hl & Hh & Htx)].
        { exfalso. apply app_eq_nil in HM. destruct HM as [_ HM]. apply app_eq_nil in HM. destruct HM as [_ HM].
          apply app_eq_nil in HM. destruct HM as [HM _]. subst s. discriminate. }
        exists (x :: l ++ h ++ sp ++ v ++ s). cbn. rewrite <- !app_assoc. split; auto.
        eapply fails_operand with (body := v); eauto.
        destruct HSP as [HSP|(-> & HSP)]; [left; exact HSP|right]. split; [reflexivity|].
        assert (Hne : forall q, match v ++ s with [] => True | y :: _ => if tx then starts cc y else ~ white cc y end
                      <-> match v ++ s ++ q with [] => True | y :: _ => if tx then starts cc y else ~ white cc y end).
        { intros q. subst s. destruct v; reflexivity. }
        rewrite (Hne r'). cbn [app] in Htx.
        assert (NE : match v ++ s ++ r' with [] => True | y :: _ => ~ ends cc y end).
        { subst s. destruct v as [|v0 v].
          - cbn. unfold ends. destruct (dc_start DC _ Hz). congruence.
          - cbn. exact (forms_hd_not_end DC HF). }
        destruct (v ++ s ++ r') as [|y q]; [exact I|]. destruct tx; [|exact HSP].
        specialize (Htx eq_refl). cbn in Htx. destruct Htx as [Htx _].
        unfold operator_delimiter, delimiter in Htx. unfold white in HSP.
        apply not_true_is_false in HSP. rewrite HSP in Htx. cbn in Htx.
        apply orb_true_iff in Htx. destruct Htx as [Htx|Htx]; [exact Htx|]. contradiction. }
    (* the end of a nest *)
    assert (END : forall y r4 w4 (k : M (S:=@abs_state Pos) (A:=W) (Pos:=Pos) (CE:=CE) (option (datum text ET))) Q,
       ends cc y -> wp k Q (ast r4 [] d w4) ->
       wp (bind (nest_end cc so) (fun _ => k)) Q (ast (y :: r4) [] d w4)).
    { intros y r4 w4 k Q Hy HQ. unfold nest_end. apply wp_bind, wp_bind, wpa_next. cbn [hd_error tl].
      apply wp_assert; auto. }
    assert (NOEND : forall (k : M (S:=@abs_state Pos) (A:=W) (Pos:=Pos) (CE:=CE) (option (datum text ET))) w4,
       scn false d r3 = Unclosed -> calls w2 w4 -> rest_missing (bnd op) w2 r3 w4 ->
       wp (bind (nest_end cc so) (fun _ => k)) (nested_means d (x :: u ++ sp ++ r3) w) (ast [] [] d w4)).
    { intros k w4 HU HC HN. unfold nest_end. apply wp_bind, wp_bind, wpa_next. cbn [hd_error tl].
      apply wp_raise. apply ERR3. exists [], [], w4. split; auto. left. repeat split; auto. }
    assert (R2 : r3 <> [] -> sp ++ r3 <> []).
    { intros H E. apply app_eq_nil in E. tauto. }
    assert (NIL3 : r3 = [] -> scn false d r3 = Unclosed).
    { intros ->. apply unclosed_nil; auto. }
    destruct (bnd op) as [[f|f]|] eqn:EB.
    + (* operative *)
      apply wp_bind. unfold parse_text.
      eapply wp_mono; [apply (operands_loop_spec fuel [] 0); exact Hd|].
      intros [t|e| |] s'; auto.
      * intros (v & c & r4 & -> & -> & E4 & HSC4 & HQ). rewrite N.add_0_r in HSC4.
        destruct HQ as [[-> HU]|(HQ & y & r5 & -> & Hy)].
        { apply NOEND; [rewrite HSC4; apply unclosed_nil; auto|apply calls_refl|split; auto]. }
        apply END; auto. cbn [app].
        destruct HM as [[HM _]|(l & h & w1 & tx & -> & Hl & Hh & Htx)].
        { exfalso. apply R2 in HM; auto. rewrite E4. destruct v; discriminate. }
        destruct (f op c w2) as [o w3] eqn:EF. eapply wpa_call; [exact EF|].
        apply qn_quoted in HQ.
        assert (HS : sep cc tx sp v).
        { eapply SEPOK; eauto. destruct HQ as [|z ? ? Hz| z ? ? ? Hz|z ? ? ? ? ? Hz]; auto; intros Ez.
          - unfold delimiter in Hz. unfold ends in Ez. rewrite Ez, orb_true_r in Hz. discriminate.
          - unfold ends, escapes in *. destruct (dc_end DC _ Ez). congruence.
          - unfold ends, starts in *. destruct (dc_start DC _ Hz). congruence. }
        assert (HN : nest w (x :: l ++ h ++ sp ++ v ++ [y]) o w3).
        { eapply n_operative; eauto. }
        assert (E : x :: (l ++ h) ++ sp ++ r3 = (x :: l ++ h ++ sp ++ v ++ [y]) ++ r5).
        { rewrite E4. cbn. rewrite <- !app_assoc. reflexivity. }
        destruct o as [o|e].
        -- exists (x :: l ++ h ++ sp ++ v ++ [y]), r5, w3. auto.
        -- exists r5, [], w3. split; auto. right. split; auto.
           exists (x :: l ++ h ++ sp ++ v ++ [y]). auto using fails_here.
      * intros (-> & p' & -> & HE & HU). rewrite N.add_0_r in HE. apply ERR3.
        exists [], p', w2. split; auto. left. repeat split; auto using calls_refl.
    + (* applicative *)
      apply wp_bind. eapply wp_mono; [apply IHa; exact Hd|].
      intros [t|e| |] s'; auto.
      2:{ intros (r' & p' & w' & -> & HE). apply ERR3. exists r', p', w'. split; auto.
          destruct HE as [HE|(-> & HE)]; [left; exact HE|right]. auto. }
      intros (v & r4 & w3 & ds & b & -> & E4 & HF & -> & y & r5 & -> & Hy).
      apply END; auto.
      destruct HM as [[HM _]|(l & h & w1 & tx & -> & Hl & Hh & Htx)].
      { exfalso. apply R2 in HM; auto. rewrite E4. destruct v; discriminate. }
      destruct (f op (dlist ds) w3) as [o w4] eqn:EF. eapply wpa_call; [exact EF|].
      assert (HS : sep cc tx sp v).
      { eapply SEPOK; eauto. eapply forms_hd_not_end; eauto. }
      assert (HN : nest w (x :: l ++ h ++ sp ++ v ++ [y]) o w4).
      { eapply n_applicative; eauto. }
      assert (E : x :: (l ++ h) ++ sp ++ r3 = (x :: l ++ h ++ sp ++ v ++ [y]) ++ r5).
      { rewrite E4. cbn. rewrite <- !app_assoc. reflexivity. }
      destruct o as [o|e].
      * exists (x :: l ++ h ++ sp ++ v ++ [y]), r5, w4. auto.
      * exists r5, [], w4. split; auto. right. split; auto.
        exists (x :: l ++ h ++ sp ++ v ++ [y]). auto using fails_here.
    + (* unbound *)
      apply wp_bind. eapply wp_mono; [apply IHa; exact Hd|].
      intros [t|e| |] s'; auto.
      2:{ intros (r' & p' & w' & -> & HE). apply ERR3. exists r', p', w'. split; auto.
          destruct HE as [HE|(-> & HE)]; [left; exact HE|right]. auto. }
      intros (v & r4 & w3 & ds & b & -> & E4 & HF & -> & y & r5 & -> & Hy).
      apply END; auto.
      destruct HM as [[HM _]|(l & h & w1 & tx & -> & Hl & Hh & Htx)].
      { exfalso. apply R2 in HM; auto. rewrite E4. destruct v; discriminate. }
      apply wp_bind, wpa_new_datum. apply wp_bind, wpa_new_datum. apply wp_ret.
      assert (HS : sep cc tx sp v).
      { eapply SEPOK; eauto. eapply forms_hd_not_end; eauto. }
      exists (x :: l ++ h ++ sp ++ v ++ [y]), r5, w3. repeat split; auto.
      * rewrite E4. cbn. rewrite <- !app_assoc. reflexivity.
      * eapply n_unbound; eauto.
  - (* parse_all *)
    intros r d w Hd. cbn [parse_all]. apply wp_bind.
    eapply wp_mono; [apply IHn; [discriminate|auto]|].
    intros [[y|]|e| |] s'; auto.
    + intros (u & r' & w' & -> & -> & HSC & b & HF & HB).
      apply wp_bind, wpa_new_datum. apply wp_bind, wpa_new_datum. apply wp_bind.
      unfold wp at 1. cbn [fst snd a_get_mut abs_alloc]. apply wp_bind.
      eapply wp_mono; [apply IHa; exact Hd|].
      intros [t|e| |] s'; auto.
      * intros (v & r4 & w3 & ds & b' & -> & -> & HF' & -> & z & r5 & -> & Hz).
        apply wp_ret. exists (u ++ v), (z :: r5), w3, (y :: ds).
        assert (AE : at_end (v ++ z :: r5) = false) by (destruct v; reflexivity).
        rewrite AE in HF.
        destruct v as [|a v].
        { inversion HF' as [| ? ? ? ? ? ? ? ? Hne ? ? E | | | ]; subst; rewrite ?app_nil_r in *.
          - exists b. repeat split; eauto.
          - destruct s; [congruence|discriminate].
          - destruct (nest_cons H) as (? & ? & -> & _). discriminate.
          - destruct (nest_cons H) as (? & ? & -> & _). discriminate. }
        exists b'. rewrite <- app_assoc. repeat split; eauto.
        change (y :: ds) with ([y] ++ ds). eapply forms_app; [exact HF|].
        destruct b; [|exact HF'].
        apply forms_after_text; auto; [|discriminate].
        specialize (HB eq_refl). cbn in HB. apply HB.
      * intros (r3 & p' & w1 & -> & HE). exists r3, p', w1. split; auto.
        destruct HE as [(-> & -> & HE & HC & HN)|(-> & v & s & w2 & ds & b' & -> & HF' & HE)].
        -- left. repeat split; auto; [congruence|eapply calls_trans; [eapply calls_forms; eauto|exact HC]|].
           destruct r' as [|a r'].
           { apply all_missing_nil in HN. subst w1. rewrite app_nil_r. exists u, [], w', [y], b.
             rewrite app_nil_r. auto. }
           cbn [at_end] in HF. destruct HN as (v & s & w2 & ds & b' & E & HN).
           assert (AF : forall eof w3, v <> [] -> forms eof false w' v ds w3 b' -> forms eof false w (u ++ v) (y :: ds) w3 b').
           { intros eof w3 Hne HF'. change (y :: ds) with ([y] ++ ds). eapply forms_app; [exact HF|].
             destruct b; [|exact HF']. apply forms_after_text; auto.
             specialize (HB eq_refl). rewrite E in HB. destruct v; [congruence|]. cbn in HB. apply HB. }
           rewrite E. destruct HN as [(-> & HF')|(HF' & Hs)].
           { exists (u ++ v), [], w', (y :: ds), b'. rewrite !app_nil_r. split; auto. left. split; auto.
             apply AF; auto. intros ->. discriminate. }
           destruct v as [|a' v].
           { destruct (forms_nil_inv HF') as (-> & -> & ->). exists u, s, w', [y], b. auto. }
           exists (u ++ a' :: v), s, w2, (y :: ds), b'. rewrite <- app_assoc. split; auto. right. split; auto.
           apply AF; auto. discriminate.
        -- right. split; auto. destruct (fails_cons HE) as (z & s0 & Es & Hz).
           exists (u ++ v), s, w2, (y :: ds).
           assert (AE : at_end (v ++ s ++ r3) = false) by (subst s; destruct v; reflexivity).
           rewrite AE in HF.
           destruct v as [|a v].
           { destruct (forms_nil_inv HF') as (-> & -> & ->). exists b. rewrite app_nil_r. auto. }
           exists b'. rewrite <- app_assoc. repeat split; eauto.
           change (y :: ds) with ([y] ++ ds). eapply forms_app; [exact HF|].
           destruct b; [|exact HF'].
           apply forms_after_text; auto; [|discriminate].
           specialize (HB eq_refl). cbn in HB. apply HB.
    + intros (u & r' & w' & -> & -> & HR & HF). apply wp_ret.
      destruct HR as [(? & _)|(_ & HR)]; [lia|].
      exists u, r', w', [], false. auto.
    + intros (r' & p' & w' & -> & HE). exists r', p', w'. split; auto.
      destruct HE as [(-> & -> & HE & HC & u & s & w1 & -> & HF & HN)|[(? & _)|(-> & u & s & w1 & -> & HE & HF)]]; [|lia|].
      { left. repeat split; auto. exists u, s, w1, [], false. split; auto.
        destruct HN as [(-> & -> & _)|HN]; [left; split; auto using forms_eof|right; auto]. }
      right. split; auto. exists u, s, w1, [], false. auto.
Qed.

End AbsParse.
