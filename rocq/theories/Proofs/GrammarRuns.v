(** Rendering, canonical shape, kept characters and balance for lawful
    configurations and [parse_str]. *)
From Coq Require Import List NArith Arith Bool Lia.
From Verif.Model Require Import Prelude Parser Iter Utf8 Chunk TextIter PosStr PosStrish
  TextVec TextDatumList CharIter StrishIter Alloc DefaultClassifier TextMethods DatumMethods Bindings Premade.
From Verif.Spec Require Import Contract ChunkContract Grammar Balance AbsStream Lawful Run Canonical Render Kept.
From Verif.Proofs Require Import Wp Sim Refine ChunkFacts TextFacts AbsParse AbsIter Compose Transfer Instances
  PremadeFacts Concrete RunFacts RenderFacts CanonFacts ClassifierFacts Complete.
Import ListNotations.
Set Implicit Arguments.
Local Notation N_len r := (N.of_nat (length r)).

(** Where the first unmatched nest end is. *)
Lemma scan_unmatched_iff {Pos} cc (DC : disjoint_classes cc) (p : Pos) : forall s e d,
  scan cc e d s = Unmatched p <->
  exists u x v, s = u ++ x :: v /\ p = it_pos x /\ ends cc x /\ esc_after cc e u = false /\ scan cc e d u = Balanced.
Proof.
  induction s as [|y s IH]; intros e d.
  - cbn. split; [destruct (d =? 0)%N; discriminate|]. intros (u & x & v & E & _). destruct u; discriminate.
  - assert (J : forall e' d', (forall u, scan cc e d (y :: u) = scan cc e' d' u) ->
      (forall u, esc_after cc e (y :: u) = esc_after cc e' u) ->
      (e = false -> ~ (ends cc y /\ d = 0%N)) ->
      (scan cc e d (y :: s) = Unmatched p <->
       exists u x v, y :: s = u ++ x :: v /\ p = it_pos x /\ ends cc x /\ esc_after cc e u = false /\ scan cc e d u = Balanced)).
    { intros e' d' H1 H2 H3. rewrite H1, IH. split.
      - intros (u & x & v & -> & Hp & Hx & He & Hd). exists (y :: u), x, v.
        rewrite H1, H2. auto.
      - intros (u & x & v & E & Hp & Hx & He & Hd). destruct u as [|z u].
        + injection E as -> ->. exfalso. cbn in He, Hd. subst e. apply (H3 eq_refl). split; [exact Hx|].
          destruct (N.eqb_spec d 0); congruence.
        + injection E as -> ->. exists u, x, v. rewrite H1 in Hd. rewrite H2 in He. auto. }
    destruct e; [apply (J false d); [reflexivity|reflexivity|discriminate]|].
    destruct (is_nest_escape cc (it_ch y)) eqn:E1.
    { apply (J true d); [intros; cbn; rewrite E1; reflexivity..|].
      intros _ [Hy _]. destruct (ends_facts DC Hy) as (_ & _ & ? & _). congruence. }
    destruct (is_nest_start cc (it_ch y)) eqn:E2.
    { apply (J false (d + 1)%N); [intros; cbn; rewrite E1, ?E2; reflexivity..|].
      intros _ [Hy _]. destruct (ends_facts DC Hy) as (? & _). congruence. }
    destruct (is_nest_end cc (it_ch y)) eqn:E3.
    + destruct (N.eqb_spec d 0) as [->|Hd].
      * cbn. rewrite E1, E2, E3. cbn. split.
        -- intros H. injection H as <-. exists [], y, s. repeat split; auto.
        -- intros (u & x & v & E & Hp & Hx & He & Hd). destruct u as [|z u].
           ++ injection E as <- <-. subst. reflexivity.
           ++ injection E as <- ->. exfalso. cbn in Hd. rewrite E1, E2, E3 in Hd. cbn in Hd. discriminate.
      * apply (J false (d - 1)%N); [intros; cbn; rewrite E1, ?E2, ?E3; try reflexivity..|].
        -- apply N.eqb_neq in Hd. rewrite Hd. reflexivity.
        -- intros _ [_ ?]. contradiction.
    + apply (J false d); [intros; cbn; rewrite E1, ?E2, ?E3; reflexivity..|].
      intros _ [Hy _]. unfold ends in Hy. congruence.
Qed.

Lemma balance_unmatched_iff {Pos} cc (DC : disjoint_classes cc) s (p : Pos) :
  balance cc s = Unmatched p <->
  exists u x v, s = u ++ x :: v /\ p = it_pos x /\ ends cc x /\ esc_after cc false u = false /\ balance cc u = Balanced.
Proof. apply scan_unmatched_iff. exact DC. Qed.

Section LawfulRun.
Context {S A TT ET Pos CE W AE AC : Type}.
Context (umax : N) (cc : classifier) (so : stream_ops S A TT Pos) (co : concat_ops A TT)
        (ao : alloc_ops A TT ET) (bnd : bindings A TT ET Pos CE).
Local Notation text := (list (item Pos)).
Context (view : A -> W) (abnd : bindings W text AE Pos AC).
Context (Rs : S -> text -> text -> Prop) (Rt : TT -> text -> Prop)
        (Rx : ET -> AE -> Prop) (Rc : CE -> AC -> Prop).
Local Notation Ri := (pitem_rel Rt Rx (@eq Pos) Rc).
Local Notation iterates := (iterates umax cc so co ao bnd).
Context (LW : lawful False view so co ao bnd abnd Rs Rt Rx Rc) (DC : disjoint_classes cc).

Lemma iterates_escaped k st s w u : delimiters_of cc k -> starts_on Rs view st s w -> (N_len s <= umax)%N ->
  u <> [] -> map it_ch s = escape_text cc k u ->
  exists t l st', iterates st [inl (DText t)] st' /\ Rt t l /\ map it_ch l = u /\ view (ps_alloc st') = w.
Proof.
  intros DK H Hu Hn E. destruct (escape_input abnd s w DK Hn E) as (l & Hi & Hl).
  destruct (iterates_complete LW DC H Hu Hi) as (ds & st' & He & Hd & Hw).
  inversion Hd as [|d ad ? ? Hda Hnil]; subst. inversion Hnil; subst.
  destruct d; cbn in Hda; try contradiction. exists t, l, st'. auto.
Qed.

Context (NB : forall d, abnd d = None).

Lemma iterates_rendered k st s w ds : delimiters_of cc k -> starts_on Rs view st s w -> (N_len s <= umax)%N ->
  canon_seq false ds -> map it_ch s = render_all cc k ds ->
  exists ds' st', iterates st (map inl ds') st' /\
    Forall2 (datum_rel (fun t u => exists l, Rt t l /\ map it_ch l = u) Rx) ds' ds /\ view (ps_alloc st') = w.
Proof.
  intros DK H Hu Hc E. destruct (render_input abnd DK NB _ w Hc E) as (ads & Hi & Hd).
  destruct (iterates_complete LW DC H Hu Hi) as (ds' & st' & He & Hd' & Hw).
  exists ds', st'. split; [exact He|]. split; [|exact Hw].
  eapply Forall2_trans; [|exact Hd'|exact Hd]. intros x y z. apply datum_rel_trans.
  - intros t u v H1 H2. exists u. auto.
  - intros t u v H1 <-. exact H1.
Qed.

Lemma iterates_canon st s w items st' : starts_on Rs view st s w -> iterates st items st' ->
  exists aitems, Forall2 Ri items aitems /\ canon_items aitems.
Proof.
  intros H E. destruct (iterates_abstract LW H E) as (aitems & ast' & (n & f & Ea) & Hi & _).
  exists aitems. split; [exact Hi|]. eapply items_canon; eauto.
Qed.

Lemma iterates_kept st s w ds st' : starts_on Rs view st s w -> iterates st (map inl ds) st' ->
  exists ads, Forall2 (datum_rel Rt Rx) ds ads /\ flat_map (@texts_of _ _) ads = kept cc s.
Proof.
  intros H E. destruct (iterates_sound LW _ DC H E) as (ads & Hi & Hd).
  exists ads. split; [exact Hd|]. eapply kept_input; eauto.
Qed.
End LawfulRun.

(** [parse_str]. *)
Section ParseStr.
Context {W ET CE : Type} (ET_eq : ET -> ET -> bool) (ET_hash : ET -> list hash_word)
        (hasher : list hash_word -> N) (XH : forall a b, ET_eq a b = true -> ET_hash a = ET_hash b).
Local Notation im_ops := (im_ops (W:=W)).
Local Notation run := (parse_str (CE:=CE) ET_eq ET_hash hasher).
Local Notation reads := (reads posstr_ops im_ops).
Local Notation reads_chars := (reads_chars posstr_ops im_ops).
Local Notation no_bindings := (abs_lookup (W:=W) (Pos:=strpos) (AC:=CE) ET_eq []).

Lemma str_bindings_nil : str_bindings (W:=W) (ET:=ET) (CE:=CE) [] [].
Proof. constructor. Qed.

Lemma parse_str_escaped u (w : W) : u <> [] -> (N_len (escape_text default_classifier default_delimiters u) <= usize_max)%N ->
  exists t st, run (escape_text default_classifier default_delimiters u) w = (Ok [inl (DText t)], Some st) /\
    reads_chars t u /\ ps_alloc st = w.
Proof.
  intros Hn Hu. set (s := escape_text default_classifier default_delimiters u) in *.
  destruct (escape_input no_bindings _ w default_delimiters_of Hn (str_source_ch s)) as (l & Hi & Hl).
  destruct (parse_str_complete ET_eq ET_hash hasher XH s str_bindings_nil default_disjoint Hu Hi) as (ds & st & E & Hd & Hw).
  inversion Hd as [|d ad ? ? Hda Hnil]; subst. inversion Hnil; subst.
  destruct d; cbn in Hda; try contradiction. exists t, st. split; [exact E|]. split; [exists l; auto|reflexivity].
Qed.

Lemma parse_str_rendered ds (w : W) : canon_seq false ds ->
  (N_len (render_all default_classifier default_delimiters ds) <= usize_max)%N ->
  exists ds' st, run (render_all default_classifier default_delimiters ds) w = (Ok (map inl ds'), Some st) /\
    Forall2 (datum_rel reads_chars eq) ds' ds /\ ps_alloc st = w.
Proof.
  intros Hc Hu. set (s := render_all default_classifier default_delimiters ds) in *.
  destruct (render_input no_bindings default_delimiters_of (fun _ => eq_refl) _ w Hc (str_source_ch s))
    as (ads & Hi & Hd).
  destruct (parse_str_complete ET_eq ET_hash hasher XH s str_bindings_nil default_disjoint Hu Hi) as (ds' & st & E & Hd' & Hw).
  exists ds', st. split; [exact E|]. split; [|exact Hw].
  eapply Forall2_trans; [|exact Hd'|exact Hd]. intros x y z. apply datum_rel_trans.
  - intros t v c H1 H2. exists v. auto.
  - intros t v c -> ->. reflexivity.
Qed.

Lemma upto_err_canon (items : list (datum (list (item strpos)) ET + error strpos CE)) :
  canon_items items -> canon_items (upto_err items).
Proof.
  assert (J : forall (ds : list (datum (list (item strpos)) ET)) (l : list (datum (list (item strpos)) ET + error strpos CE)),
    upto_err (map inl ds ++ l) = map inl ds ++ upto_err l).
  { induction ds as [|d ds IH]; intros l; cbn; [reflexivity|]. rewrite IH. reflexivity. }
  intros [ds H|ds H|ds p rest H _].
  - specialize (J ds []). rewrite app_nil_r in J. cbn in J. rewrite app_nil_r in J. rewrite J. apply ci_end, H.
  - rewrite J. apply ci_missing, H.
  - rewrite J. apply (ci_unbalanced p H (rest:=[])). apply (ci_end (ds:=[])). left. constructor.
Qed.

Lemma upto_err_rel (Ri : datum im_text ET + error strpos CE -> datum (list (item strpos)) ET + error strpos CE -> Prop) :
  (forall d e, ~ Ri (inl d) (inr e)) -> (forall d e, ~ Ri (inr e) (inl d)) ->
  forall l l', Forall2 Ri l l' -> Forall2 Ri (upto_err l) (upto_err l').
Proof.
  intros H1 H2 l l'. induction 1 as [|[d|e] [d'|e'] l l' H _ IH]; cbn; auto; exfalso; [eapply H1|eapply H2]; eauto.
Qed.

Lemma parse_str_canon input (w : W) : (N_len input <= usize_max)%N ->
  exists items st aitems, run input w = (Ok items, Some st) /\
    Forall2 (pitem_rel reads eq eq eq) items aitems /\ canon_items aitems.
Proof.
  intros Hu. destruct (str_starts input w) as (s & Es & Hs).
  destruct (parse_str_iterates ET_eq ET_hash hasher (CE:=CE) [] w Hu Es) as ((all & st' & E & st & Ep) & _).
  destruct (iterates_canon (str_lawful ET_eq ET_hash hasher XH str_bindings_nil) default_disjoint (fun _ => eq_refl) Hs E)
    as (aitems & Hi & Hc).
  exists (upto_err all), st, (upto_err aitems). split; [exact Ep|]. split; [|apply upto_err_canon, Hc].
  apply upto_err_rel; [intros ? ? []|intros ? ? []|]. eapply Forall2_mono; [|exact Hi].
  intros [d|e] [d'|e']; cbn; auto. apply (im_datum_reads posstr_any_contract).
Qed.

Lemma parse_str_kept input (w : W) ds st : (N_len input <= usize_max)%N -> run input w = (Ok (map inl ds), Some st) ->
  exists ads, Forall2 (datum_rel reads eq) ds ads /\
    flat_map (@texts_of _ _) ads = kept default_classifier (str_source input).
Proof.
  intros Hu E.
  destruct (parse_str_sound ET_eq ET_hash hasher XH input w _ str_bindings_nil default_disjoint Hu E) as (ads & Hi & Hd).
  exists ads. split; [exact Hd|]. eapply kept_input; [exact default_disjoint|reflexivity|exact Hi].
Qed.
End ParseStr.
