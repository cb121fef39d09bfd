(** C09, C12-C15: going on after errors, and calls of combiners. *)
From Coq Require Import List NArith Arith Bool Lia.
From Verif.Model Require Import Prelude Parser Iter Utf8 Chunk TextIter PosStr PosStrish
  TextVec TextDatumList CharIter StrishIter Alloc DefaultClassifier TextMethods DatumMethods Bindings Premade.
From Verif.Spec Require Import Contract ChunkContract AbsStream Grammar Balance Lawful Run Trace Fails Outcome Inside.
From Verif.Proofs Require Import Sim Refine ChunkFacts TextFacts Instances RunFacts AbsIter NextFacts FormFacts
  PrefixFacts FormRuns ClassifierFacts InsideFacts AbsParse TraceFacts.
From Verif.Tests Require Import AbsCases.
Import ListNotations.
Local Notation N_len r := (N.of_nat (length r)).
Local Notation oks ds := (map (fun d => Some (inl d)) ds).

(** ** For every lawful configuration *)
Section Generic.
Context {S A TT ET Pos CE W AE AC : Type}.
Context (umax : N) (cc : classifier) (so : stream_ops S A TT Pos) (co : concat_ops A TT)
        (ao : alloc_ops A TT ET) (bnd : bindings A TT ET Pos CE).
Local Notation text := (list (item Pos)).
Context (view : A -> W) (abnd : bindings W text AE Pos AC).
Context (Rs : S -> text -> text -> Prop) (Rt : TT -> text -> Prop)
        (Rx : ET -> AE -> Prop) (Rc : CE -> AC -> Prop).
Local Notation iterates := (iterates umax cc so co ao bnd).
Local Notation nexts := (nexts umax cc so co ao bnd).
Local Notation outcome := (outcome umax cc so co ao bnd view Rs Rt Rx Rc).
Context (LW : lawful False view so co ao bnd abnd Rs Rt Rx Rc) (DC : disjoint_classes cc).

(** C09.  After [UnbalancedEndChar] the parser is in the state it has when started
    on what follows the offending character.  The source before it consists
    of the forms whose datums have been returned, and a last text that is
    dropped if it comes directly before the character ([b]). *)
Theorem C09_resumes st s w ds p st' : no_combiner_returns abnd (UnbalancedEndChar p) ->
  starts_on Rs view st s w -> nexts st (oks ds ++ [Some (inr (UnbalancedEndChar p))]) st' ->
  exists u x rest ads ads0 w' b, s = u ++ x :: rest /\ ends cc x /\ p = it_pos x /\
    Forall2 (datum_rel Rt Rx) ds ads /\
    forms cc abnd false false w u ads0 w' b /\ (if b then exists t, ads0 = ads ++ [DText t] else ads0 = ads) /\
    starts_on Rs view st' rest w'.
Proof. intros NC H E; exact (unmatched_run LW DC ds NC H E). Qed.

(** So the later items are those of a parser started afresh ([st0]) on the rest. *)
Theorem C09_afresh st s w ds p items st' : no_combiner_returns abnd (UnbalancedEndChar p) ->
  starts_on Rs view st s w -> iterates st (map inl ds ++ inr (UnbalancedEndChar p) :: items) st' ->
  exists u x rest w', s = u ++ x :: rest /\ ends cc x /\ p = it_pos x /\
    forall st0 items0 st0', starts_on Rs view st0 rest w' -> iterates st0 items0 st0' ->
      agree Rt Rx Rc items items0 /\ view (ps_alloc st') = view (ps_alloc st0').
Proof.
  intros NC H E.
  change (map inl ds ++ inr (UnbalancedEndChar p) :: items)
    with (map inl ds ++ [inr (UnbalancedEndChar p)] ++ items) in E. rewrite app_assoc in E.
  destruct (iterates_app_inv _ _ E) as (st1 & E1 & E2). rewrite map_app, map_map in E1.
  destruct (unmatched_run LW DC ds NC H E1) as (u & x & rest & ads & ads0 & w' & b & -> & Hx & Hp & _ & _ & _ & Hs).
  exists u, x, rest, w'. repeat split; auto.
  - apply (same_results LW Hs H0 E2 H1).
  - apply (same_results LW Hs H0 E2 H1).
Qed.

(** C12.  In a nest form whose operator is bound to an operative, the operative
    gets the operator and the text between the separator and the matching end,
    unparsed and without escape characters; its result is the outcome. *)
Theorem C12_operative st w x l w1 h d is_text w2 f sp body y rest r w' :
  starts_on Rs view st ((x :: l ++ h ++ sp ++ body ++ [y]) ++ rest) w ->
  (N_len (x :: l ++ h ++ sp ++ body ++ [y]) <= umax)%N ->
  starts cc x -> lead cc abnd w l w1 -> head cc abnd w1 h d is_text w2 -> sep cc is_text sp body -> ends cc y ->
  abnd d = Some (Operative f) -> balance cc body = Balanced -> esc_after cc false body = false ->
  f d (unescape cc false body) w2 = (r, w') ->
  outcome st r rest w'.
Proof.
  intros H Hl Hx Hlead Hh Hs Hy Hb Hbal He Hf. eapply nest_outcome; eauto.
  eapply nest_iff; eauto. unfold form_means. rewrite Hb. exists (unescape cc false body). split; [|exact Hf].
  apply quoted_iff; auto.
Qed.

(** And at any depth of the form [S0] at which the parser is. *)
Theorem C12_nested w0 x l w1 h d is_text w2 f sp body y r0 w3 w S0 r w' st rest :
  starts cc x -> lead cc abnd w0 l w1 -> head cc abnd w1 h d is_text w2 -> sep cc is_text sp body -> ends cc y ->
  abnd d = Some (Operative f) -> balance cc body = Balanced -> esc_after cc false body = false ->
  f d (unescape cc false body) w2 = (r0, w3) ->
  inside cc abnd w0 (x :: l ++ h ++ sp ++ body ++ [y]) r0 w3 w S0 r w' ->
  starts_on Rs view st (S0 ++ rest) w -> (N_len S0 <= umax)%N ->
  outcome st r rest w'.
Proof.
  intros Hx Hl Hh Hs Hy Hb Hbal He Hf Hi H Hu. refine (inside_outcome LW DC _ _ Hi H Hu).
  eapply nest_iff; eauto. unfold form_means. rewrite Hb. eexists. split; [|exact Hf]. apply (quoted_iff DC); eauto.
Qed.

(** C13.  A form with an applicative operator [d], and a form with an unbound
    operator [d0] and the same operands: the applicative gets the operands of the
    combination that the other form is. *)
Theorem C13_applicative st w x l w1 h d is_text w2 f sp body y rest
    st0 w0 x0 l0 w01 h0 d0 is_text0 sp0 y0 rest0 c st0' :
  starts_on Rs view st ((x :: l ++ h ++ sp ++ body ++ [y]) ++ rest) w ->
  (N_len (x :: l ++ h ++ sp ++ body ++ [y]) <= umax)%N ->
  starts cc x -> lead cc abnd w l w1 -> head cc abnd w1 h d is_text w2 -> sep cc is_text sp body -> ends cc y ->
  abnd d = Some (Applicative f) ->
  starts_on Rs view st0 ((x0 :: l0 ++ h0 ++ sp0 ++ body ++ [y0]) ++ rest0) w0 ->
  (N_len (x0 :: l0 ++ h0 ++ sp0 ++ body ++ [y0]) <= umax)%N ->
  starts cc x0 -> lead cc abnd w0 l0 w01 -> head cc abnd w01 h0 d0 is_text0 w2 -> sep cc is_text0 sp0 body -> ends cc y0 ->
  abnd d0 = None -> balance cc body = Balanced -> esc_after cc false body = false ->
  nexts st0 [Some (inl c)] st0' ->
  exists o ops aops, c = DComb o ops /\ datum_rel Rt Rx o d0 /\ datum_rel Rt Rx ops aops /\
    let (r, w') := f d aops (view (ps_alloc st0')) in outcome st r rest w'.
Proof.
  intros H Hl Hx Hlead Hh Hs Hy Hb H0 Hl0 Hx0 Hlead0 Hh0 Hs0 Hy0 Hb0 Hbal He E.
  assert (Hlv : level cc (l0 ++ h0 ++ sp0 ++ body)) by (eapply level_form; eauto using level_balanced).
  assert (Er : x0 :: l0 ++ h0 ++ sp0 ++ body ++ [y0] = x0 :: (l0 ++ h0 ++ sp0 ++ body) ++ [y0])
    by (rewrite <- !app_assoc; reflexivity).
  rewrite Er in H0, Hl0.
  destruct (datum_of_nest LW DC Hlv Hx0 Hy0 H0 E Hl0) as [(ad & w3 & Hn & Hc & Hst)|(w3 & Hn)]; rewrite <- Er in Hn;
    apply (nest_iff DC _ _ Hx0 Hlead0 Hh0 Hs0 Hy0) in Hn; unfold form_means in Hn; rewrite Hb0 in Hn;
    destruct Hn as (ads & b & Hf & Ead); [|discriminate].
  injection Ead as ->. destruct Hst as (_ & _ & ->).
  destruct c as [|o ops| | | |]; cbn in Hc; try contradiction. destruct Hc as [Ho Hops].
  exists o, ops, (dlist ads). repeat split; auto.
  destruct (f d (dlist ads) w3) as [r w'] eqn:Ef. eapply nest_outcome; eauto.
  eapply nest_iff; eauto. unfold form_means. rewrite Hb. exists ads, w3, b. auto.
Qed.

(** At any depth of a form [S0]. *)
Theorem C13_nested w x l w1 h d is_text w2 f sp body y st0 w0 x0 l0 w01 h0 d0 is_text0 sp0 y0 rest0 c st0' :
  starts cc x -> lead cc abnd w l w1 -> head cc abnd w1 h d is_text w2 -> sep cc is_text sp body -> ends cc y ->
  abnd d = Some (Applicative f) ->
  starts_on Rs view st0 ((x0 :: l0 ++ h0 ++ sp0 ++ body ++ [y0]) ++ rest0) w0 ->
  (N_len (x0 :: l0 ++ h0 ++ sp0 ++ body ++ [y0]) <= umax)%N ->
  starts cc x0 -> lead cc abnd w0 l0 w01 -> head cc abnd w01 h0 d0 is_text0 w2 -> sep cc is_text0 sp0 body -> ends cc y0 ->
  abnd d0 = None -> balance cc body = Balanced -> esc_after cc false body = false ->
  nexts st0 [Some (inl c)] st0' ->
  exists o ops aops, c = DComb o ops /\ datum_rel Rt Rx o d0 /\ datum_rel Rt Rx ops aops /\
    forall r0 w3 w4 S0 r w' st rest, f d aops (view (ps_alloc st0')) = (r0, w3) ->
      inside cc abnd w (x :: l ++ h ++ sp ++ body ++ [y]) r0 w3 w4 S0 r w' ->
      starts_on Rs view st (S0 ++ rest) w4 -> (N_len S0 <= umax)%N -> outcome st r rest w'.
Proof.
  intros Hx Hlead Hh Hs Hy Hb H0 Hl0 Hx0 Hlead0 Hh0 Hs0 Hy0 Hb0 Hbal He E.
  assert (Hlv : level cc (l0 ++ h0 ++ sp0 ++ body)) by (eapply level_form; eauto using level_balanced).
  assert (Er : x0 :: l0 ++ h0 ++ sp0 ++ body ++ [y0] = x0 :: (l0 ++ h0 ++ sp0 ++ body) ++ [y0])
    by (rewrite <- !app_assoc; reflexivity).
  rewrite Er in H0, Hl0.
  destruct (datum_of_nest LW DC Hlv Hx0 Hy0 H0 E Hl0) as [(ad & w3 & Hn & Hc & Hst)|(w3 & Hn)]; rewrite <- Er in Hn;
    apply (nest_iff DC _ _ Hx0 Hlead0 Hh0 Hs0 Hy0) in Hn; unfold form_means in Hn; rewrite Hb0 in Hn;
    destruct Hn as (ads & b & Hf & Ead); [|discriminate].
  injection Ead as ->. destruct Hst as (_ & _ & ->).
  destruct c as [|o ops| | | |]; cbn in Hc; try contradiction. destruct Hc as [Ho Hops].
  exists o, ops, (dlist ads). repeat split; auto.
  intros r0 w5 w4 S0 r w' st rest Ef Hi H Hu. refine (inside_outcome LW DC _ _ Hi H Hu).
  eapply nest_iff; eauto. unfold form_means. rewrite Hb. exists ads, w3, b. auto.
Qed.

(** C14.  [fs] is a source of which nothing remains ([st_f]): putting it between
    [u] and [v] gives the items of [u] and of [v]. *)
Theorem C14_removed st_u st_f st_v st u fs v w ds st_u' st_f' items st_v' :
  (N_len (u ++ fs) <= umax)%N -> fs <> [] -> esc_after cc false u = false ->
  starts_on Rs view st_u u w -> iterates st_u (map inl ds) st_u' ->
  starts_on Rs view st_f fs (view (ps_alloc st_u')) -> iterates st_f [] st_f' ->
  starts_on Rs view st_v v (view (ps_alloc st_f')) -> iterates st_v items st_v' ->
  starts_on Rs view st (u ++ fs ++ v) w ->
  exists items' st', iterates st items' st' /\ agree Rt Rx Rc items' (map inl ds ++ items) /\
    view (ps_alloc st') = view (ps_alloc st_v').
Proof. intros Hl Hne He Hu Eu Hf Ef Hv Ev H. exact (removed_run LW DC _ Hl Hne He Hu Eu Hf Ef Hv Ev H). Qed.

(** After the nest start [x], before an operator, whatever [v] is: what comes after
    [fs] is then the operator. *)
Theorem C14_operator st_f st1 st x fs v w st_f' items st1' :
  (N_len (x :: fs) <= umax)%N -> starts cc x ->
  starts_on Rs view st_f fs w -> iterates st_f [] st_f' ->
  starts_on Rs view st1 (x :: v) (view (ps_alloc st_f')) -> iterates st1 items st1' ->
  starts_on Rs view st (x :: fs ++ v) w ->
  exists items' st', iterates st items' st' /\ agree Rt Rx Rc items' items /\
    view (ps_alloc st') = view (ps_alloc st1').
Proof. intros Hl Hx Hf Ef H1 E1 H. exact (lead_run LW DC Hl Hx Hf Ef H1 E1 H). Qed.

(** Among the operands of an operator [d] these are those of [u] and of [v]. *)
Theorem C14_operand st_u st_f st_v u fs v w2 ds st_u' st_f' ds' st_v' w x l w1 h d is_text sp y :
  fs <> [] -> esc_after cc false u = false -> esc_after cc false v = false ->
  starts_on Rs view st_u u w2 -> iterates st_u (map inl ds) st_u' ->
  starts_on Rs view st_f fs (view (ps_alloc st_u')) -> iterates st_f [] st_f' ->
  starts_on Rs view st_v v (view (ps_alloc st_f')) -> iterates st_v (map inl ds') st_v' ->
  starts cc x -> lead cc abnd w l w1 -> head cc abnd w1 h d is_text w2 -> sep cc is_text sp (u ++ fs ++ v) -> ends cc y ->
  exists ads ads', Forall2 (datum_rel Rt Rx) ds ads /\ Forall2 (datum_rel Rt Rx) ds' ads' /\
    forall r w' st rest, applied abnd d (ads ++ ads') (view (ps_alloc st_v')) r w' ->
      starts_on Rs view st ((x :: l ++ h ++ sp ++ (u ++ fs ++ v) ++ [y]) ++ rest) w ->
      (N_len (x :: l ++ h ++ sp ++ (u ++ fs ++ v) ++ [y]) <= umax)%N -> outcome st r rest w'.
Proof.
  intros Hne He He' Hu Eu Hf Ef Hv Ev Hx Hl Hh Hs Hy.
  destruct (operands_run LW DC ds ds' Hne He He' Hu Eu Hf Ef Hv Ev) as (ads & ads' & b & H1 & H2 & H3).
  exists ads, ads'. repeat split; auto. intros r w' st rest Ha H Hlen.
  eapply nest_outcome; eauto. eapply applied_nest; eauto.
Qed.

(** At any depth: a nest form of which nothing remains, in a form [S0]. *)
Theorem C14_nested st_f x i y w1 st_f' w S0 r w' st rest :
  starts cc x -> ends cc y -> balance cc i = Balanced -> esc_after cc false i = false ->
  starts_on Rs view st_f (x :: i ++ [y]) w1 -> iterates st_f [] st_f' ->
  inside cc abnd w1 (x :: i ++ [y]) (inl None) (view (ps_alloc st_f')) w S0 r w' ->
  starts_on Rs view st (S0 ++ rest) w -> (N_len S0 <= umax)%N -> outcome st r rest w'.
Proof.
  intros Hx Hy Hb He Hf Ef Hi H Hu. refine (inside_outcome LW DC _ _ Hi H Hu).
  eapply nothing_of_nest; eauto using level_balanced.
Qed.

(** C15.  If the combiner of a form fails, at any depth of the form at which
    [next] is, then [next] returns the error, and the parser goes on after the failed
    form, with the state the combiner has left. *)
Theorem C15_returned st u f rest w ads w1 b ae w' :
  starts_on Rs view st (u ++ f ++ rest) w -> (N_len (u ++ f) <= umax)%N ->
  forms cc abnd false false w u ads w1 b -> fails cc abnd w1 f ae w' ->
  exists ds e st', nexts st (oks ds ++ [Some (inr e)]) st' /\ Forall2 (datum_rel Rt Rx) ds ads /\
    error_rel eq Rc e ae /\ starts_on Rs view st' rest w'.
Proof. intros H Hl Hf Hn; exact (fails_run LW DC _ H Hl Hf Hn). Qed.

(** The first error is that of a failed combiner, or about balance. *)
Theorem C15_first_error st s w ds e st' :
  starts_on Rs view st s w -> nexts st (oks ds ++ [Some (inr e)]) st' ->
  exists ads ae, Forall2 (datum_rel Rt Rx) ds ads /\ error_rel eq Rc e ae /\
  ((e = MissingEndChar /\ balance cc s = Unclosed /\ exists p, Rs (ps_strm st') [] p) \/
   (exists u x r ads0 w' b, s = u ++ x :: r /\ ends cc x /\ e = UnbalancedEndChar (it_pos x) /\
      forms cc abnd false false w u ads0 w' b /\ starts_on Rs view st' r w' /\
      if b then exists t, ads0 = ads ++ [DText t] else ads0 = ads) \/
   (exists u f r w1 w' b, s = u ++ f ++ r /\ forms cc abnd false false w u ads w1 b /\
      fails cc abnd w1 f ae w' /\ starts_on Rs view st' r w')).
Proof. intros H E; exact (first_error_run LW DC _ _ H E). Qed.
End Generic.
Print Assumptions C09_resumes.
Print Assumptions C09_afresh.
Print Assumptions C12_operative.
Print Assumptions C12_nested.
Print Assumptions C13_applicative.
Print Assumptions C13_nested.
Print Assumptions C14_removed.
Print Assumptions C14_operator.
Print Assumptions C14_operand.
Print Assumptions C14_nested.
Print Assumptions C15_returned.
Print Assumptions C15_first_error.

(** ** Recorded calls: the bindings log every call in the combiners' state *)
Section Logged.
Context {S A TT ET Pos CE W AE AC : Type}.
Context (umax : N) (cc : classifier) (so : stream_ops S A TT Pos) (co : concat_ops A TT)
        (ao : alloc_ops A TT ET) (bnd : bindings A TT ET Pos CE).
Local Notation text := (list (item Pos)).
Context (abnd : bindings W text AE Pos AC) (view : A -> W * list (@event text AE Pos AC)).
Context (Rs : S -> text -> text -> Prop) (Rt : TT -> text -> Prop)
        (Rx : ET -> AE -> Prop) (Rc : CE -> AC -> Prop).
Local Notation outcome := (outcome umax cc so co ao bnd view Rs Rt Rx Rc).
Context (LW : lawful False view so co ao bnd (logged abnd) Rs Rt Rx Rc) (DC : disjoint_classes cc).

(** C12, C13.  One call is made for the form, wherever it is in the form [S0]: after
    the calls [pre] for what comes before and in it, and before the calls [post]. *)
Theorem C12_called_once w0 x l w1 h d is_text w2 f sp body y r0 w3 wl S0 r w' st rest :
  starts cc x -> lead cc (logged abnd) w0 l w1 -> head cc (logged abnd) w1 h d is_text w2 ->
  sep cc is_text sp body -> ends cc y ->
  abnd d = Some (Operative f) -> balance cc body = Balanced -> esc_after cc false body = false ->
  f d (unescape cc false body) (fst w2) = (r0, w3) ->
  inside cc (logged abnd) w0 (x :: l ++ h ++ sp ++ body ++ [y]) r0
    (w3, snd w2 ++ [OperativeCall d (unescape cc false body) r0]) wl S0 r w' ->
  starts_on Rs view st (S0 ++ rest) wl -> (N_len S0 <= umax)%N ->
  outcome st r rest w' /\
  exists pre post, snd w2 = snd wl ++ pre /\
    snd w' = snd wl ++ pre ++ [OperativeCall d (unescape cc false body) r0] ++ post.
Proof.
  intros Hx Hl Hh Hs Hy Hb Hbal He Hf Hi H Hu. split.
  - eapply C12_nested; eauto; [unfold logged; rewrite Hb; reflexivity|]. cbn. rewrite Hf. reflexivity.
  - destruct (inside_log Hi) as (pre & post & E1 & E2). cbn in E2.
    destruct (calls_log (calls_lead Hl)) as (n1 & E3 & _). destruct (calls_log (calls_head Hh)) as (n2 & E4 & _).
    exists (pre ++ n1 ++ n2), post. rewrite E2, E4, E3, E1, <- !app_assoc. auto.
Qed.

Theorem C13_called_once w0 x l w1 h d is_text w2 f sp body y ads w3 b r0 w4 wl S0 r w' st rest :
  starts cc x -> lead cc (logged abnd) w0 l w1 -> head cc (logged abnd) w1 h d is_text w2 ->
  sep cc is_text sp body -> ends cc y ->
  abnd d = Some (Applicative f) -> forms cc (logged abnd) false false w2 body ads w3 b ->
  f d (dlist ads) (fst w3) = (r0, w4) ->
  inside cc (logged abnd) w0 (x :: l ++ h ++ sp ++ body ++ [y]) r0
    (w4, snd w3 ++ [ApplicativeCall d (dlist ads) r0]) wl S0 r w' ->
  starts_on Rs view st (S0 ++ rest) wl -> (N_len S0 <= umax)%N ->
  outcome st r rest w' /\
  exists pre post, snd w3 = snd wl ++ pre /\
    snd w' = snd wl ++ pre ++ [ApplicativeCall d (dlist ads) r0] ++ post.
Proof.
  intros Hx Hl Hh Hs Hy Hb Hfo Hf Hi H Hu. split.
  - refine (inside_outcome LW DC _ _ Hi H Hu). eapply n_applicative; eauto.
    + unfold logged. rewrite Hb. reflexivity.
    + cbn. rewrite Hf. reflexivity.
  - destruct (inside_log Hi) as (pre & post & E1 & E2). cbn in E2.
    destruct (calls_log (calls_lead Hl)) as (n1 & E3 & _). destruct (calls_log (calls_head Hh)) as (n2 & E4 & _).
    destruct (calls_log (calls_forms Hfo)) as (n3 & E5 & _).
    exists (pre ++ n1 ++ n2 ++ n3), post. rewrite E2, E5, E4, E3, E1, <- !app_assoc. auto.
Qed.

(** C15.  During a call of [next] that returns the error of a combiner, this
    combiner is the last that is called, and the only that fails; and if
    [next] returns anything else then none has failed. *)
Theorem C15_last_call st s wl o st' :
  starts_on Rs view st s wl -> nexts umax cc so co ao bnd st [o] st' ->
  exists new, snd (view (ps_alloc st')) = snd wl ++ new /\
  match o with
  | Some (inr e) =>
      (all_ok new /\ (e = MissingEndChar \/ exists p, e = UnbalancedEndChar p)) \/
      (exists pre ev ae, new = pre ++ [ev] /\ all_ok pre /\ ev_result ev = inr ae /\ error_rel eq Rc e ae)
  | _ => all_ok new
  end.
Proof. intros H E; exact (log_run LW DC H E). Qed.
End Logged.
Print Assumptions C12_called_once.
Print Assumptions C13_called_once.
Print Assumptions C15_last_call.

(** ** Cases *)
(** C09: the datum before, the error, the items after the offending character; the
    text [a] is dropped. *)
Example C09_case :
  no_combiner_returns (abs_lookup num_eq abs_safe) (UnbalancedEndChar (StrPos (lit "{n}a}b{q x}}}c") 4 4)) /\
  lawful False (fun w : N => w) im_stream (text_concat_ops (im_ops (W:=N))) box_alloc
    (im_lookup num_eq num_hash sum_hasher im_safe) (abs_lookup num_eq abs_safe)
    (titer_rep posstr_any posstr_any_state (im_ops (W:=N))) (text_items (im_ops (W:=N)) posstr_any) eq eq /\
  exists items st', im_iterates im_safe (im_start "{n}a}b{q x}}}c" 0%N) items st' /\
    map im_show items =
      [inl (DExtra 0%N); inr (UnbalancedEndChar (StrPos (lit "{n}a}b{q x}}}c") 4 4));
       inl (DText (lit "b")); inl (DText (lit "x"));
       inr (UnbalancedEndChar (StrPos (lit "{n}a}b{q x}}}c") 11 11));
       inr (UnbalancedEndChar (StrPos (lit "{n}a}b{q x}}}c") 12 12)); inl (DText (lit "c"))].
Proof.
  split; [|split; [exact im_safe_lawful|]].
  - intros d c H. pose proof (abs_safe_succeed _ H) as G. destruct c; eauto.
  - do 2 eexists. split; [exists 20, 100; vm_compute; reflexivity|vm_compute; reflexivity].
Qed.

(** C12: an operative after a removed form, with nested and escaped delimiters. *)
Definition C12_source := str_source (lit "{ {rm} q  a{b}\}c}z").
Example C12_case : exists f,
  C12_source = (firstn 1 C12_source ++ firstn 6 (skipn 1 C12_source) ++ firstn 1 (skipn 7 C12_source) ++
    firstn 1 (skipn 8 C12_source) ++ firstn 8 (skipn 9 C12_source) ++ firstn 1 (skipn 17 C12_source)) ++ skipn 18 C12_source /\
  lead default_classifier (abs_lookup num_eq abs_map) 0%N (firstn 6 (skipn 1 C12_source)) 0%N /\
  head default_classifier (abs_lookup num_eq abs_map) 0%N (firstn 1 (skipn 7 C12_source)) (DText (firstn 1 (skipn 7 C12_source))) true 0%N /\
  sep default_classifier true (firstn 1 (skipn 8 C12_source)) (firstn 8 (skipn 9 C12_source)) /\
  abs_lookup num_eq abs_map (DText (firstn 1 (skipn 7 C12_source))) = Some (Operative f) /\
  balance default_classifier (firstn 8 (skipn 9 C12_source)) = Balanced /\
  esc_after default_classifier false (firstn 8 (skipn 9 C12_source)) = false /\
  map it_ch (unescape default_classifier false (firstn 8 (skipn 9 C12_source))) = lit " a{b}}c" /\
  im_items_show (fst (parse_str_with num_eq num_hash sum_hasher (lit "{ {rm} q  a{b}\}c}z") im_map 0%N)) =
    Ok [inl (DText (lit " a{b}}c")); inl (DText (lit "z"))].
Proof.
  eexists. split; [vm_compute; reflexivity|]. split.
  { change (firstn 6 (skipn 1 C12_source)) with
      (nth 1 C12_source (Item 0%N (StrPos [] 0 0)%N) :: firstn 4 (skipn 2 C12_source) ++ firstn 1 (skipn 6 C12_source)).
    apply l_white; [vm_compute; reflexivity|].
    eapply l_removed with (w1 := 0%N).
    - change (firstn 4 (skipn 2 C12_source)) with
        (nth 2 C12_source (Item 0%N (StrPos [] 0 0)%N) :: [] ++ firstn 2 (skipn 3 C12_source) ++ [] ++ [] ++ firstn 1 (skipn 5 C12_source)).
      eapply n_operative with (d := DText (firstn 2 (skipn 3 C12_source))) (t := []) (w2 := 0%N) (is_text := true).
      + vm_compute. reflexivity.
      + apply l_nil.
      + apply h_text; [vm_compute; discriminate|]. vm_compute.
        repeat (apply raw_plain; [reflexivity|intros H; discriminate H|]). apply raw_nil.
      + vm_compute. reflexivity.
      + right. split; [reflexivity|exact I].
      + apply q_nil.
      + vm_compute. reflexivity.
      + reflexivity.
    - change (firstn 1 (skipn 6 C12_source)) with [nth 6 C12_source (Item 0%N (StrPos [] 0 0)%N)].
      apply l_white; [vm_compute; reflexivity|apply l_nil]. }
  split.
  { apply h_text; [vm_compute; discriminate|]. vm_compute.
    repeat (apply raw_plain; [reflexivity|intros H; discriminate H|]). apply raw_nil. }
  split; [left; eexists; split; [vm_compute; reflexivity|vm_compute; reflexivity]|].
  split; [vm_compute; reflexivity|]. split; [vm_compute; reflexivity|]. split; [vm_compute; reflexivity|].
  split; vm_compute; reflexivity.
Qed.

(** C13: [l] is an applicative that returns its list of operands, [u] is unbound; the
    operands contain forms of combiners. *)
Example C13_case :
  let src s := char_source s in
  let next s := fst (iter_next usize_max default_classifier abs_stream abs_concat abs_alloc (abs_lookup num_eq ch_map)
    200 (abs_start (src s) 5%N)) in
  next (lit "{l x{n} {rm y} {l n}}z") =
    Ok (Some (inl (dlist [DText [nth 3 (src (lit "{l x{n} {rm y} {l n}}z")) (Item 0 0)%N]; DExtra 5%N;
      DText [Item (N.of_nat 32) 7%N]; DText [Item (N.of_nat 32) 14%N];
      DList (DText [Item (N.of_nat 110) 18%N]) DEmptyList]))) /\
  (exists o ops, next (lit "{u x{n} {rm y} {l n}}z") = Ok (Some (inl (DComb o ops))) /\
     next (lit "{l x{n} {rm y} {l n}}z") = Ok (Some (inl ops))) /\
  skipn 3 (src (lit "{l x{n} {rm y} {l n}}z")) = skipn 3 (src (lit "{u x{n} {rm y} {l n}}z")).
Proof.
  cbv zeta. split; [vm_compute; reflexivity|]. split; [|vm_compute; reflexivity].
  do 2 eexists. split; vm_compute; reflexivity.
Qed.

(** C14: at top level, before an operator, and among operands. *)
Example C14_case :
  let show s := im_items_show (fst (parse_str_with num_eq num_hash sum_hasher s im_map 0%N)) in
  show (lit "a{rm x{y}}b") = Ok [inl (DText (lit "a")); inl (DText (lit "b"))] /\
  show (lit "a") = Ok [inl (DText (lit "a"))] /\ show (lit "{rm x{y}}") = Ok [] /\
  show (lit "b") = Ok [inl (DText (lit "b"))] /\
  show (lit "{{rm}{rm}op b{rm}c}") =
    Ok [inl (DComb (DText (lit "op")) (DList (DText (lit "b")) (DList (DText (lit "c")) DEmptyList)))].
Proof. cbv zeta. repeat split; vm_compute; reflexivity. Qed.

(** C15: a combiner that fails inside of an operand of an operator; the error, the log
    of calls, and the items after the failed form. *)
Example C15_case :
  lawful False (fun w => w) abs_stream abs_concat abs_alloc (logged (abs_lookup num_eq ch_map)) (logged (abs_lookup num_eq ch_map))
    abs_Rs eq eq eq /\
  starts_on abs_Rs (fun w : N * list (@event (list (item charpos)) N charpos N) => w) (abs_start (char_source (lit "{l {{n} {err x} {n}} y}z")) (3%N, []))
    (char_source (lit "{l {{n} {err x} {n}} y}z")) (3%N, []) /\
  let r := iter_next usize_max default_classifier abs_stream abs_concat abs_alloc (logged (abs_lookup num_eq ch_map)) 200
    (abs_start (char_source (lit "{l {{n} {err x} {n}} y}z")) (3%N, [])) in
  fst r = Ok (Some (inr (FailedCombiner 7%N))) /\
  map it_ch (fst (ps_strm (snd r))) = lit " {n}} y}z" /\
  fst (ps_alloc (snd r)) = 4%N /\
  map (@ev_result _ _ _ _) (snd (ps_alloc (snd r))) = [inl (Some (DExtra 3%N)); inr (FailedCombiner 7%N)].
Proof.
  split; [apply abs_lawful|]. split; [apply abs_start_on|]. repeat split; vm_compute; reflexivity.
Qed.

(** C12-C14 in other forms: the form of [q] is an operand of [u], and so is the
    removed form of [rm]. *)
Definition nested_source := char_source (lit "{u a{q {x}\}}b{rm y}c}z").
Definition nested_part n k := firstn k (skipn n nested_source).
Example nested_case :
  let bnd := abs_lookup num_eq ch_map in
  let text n k := DText (nested_part n k) in
  let t := unescape default_classifier false (nested_part 7 5) in
  let u := DComb (text 1 1) (dlist ([text 3 1] ++ [DText t] ++ [text 13 1; text 20 1])) in
  map it_ch t = lit "{x}}" /\
  (exists f, bnd (text 5 1) = Some (Operative f) /\ f (text 5 1) t 0%N = (inl (Some (DText t)), 0%N)) /\
  lead default_classifier bnd 0%N [] 0%N /\
  head default_classifier bnd 0%N (nested_part 5 1) (text 5 1) true 0%N /\
  sep default_classifier true (nested_part 6 1) (nested_part 7 5) /\
  balance default_classifier (nested_part 7 5) = Balanced /\ esc_after default_classifier false (nested_part 7 5) = false /\
  nested_part 4 9 = hd (Item 0 0)%N (nested_part 4 1) :: [] ++ nested_part 5 1 ++ nested_part 6 1 ++ nested_part 7 5 ++ nested_part 12 1 /\
  inside default_classifier bnd 0%N (nested_part 4 9) (inl (Some (DText t))) 0%N 0%N (nested_part 0 22) (inl (Some u)) 0%N /\
  inside default_classifier bnd 0%N (nested_part 14 6) (inl None) 0%N 0%N (nested_part 0 22) (inl (Some u)) 0%N /\
  fst (iter_next usize_max default_classifier abs_stream abs_concat abs_alloc bnd 200 (abs_start nested_source 0%N)) =
    Ok (Some (inl u)).
Proof.
  cbv zeta. set (bnd := abs_lookup num_eq ch_map).
  assert (Hh : forall n k, k <> 0 -> forallb (fun i => negb (operator_delimiter default_classifier (it_ch i) ||
      is_nest_escape default_classifier (it_ch i))) (nested_part n k) = true -> nested_part n k <> [] ->
      raw default_classifier (operator_delimiter default_classifier) (nested_part n k) (nested_part n k)).
  { intros n k _ Hf _. revert Hf. generalize (nested_part n k). intros l. induction l as [|i l IH]; [constructor|].
    cbn [forallb]. rewrite andb_true_iff, negb_true_iff, orb_false_iff. intros [[H1 H2] H3].
    apply raw_plain; auto. unfold escapes. congruence. }
  assert (Hd : forall l l' : list (item charpos), raw default_classifier (operator_delimiter default_classifier) l l' ->
    raw default_classifier (delimiter default_classifier) l l').
  { induction 1; [constructor| |]; [apply raw_plain|apply raw_escaped]; auto.
    unfold operator_delimiter in H. apply orb_false_iff in H. apply H. }
  assert (Ht : forall n k s' ds w' b' w, nested_part n k <> [] -> forallb (fun i => negb (operator_delimiter default_classifier (it_ch i) ||
      is_nest_escape default_classifier (it_ch i))) (nested_part n k) = true -> k <> 0 ->
      forms default_classifier bnd false true w s' ds w' b' ->
      forms default_classifier bnd false false w (nested_part n k ++ s') (DText (nested_part n k) :: ds) w' b').
  { intros n k s' ds w' b' w Hn Hf Hk H. apply f_text; auto. }
  assert (Hq : nest default_classifier bnd 0%N (nested_part 4 9)
    (inl (Some (DText (unescape default_classifier false (nested_part 7 5))))) 0%N).
  { change (nested_part 4 9) with (hd (Item 0 0)%N (nested_part 4 1) :: [] ++ nested_part 5 1 ++ nested_part 6 1 ++ nested_part 7 5 ++ [hd (Item 0 0)%N (nested_part 12 1)]).
    eapply nest_iff with (d := DText (nested_part 5 1)) (tx := true).
    - apply default_disjoint.
    - vm_compute. reflexivity.
    - apply l_nil.
    - apply h_text; [vm_compute; discriminate|]. apply Hh; [discriminate|vm_compute; reflexivity|vm_compute; discriminate].
    - left. eexists. split; [reflexivity|vm_compute; reflexivity].
    - vm_compute. reflexivity.
    - unfold form_means. eexists. split; [apply quoted_iff; [apply default_disjoint|]|].
      + split; [vm_compute; reflexivity|]. split; vm_compute; reflexivity.
      + vm_compute. reflexivity. }
  assert (Hrm : nest default_classifier bnd 0%N (nested_part 14 6) (inl None) 0%N).
  { change (nested_part 14 6) with (hd (Item 0 0)%N (nested_part 14 1) :: [] ++ nested_part 15 2 ++ nested_part 17 1 ++ nested_part 18 1 ++ [hd (Item 0 0)%N (nested_part 19 1)]).
    eapply nest_iff with (d := DText (nested_part 15 2)) (tx := true).
    - apply default_disjoint.
    - vm_compute. reflexivity.
    - apply l_nil.
    - apply h_text; [vm_compute; discriminate|]. apply Hh; [discriminate|vm_compute; reflexivity|vm_compute; discriminate].
    - left. eexists. split; [reflexivity|vm_compute; reflexivity].
    - vm_compute. reflexivity.
    - unfold form_means. eexists. split; [apply quoted_iff; [apply default_disjoint|]|].
      + split; [vm_compute; reflexivity|]. split; vm_compute; reflexivity.
      + vm_compute. reflexivity. }
  assert (Hu : head default_classifier bnd 0%N (nested_part 1 1) (DText (nested_part 1 1)) true 0%N).
  { apply h_text; [vm_compute; discriminate|]. apply Hh; [discriminate|vm_compute; reflexivity|vm_compute; discriminate]. }
  split; [vm_compute; reflexivity|]. split; [eexists; split; [vm_compute; reflexivity|reflexivity]|].
  split; [apply l_nil|]. split.
  { apply h_text; [vm_compute; discriminate|]. apply Hh; [discriminate|vm_compute; reflexivity|vm_compute; discriminate]. }
  split; [left; eexists; split; [reflexivity|vm_compute; reflexivity]|].
  split; [vm_compute; reflexivity|]. split; [vm_compute; reflexivity|]. split; [reflexivity|].
  split; [|split].
  - change (nested_part 0 22) with (hd (Item 0 0)%N (nested_part 0 1) :: [] ++ nested_part 1 1 ++ nested_part 2 1 ++
      ((nested_part 3 1 ++ []) ++ nested_part 4 9 ++ (nested_part 13 1 ++ nested_part 14 6 ++ nested_part 20 1 ++ [])) ++ [hd (Item 0 0)%N (nested_part 21 1)]).
    eapply in_operand with (d := DText (nested_part 1 1)) (is_text := true)
      (o := Some (DText (unescape default_classifier false (nested_part 7 5)))) (ds := [DText (nested_part 3 1)])
      (ds' := [DText (nested_part 13 1); DText (nested_part 20 1)]) (we := 0%N).
    + vm_compute. reflexivity.
    + apply l_nil.
    + exact Hu.
    + left. eexists. split; [reflexivity|vm_compute; reflexivity].
    + apply Ht; [vm_compute; discriminate|vm_compute; reflexivity|discriminate|]. apply f_nil.
    + apply in_itself.
    + apply Ht; [vm_compute; discriminate|vm_compute; reflexivity|discriminate|].
      eapply f_removed; [exact Hrm|].
      apply Ht; [vm_compute; discriminate|vm_compute; reflexivity|discriminate|]. apply f_nil.
    + vm_compute. reflexivity.
    + split; reflexivity.
  - change (nested_part 0 22) with (hd (Item 0 0)%N (nested_part 0 1) :: [] ++ nested_part 1 1 ++ nested_part 2 1 ++
      ((nested_part 3 1 ++ nested_part 4 9 ++ nested_part 13 1 ++ []) ++ nested_part 14 6 ++ (nested_part 20 1 ++ [])) ++ [hd (Item 0 0)%N (nested_part 21 1)]).
    eapply in_operand with (d := DText (nested_part 1 1)) (is_text := true)
      (o := None) (ds := [DText (nested_part 3 1); DText (unescape default_classifier false (nested_part 7 5)); DText (nested_part 13 1)])
      (ds' := [DText (nested_part 20 1)]) (we := 0%N).
    + vm_compute. reflexivity.
    + apply l_nil.
    + exact Hu.
    + left. eexists. split; [reflexivity|vm_compute; reflexivity].
    + apply Ht; [vm_compute; discriminate|vm_compute; reflexivity|discriminate|]. eapply f_nest; [exact Hq|].
      apply Ht; [vm_compute; discriminate|vm_compute; reflexivity|discriminate|]. apply f_nil.
    + apply in_itself.
    + apply Ht; [vm_compute; discriminate|vm_compute; reflexivity|discriminate|]. apply f_nil.
    + vm_compute. reflexivity.
    + split; reflexivity.
  - vm_compute. reflexivity.
Qed.
