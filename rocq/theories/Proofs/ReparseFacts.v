(** Operatives that parse their operands text, at the level of the grammar. *)
From Coq Require Import List Arith NArith Bool Lia.
From Verif.Model Require Import Prelude Parser Iter Chunk TextIter PosStr TextVec Alloc DefaultClassifier
  TextMethods DatumMethods Bindings Premade Reparse.
From Verif.Spec Require Import Grammar Balance AbsStream Contract ChunkContract Fails Run Lawful.
From Verif.Proofs Require Import Wp GrammarFacts AbsParse FuelMono Safety Refine Complete AbsIter FormFacts PrefixFacts RunFacts NextFacts
  Sim Transfer BindingFacts ChunkFacts TextFacts MethodFacts Instances PremadeFacts.
Import ListNotations.
Set Implicit Arguments.
Local Notation N_len r := (N.of_nat (length r)).

Section Override.
Context {W ET Pos CE : Type}.
Local Notation source := (list (item Pos)).
Local Notation text := (list (item Pos)).
Local Notation dat := (datum text ET).
Context (umax : N) (cc : classifier) (DC : disjoint_classes cc) (bnd bnd' : bindings W text ET Pos CE).
Local Notation scn := (@scan Pos cc).

Definition plain (s : source) : Prop := Forall (fun x => ~ escapes cc x) s.

(** [f] gives the combination with the datums of its operands text, or the first
    error, if nothing in the text escapes. *)
Definition reparses (f : dat -> text -> W -> (option dat + error Pos CE) * W) : Prop :=
  forall d t w, (N_len t <= umax)%N -> plain t -> balance cc t = Balanced ->
  (forall ds w' b, forms cc bnd false false w t ds w' b -> f d t w = (inl (Some (DComb d (dlist ds))), w')) /\
  (forall u s r ds w1 b e w', t = u ++ s ++ r -> forms cc bnd false false w u ds w1 b -> fails cc bnd w1 s e w' ->
     f d t w = (inr e, w')).

(** Some unbound operators are bound to such operatives. *)
Definition overrides : Prop := forall d, bnd' d = bnd d \/
  (bnd d = None /\ exists f, bnd' d = Some (Operative f) /\ reparses f).
Context (OV : overrides).

Lemma plain_app s1 s2 : plain (s1 ++ s2) <-> plain s1 /\ plain s2.
Proof. apply Forall_app. Qed.
Lemma plain_cons x s : plain (x :: s) <-> ~ escapes cc x /\ plain s.
Proof. unfold plain. rewrite Forall_cons_iff. reflexivity. Qed.
Lemma plain_unescape s : plain s -> unescape cc false s = s.
Proof.
  induction 1 as [|x s Hx _ IH]; [reflexivity|]. unfold escapes in Hx. apply not_true_is_false in Hx.
  cbn [unescape]. rewrite Hx. cbn. rewrite IH. reflexivity.
Qed.
Lemma plain_esc s : plain s -> esc_after cc false s = false.
Proof.
  induction 1 as [|x s Hx _ IH]; [reflexivity|]. unfold escapes in Hx. apply not_true_is_false in Hx.
  cbn [esc_after]. rewrite Hx. exact IH.
Qed.
Lemma plain_quoted s : plain s -> balance cc s = Balanced -> quoted cc s s.
Proof. intros H B. apply quoted_iff; auto. rewrite plain_unescape; auto using plain_esc. Qed.
Lemma forms_balanced b w s ds w' b' : forms cc bnd false b w s ds w' b' -> balance cc s = Balanced.
Proof.
  intros H. pose proof (level_forms DC H 0%N []) as E. rewrite app_nil_r in E. unfold balance. rewrite E. reflexivity.
Qed.

Ltac pl := repeat match goal with
  | H : plain (_ ++ _) |- _ => apply plain_app in H; destruct H
  | H : plain (_ :: _) |- _ => apply plain_cons in H; destruct H
  end.
Ltac ln := rewrite ?app_length in *; cbn [length] in *; rewrite ?app_length in *; cbn [length] in *; lia.

Lemma grammar_override :
  (forall eof b w s ds w' b', forms cc bnd eof b w s ds w' b' -> plain s -> (N_len s <= umax)%N -> forms cc bnd' eof b w s ds w' b') /\
  (forall w s o w', nest cc bnd w s o w' -> plain s -> (N_len s <= umax)%N -> nest cc bnd' w s o w') /\
  (forall w s w', lead cc bnd w s w' -> plain s -> (N_len s <= umax)%N -> lead cc bnd' w s w') /\
  (forall w s dd tx w', head cc bnd w s dd tx w' -> plain s -> (N_len s <= umax)%N -> head cc bnd' w s dd tx w').
Proof.
  apply grammar_mind.
  - constructor.
  - intros eof w s t s' ds w' b' Hn Hr _ IH Hp Hu. pl. constructor; auto. apply IH; auto. ln.
  - intros w s t x Hr Hx _ _. apply f_dangling; auto.
  - intros eof b w s d w1 s' ds w' b' _ IH1 _ IH2 Hp Hu. pl. eapply f_nest; [apply IH1|apply IH2]; auto; ln.
  - intros eof b w s w1 s' ds w' b' _ IH1 _ IH2 Hp Hu. pl. eapply f_removed; [apply IH1|apply IH2]; auto; ln.
  - intros w x l y w' Hx _ IH Hy Hp Hu. pl. constructor; auto. apply IH; auto; ln.
  - intros w x l w1 h d tx w2 sp body ds w' b' y Hx _ IH1 _ IH2 Hb Hsep Hf IH3 Hy Hp Hu. pl.
    destruct (OV d) as [E|(_ & f & E & Hr)].
    + eapply n_unbound; eauto; [apply IH1|apply IH2|rewrite E; exact Hb|apply IH3]; auto; ln.
    + eapply n_operative; eauto; [apply IH1|apply IH2| |]; auto; try ln.
      * apply plain_quoted; auto. eapply forms_balanced; eauto.
      * apply (proj1 (Hr d body w2 ltac:(ln) ltac:(auto) (forms_balanced Hf)) _ _ _ Hf).
  - intros w x l w1 h d tx w2 f sp body ds w3 b' y o w' Hx _ IH1 _ IH2 Hb Hsep Hf IH3 Hy Ho Hp Hu. pl.
    destruct (OV d) as [E|(E & _)]; [|congruence].
    eapply n_applicative; eauto; [apply IH1|apply IH2|rewrite E; exact Hb|apply IH3]; auto; ln.
  - intros w x l w1 h d tx w2 f sp body t y o w' Hx _ IH1 _ IH2 Hb Hsep Hq Hy Ho Hp Hu. pl.
    destruct (OV d) as [E|(E & _)]; [|congruence].
    eapply n_operative; eauto; [apply IH1|apply IH2|rewrite E; exact Hb]; auto; ln.
  - constructor.
  - intros w x s w' Hx _ IH Hp Hu. pl. constructor; auto. apply IH; auto. ln.
  - intros w s w1 s' w' _ IH1 _ IH2 Hp Hu. pl. eapply l_removed; [apply IH1|apply IH2]; auto; ln.
  - intros w s t Hn Hr _ _. constructor; auto.
  - intros w s d w' _ IH Hp Hu. constructor. apply IH; auto.
Qed.

(** Where the nests of a source are closed. *)
Lemma plain_scan x s d : ~ escapes cc x -> scn false d (x :: s) =
  if is_nest_start cc (it_ch x) then scn false (d + 1) s
  else if is_nest_end cc (it_ch x) then if (d =? 0)%N then Unmatched (it_pos x) else scn false (d - 1) s
  else scn false d s.
Proof. intros H. unfold escapes in H. apply not_true_is_false in H. cbn. rewrite H. reflexivity. Qed.
Lemma closes s : forall n d, plain s -> scn false (n + 1 + d) s = Balanced ->
  exists s0 y r, s = s0 ++ y :: r /\ ends cc y /\ forall k z, scn false (n + k) (s0 ++ z) = scn false k z.
Proof.
  induction s as [|x s IH]; intros n d Hp H.
  - exfalso. cbn in H. destruct (N.eqb_spec (n + 1 + d) 0); [lia|discriminate].
  - pl. rewrite plain_scan in H by auto.
    destruct (is_nest_start cc (it_ch x)) eqn:Es; [|destruct (is_nest_end cc (it_ch x)) eqn:Ee].
    + replace (n + 1 + d + 1)%N with (n + 1 + 1 + d)%N in H by lia.
      destruct (IH _ _ H1 H) as (s0 & y & r & -> & Hy & Hk). exists (x :: s0), y, r. split; [reflexivity|]. split; [exact Hy|].
      intros k z. cbn [app]. rewrite plain_scan by auto. rewrite Es. rewrite <- (Hk k z). f_equal. lia.
    + destruct (N.eqb_spec n 0) as [->|Hn].
      * exists [], x, s. split; [reflexivity|]. split; [exact Ee|]. reflexivity.
      * destruct (N.eqb_spec (n + 1 + d) 0); [lia|]. replace (n + 1 + d - 1)%N with ((n - 1) + 1 + d)%N in H by lia.
        destruct (IH _ _ H1 H) as (s0 & y & r & -> & Hy & Hk). exists (x :: s0), y, r. split; [reflexivity|]. split; [exact Hy|].
        intros k z. cbn [app]. rewrite plain_scan by auto. rewrite Es, Ee. destruct (N.eqb_spec (n + k) 0); [lia|].
        rewrite <- (Hk k z). f_equal. lia.
    + destruct (IH _ _ H1 H) as (s0 & y & r & -> & Hy & Hk). exists (x :: s0), y, r. split; [reflexivity|]. split; [exact Hy|].
      intros k z. cbn [app]. rewrite plain_scan by auto. rewrite Es, Ee. apply Hk.
Qed.

Lemma start_scan x s d : starts cc x -> scn false d (x :: s) = scn false (d + 1) s.
Proof. intros H. cbn. destruct (starts_facts DC H) as (E1 & _ & E2 & _). rewrite E2. unfold starts in H. rewrite H. reflexivity. Qed.
Lemma level_lead w l w' : lead cc bnd w l w' -> level cc l.
Proof. intros H d r. eapply (proj1 (proj2 (proj2 (scan_grammar bnd DC)))); eauto. Qed.
Lemma level_head w h d tx w' : head cc bnd w h d tx w' -> level cc h.
Proof. intros H k r. eapply (proj2 (proj2 (proj2 (scan_grammar bnd DC)))); eauto. Qed.
Lemma level_sep tx sp (body : source) : sep cc tx sp body -> level cc sp.
Proof. intros H k r. eapply scan_sep; eauto. Qed.
Lemma level_nest w s r w' : nest cc bnd w s r w' -> level cc s.
Proof. intros H k z. eapply (proj1 (proj2 (scan_grammar bnd DC))); eauto. Qed.

Lemma fails_opens w s e w' : fails cc bnd w s e w' -> exists k, forall d z, scn false d (s ++ z) = scn false (k + d) z.
Proof.
  induction 1 as [w s e w' H|w x l w1 s e w' Hx Hl _ (k & IH)|w x l w1 h d tx w2 sp body ds w3 b s e w' Hx Hl Hh Hb Hs Hf _ (k & IH)].
  - exists 0%N. intros d z. rewrite (level_nest H). reflexivity.
  - exists (k + 1)%N. intros d z. cbn [app]. rewrite start_scan, <- app_assoc, (level_lead Hl), IH by auto. f_equal. lia.
  - exists (k + 1)%N. intros n z. cbn [app]. rewrite start_scan by auto.
    rewrite <- !app_assoc, (level_lead Hl), (level_head Hh), (level_sep Hs), (level_forms DC Hf), IH. f_equal. lia.
Qed.

Lemma fails_override w s e w' : fails cc bnd w s e w' -> forall r d, plain (s ++ r) -> (N_len (s ++ r) <= umax)%N ->
  scn false d (s ++ r) = Balanced ->
  exists s2 r2, s ++ r = s2 ++ r2 /\ fails cc bnd' w s2 e w'.
Proof.
  induction 1 as [w s e w' H|w x l w1 s e w' Hx Hl _ IH|w x l w1 h d tx w2 sp body ds w3 b s e w' Hx Hl Hh Hb Hs Hf Hfa IH];
    intros r n Hp Hu Hsc.
  - pl. exists s, r. split; [reflexivity|]. apply fails_here. apply grammar_override; auto. ln.
  - cbn [app] in *. rewrite <- app_assoc in *. pl. rewrite start_scan, (level_lead Hl) in Hsc by auto.
    destruct (IH r (n + 1)%N) as (s2 & r2 & E & Hf2); [apply plain_app; auto|ln|exact Hsc|].
    exists (x :: l ++ s2), r2. split; [cbn [app]; rewrite <- app_assoc, E; reflexivity|].
    eapply fails_operator; eauto. apply grammar_override; auto; ln.
  - cbn [app] in *. rewrite <- !app_assoc in *. pl.
    rewrite start_scan, (level_lead Hl), (level_head Hh), (level_sep Hs), (level_forms DC Hf) in Hsc by auto.
    assert (Hl' : lead cc bnd' w l w1) by (apply grammar_override; auto; ln).
    assert (Hh' : head cc bnd' w1 h d tx w2) by (apply grammar_override; auto; ln).
    destruct (OV d) as [E|(_ & f & E & Hr)].
    + destruct (IH r (n + 1)%N) as (s2 & r2 & Es & H2'); [apply plain_app; auto|ln|exact Hsc|].
      exists (x :: l ++ h ++ sp ++ body ++ s2), r2. split; [cbn [app]; rewrite <- !app_assoc, Es; reflexivity|].
      assert (Hne : s2 <> []) by (destruct (fails_cons H2') as (? & ? & -> & _); discriminate).
      destruct (fails_cons H2') as (x2 & s2' & E2 & Hx2). destruct (fails_cons Hfa) as (x1 & s1' & E1 & Hx1).
      assert (Hf' : forms cc bnd' false false w2 body ds w3 b) by (apply grammar_override; auto; ln).
      eapply fails_operand; eauto; [rewrite E; exact Hb|].
      subst s2 s. cbn in Es. injection Es as <- _.
      destruct Hs as [Hs|(-> & Hs)]; [left; exact Hs|right; split; [reflexivity|]]. destruct body; exact Hs.
    + destruct (fails_opens Hfa) as (k & Hk). rewrite Hk in Hsc.
      destruct (@closes r k n) as (r0 & y & r2 & -> & Hy & Hc); [auto|rewrite <- Hsc; f_equal; lia|]. pl.
      assert (Eb : balance cc (body ++ s ++ r0) = Balanced).
      { unfold balance. rewrite (level_forms DC Hf), Hk. pose proof (Hc 0%N []) as E0. rewrite app_nil_r in E0. rewrite E0. reflexivity. }
      exists (x :: l ++ h ++ sp ++ (body ++ s ++ r0) ++ [y]), r2. split; [cbn [app]; rewrite <- !app_assoc; reflexivity|].
      apply fails_here. eapply n_operative; eauto.
      * destruct Hs as [Hs|(-> & Hs)]; [left; exact Hs|right; split; [reflexivity|]].
        destruct body; [|exact Hs]. destruct (fails_cons Hfa) as (x1 & s1' & E1 & Hx1). subst s. exact Hs.
      * apply plain_quoted; [|exact Eb]. rewrite !plain_app. auto.
      * apply (proj2 (Hr d (body ++ s ++ r0) w2 ltac:(ln) ltac:(rewrite !plain_app; auto) Eb) body s r0 ds w3 b); auto.
Qed.
End Override.

(** ** Collecting up to the first error *)
Section TryCollect.
Context {S A TT ET Pos CE : Type} (umax : N) (cc : classifier) (so : stream_ops S A TT Pos) (co : concat_ops A TT)
        (ao : alloc_ops A TT ET) (bnd : bindings A TT ET Pos CE).
Local Notation oks ds := (map (fun d => Some (inl d)) ds).

Lemma try_collect_ok : forall n f st ds st', iter_collect umax cc so co ao bnd n f st = (Ok (map inl ds), st') ->
  try_collect umax cc so co ao bnd n f st = (Ok (inl ds), st').
Proof.
  induction n as [|n IH]; intros f st ds st' E; cbn [iter_collect try_collect] in *; [discriminate|].
  destruct (iter_next umax cc so co ao bnd f st) as [[[x|]|[]| |] st1]; try discriminate.
  - destruct (iter_collect umax cc so co ao bnd n f st1) as [[l|[]| |] st2] eqn:E1; cbn in E; try discriminate.
    injection E as E <-. destruct ds as [|d ds]; [discriminate|]. cbn in E. injection E as -> ->.
    rewrite (IH _ _ _ _ E1). reflexivity.
  - destruct ds; [|discriminate]. injection E as <-. reflexivity.
Qed.
Lemma try_collect_err : forall n f st ds e rest st', iter_collect umax cc so co ao bnd n f st = (Ok (map inl ds ++ inr e :: rest), st') ->
  exists st1, try_collect umax cc so co ao bnd n f st = (Ok (inr e), st1) /\
    nexts umax cc so co ao bnd st (oks ds ++ [Some (inr e)]) st1.
Proof.
  induction n as [|n IH]; intros f st ds e rest st' E; cbn [iter_collect try_collect] in *; [discriminate|].
  destruct (iter_next umax cc so co ao bnd f st) as [[[x|]|[]| |] st1] eqn:En; try discriminate.
  - destruct (iter_collect umax cc so co ao bnd n f st1) as [[l|[]| |] st2] eqn:E1; cbn in E; try discriminate.
    injection E as E <-. destruct ds as [|d ds]; cbn in E; injection E as -> ->.
    + exists st1. split; [reflexivity|]. econstructor; [exact En|constructor].
    + destruct (IH _ _ _ _ _ _ E1) as (st3 & Et & Hn). exists st3. rewrite Et. split; [reflexivity|].
      econstructor; [exact En|exact Hn].
  - destruct ds; discriminate.
Qed.
Lemma items_cases (items : list (datum TT ET + error Pos CE)) :
  (exists ds, items = map inl ds) \/ (exists ds e rest, items = map inl ds ++ inr e :: rest).
Proof.
  induction items as [|[d|e] items IH].
  - left. exists []. reflexivity.
  - destruct IH as [(ds & ->)|(ds & e & rest & ->)]; [left; exists (d :: ds)|right; exists (d :: ds), e, rest]; reflexivity.
  - right. exists [], e, items. reflexivity.
Qed.
End TryCollect.

(** ** The operative over abstract texts *)
Section AbsReparse.
Context {W ET Pos CE : Type} (umax : N) (cc : classifier) (DC : disjoint_classes cc).
Local Notation text := (list (item Pos)).
Local Notation bindings := (bindings W text ET Pos CE).
Local Notation anexts bnd := (nexts umax cc (@abs_stream W Pos) abs_concat abs_alloc bnd).
Local Notation aiterates bnd := (iterates umax cc (@abs_stream W Pos) abs_concat abs_alloc bnd).
Local Notation acollect bnd := (iter_collect umax cc (@abs_stream W Pos) abs_concat abs_alloc bnd).
Local Notation oks ds := (map (fun d => Some (inl d)) ds).

Definition abs_reparse (bnd : bindings) :=
  reparse umax cc (@abs_stream W Pos) abs_concat abs_alloc bnd (fun t => Ok (t, [])) (@length _).

Lemma oks_map (ds : list (datum text ET)) (e : error Pos CE) :
  map Some (map inl ds ++ [inr e]) = oks ds ++ [Some (inr e)].
Proof. rewrite map_app, map_map. reflexivity. Qed.

Definition not_datum {X Y : Type} (o : option (X + Y)) := match o with Some (inl _) => False | _ => True end.

Lemma oks_split (ds ds' : list (datum text ET)) (x x' : option (datum text ET + error Pos CE)) :
  not_datum x -> not_datum x' ->
  forall r r', oks ds ++ x :: r = oks ds' ++ x' :: r' -> ds = ds' /\ x = x' /\ r = r'.
Proof.
  intros Hx Hx'. revert ds'. induction ds as [|d ds IH]; intros [|d' ds'] r r' E; cbn in E.
  - injection E as -> ->. auto.
  - injection E as -> ->. destruct Hx.
  - injection E as <- <-. destruct Hx'.
  - injection E as -> E. destruct (IH _ _ _ E) as (-> & -> & ->). auto.
Qed.

Lemma nexts_prefix (bnd : bindings) st os a (H : anexts bnd st os a) : forall os' b, anexts bnd st os' b ->
  exists r, (os' = os ++ r /\ anexts bnd a r b) \/ (os = os' ++ r /\ anexts bnd b r a).
Proof.
  induction H as [st|f st o st1 os st2 E H IH]; intros os' b H'.
  - exists os'. left. auto.
  - inversion H' as [|f' ? o' st1' os'' ? E' H'']; subst.
    + exists (o :: os). right. split; [reflexivity|]. econstructor; eauto.
    + destruct (i_next_det _ _ _ _ _ _ _ _ _ E E') as [-> ->]. destruct (IH _ _ H'') as (r & [[-> Hr]|[-> Hr]]);
        exists r; [left|right]; auto.
Qed.

Lemma first_end_unique (bnd : bindings) st ds x a ds' x' b : not_datum x -> not_datum x' ->
  anexts bnd st (oks ds ++ [x]) a -> anexts bnd st (oks ds' ++ [x']) b -> ds = ds' /\ x = x' /\ a = b.
Proof.
  intros Hx Hx' H H'. destruct (nexts_prefix H H') as (r & [[E Hr]|[E Hr]]); rewrite <- app_assoc in E; cbn in E.
  - destruct (@oks_split _ _ _ _ Hx' Hx _ _ E) as (-> & -> & <-). inversion Hr; subst. auto.
  - destruct (@oks_split _ _ _ _ Hx Hx' _ _ E) as (-> & -> & <-). inversion Hr; subst. auto.
Qed.

(** What the operative gives. *)
Lemma abs_reparse_ok (bnd : bindings) d t w ds w' : (N_len t <= umax)%N -> input cc bnd w t ds w' ->
  abs_reparse bnd d t w = (inl (Some (DComb d (dlist ds))), w').
Proof.
  intros Hu H. unfold abs_reparse, reparse. change (parse_iter_new (t, []) w) with (ast t [] 0 w).
  assert (E : acollect bnd (parse_calls (length t)) (parse_fuel (length t)) (ast t [] 0 w) = (Ok (map inl ds), ast [] [] 0 w')).
  { apply (input_parses DC Hu H); unfold parse_calls, parse_fuel; lia. }
  assert (E' := try_collect_ok _ _ _ _ _ _ _ _ _ _ E). rewrite E'. reflexivity.
Qed.
Lemma abs_reparse_err (bnd : bindings) d t w ds e a : (N_len t <= umax)%N -> anexts bnd (ast t [] 0 w) (oks ds ++ [Some (inr e)]) a ->
  abs_reparse bnd d t w = (inr e, ps_alloc a).
Proof.
  intros Hu H. unfold abs_reparse, reparse. change (parse_iter_new (t, []) w) with (ast t [] 0 w).
  destruct (i_collect_total cc bnd t w Hu (n:=parse_calls (length t)) (f:=parse_fuel (length t)))
    as (items & st' & E); [unfold parse_calls; lia|unfold parse_fuel; lia|].
  destruct (items_cases items) as [(ds' & ->)|(ds' & e' & rest & ->)].
  - exfalso.
    assert (Hi : aiterates bnd (ast t [] 0 w) (map inl ds') st') by (do 2 eexists; exact E).
    apply iterates_nexts in Hi. rewrite map_map in Hi.
    destruct (@first_end_unique bnd _ ds (Some (inr e)) _ ds' None _ I I H Hi) as (_ & [=] & _).
  - destruct (try_collect_err _ _ _ _ _ _ _ _ _ _ _ _ E) as (st1 & Et & Hn). rewrite Et.
    destruct (@first_end_unique bnd _ ds (Some (inr e)) _ ds' (Some (inr e')) _ I I H Hn) as (_ & [= ->] & ->).
    reflexivity.
Qed.

Lemma abs_reparse_cases (bnd : bindings) d t w : (N_len t <= umax)%N ->
  (exists ads w', abs_reparse bnd d t w = (inl (Some (DComb d (dlist ads))), w') /\ input cc bnd w t ads w') \/
  (exists e w', abs_reparse bnd d t w = (inr e, w') /\ forall ads w'', ~ input cc bnd w t ads w'').
Proof.
  intros Hu. destruct (i_collect_total cc bnd t w Hu (n:=parse_calls (length t)) (f:=parse_fuel (length t)))
    as (items & st' & E); [unfold parse_calls; lia|unfold parse_fuel; lia|].
  destruct (items_cases items) as [(ds' & ->)|(ds' & e' & rest & ->)].
  - left. destruct (parses_input umax bnd DC _ _ _ _ _ E) as (w' & -> & Hi). exists ds', w'. split; [|exact Hi].
    apply abs_reparse_ok; auto.
  - right. destruct (try_collect_err _ _ _ _ _ _ _ _ _ _ _ _ E) as (st1 & _ & Hn).
    exists e', (ps_alloc st1). split; [eapply abs_reparse_err; eauto|]. intros ads w'' Hi.
    assert (H' : aiterates bnd (ast t [] 0 w) (map inl ads) (ast [] [] 0 w'')).
    { exists (Datatypes.S (length t)), (3 * length t + 3). apply (input_parses DC Hu Hi); lia. }
    apply iterates_nexts in H'. rewrite map_map in H'.
    destruct (@first_end_unique bnd _ ds' (Some (inr e')) _ ads None _ I I Hn H') as (_ & [=] & _).
Qed.

(** The same datums and the same first error. *)
Context (bnd bnd' : bindings) (OV : overrides umax cc bnd bnd').

Lemma override_input w s ds w' : plain cc s -> (N_len s <= umax)%N -> input cc bnd w s ds w' -> input cc bnd' w s ds w'.
Proof. intros Hp Hu [b H]. exists b. apply (proj1 (grammar_override DC OV)); auto. Qed.

Lemma override_fails w s u f r ds w1 b e w' : plain cc s -> (N_len s <= umax)%N -> balance cc s = Balanced ->
  s = u ++ f ++ r -> forms cc bnd false false w u ds w1 b -> fails cc bnd w1 f e w' ->
  exists a, anexts bnd' (ast s [] 0 w) (oks ds ++ [Some (inr e)]) a /\ ps_alloc a = w'.
Proof.
  intros Hp Hu Hbal -> Hf Hx. unfold balance in Hbal. rewrite (level_forms DC Hf) in Hbal.
  apply plain_app in Hp as [Hp1 Hp2].
  assert (L : (N_len u <= umax)%N /\ (N_len (f ++ r) <= umax)%N) by (rewrite app_length in Hu; lia).
  destruct L as [L1 L2].
  destruct (fails_override DC OV Hx r 0%N Hp2 L2 Hbal) as (s2 & r2 & E & Hx').
  rewrite E in *. exists (ast r2 [] 0 w'). split; [|reflexivity].
  eapply fails_nexts; eauto.
  - rewrite !app_length in *. lia.
  - apply (proj1 (grammar_override DC OV)); eauto.
Qed.

Lemma override_error w s ds e a : plain cc s -> (N_len s <= umax)%N -> balance cc s = Balanced ->
  anexts bnd (ast s [] 0 w) (oks ds ++ [Some (inr e)]) a ->
  exists a', anexts bnd' (ast s [] 0 w) (oks ds ++ [Some (inr e)]) a' /\ ps_alloc a' = ps_alloc a.
Proof.
  intros Hp Hu Hbal H. destruct (first_error_cases DC _ _ H)
    as [(_ & Hc & _)|[(u & x & r & ds0 & w1 & b & -> & Hx & _ & Hf & _)|(u & f & r & w1 & w2 & b & E & Hf & Hx & ->)]].
  - congruence.
  - exfalso. unfold balance in Hbal. rewrite (level_forms DC Hf) in Hbal.
    unfold ends in Hx. cbn [scan] in Hbal. rewrite Hx, (proj1 (dc_end DC _ Hx)) in Hbal.
    destruct (is_nest_start cc (it_ch x)) eqn:Es; [|discriminate]. pose proof (dc_start DC _ Es) as [G _]. congruence.
  - exact (override_fails _ Hp Hu Hbal E Hf Hx).
Qed.

Lemma override_reparses : reparses umax cc bnd (abs_reparse bnd').
Proof.
  intros d t w Hu Hp Hb. split.
  - intros ds w' b Hf. apply abs_reparse_ok; auto. apply override_input; auto. exists b. apply forms_eof. exact Hf.
  - intros u s r ds w1 b e w' E Hf Hx. destruct (override_fails _ Hp Hu Hb E Hf Hx) as (a & H & <-).
    eapply abs_reparse_err; eauto.
Qed.

Lemma override_items w s items st items' st' : plain cc s -> (N_len s <= umax)%N -> balance cc s = Balanced ->
  aiterates bnd (ast s [] 0 w) items st -> aiterates bnd' (ast s [] 0 w) items' st' ->
  upto_err items = upto_err items' /\ (ps_alloc st = ps_alloc st' \/ exists e, In (inr e) items).
Proof.
  intros Hp Hu Hb H H'.
  destruct (items_cases items) as [(ds & ->)|(ds & e & rest & ->)].
  - destruct H as (n & f & E). destruct (parses_input umax bnd DC _ _ _ _ _ E) as (w' & -> & Hi).
    apply override_input in Hi; auto.
    assert (E' : aiterates bnd' (ast s [] 0 w) (map inl ds) (ast [] [] 0 w')).
    { exists (Datatypes.S (length s)), (3 * length s + 3). apply (input_parses DC Hu Hi); lia. }
    destruct (iterates_det E' H') as [<- <-]. split; [reflexivity|left; reflexivity].
  - split; [|right; exists e; apply in_or_app; right; left; reflexivity].
    apply iterates_nexts in H. rewrite map_app in H. cbn [map] in H. rewrite map_map, <- app_assoc in H. cbn [app] in H.
    change (?a ++ ?x :: ?l) with (a ++ [x] ++ l) in H. rewrite app_assoc in H.
    apply nexts_app_inv in H as (a & H & _).
    destruct (override_error _ _ Hp Hu Hb H) as (a' & Ha & _).
    destruct (items_cases items') as [(ds' & ->)|(ds' & e' & rest' & ->)].
    + exfalso. apply iterates_nexts in H'. rewrite map_map in H'.
      destruct (@first_end_unique bnd' _ ds (Some (inr e)) _ ds' None _ I I Ha H') as (_ & [=] & _).
    + apply iterates_nexts in H'. rewrite map_app in H'. cbn [map] in H'. rewrite map_map, <- app_assoc in H'. cbn [app] in H'.
      change (?a ++ ?x :: ?l) with (a ++ [x] ++ l) in H'. rewrite app_assoc in H'.
      apply nexts_app_inv in H' as (b & H' & _).
      destruct (@first_end_unique bnd' _ ds (Some (inr e)) _ ds' (Some (inr e')) _ I I Ha H') as (-> & [= ->] & _).
      rewrite !upto_err_err. reflexivity.
Qed.
End AbsReparse.

(** ** The operative over concrete texts *)
Section Concrete.
Context {S A TT ET Pos CE W AE AC : Type}.
Context (umax : N) (cc : classifier) (so : stream_ops S A TT Pos) (co : concat_ops A TT)
        (ao : alloc_ops A TT ET) (bnd : bindings A TT ET Pos CE).
Local Notation text := (list (item Pos)).
Context (view : A -> W) (abnd : bindings W text AE Pos AC).
Context (Rs : S -> text -> text -> Prop) (Rt : TT -> text -> Prop)
        (Rx : ET -> AE -> Prop) (Rc : CE -> AC -> Prop).
Context (LW : lawful False view so co ao bnd abnd Rs Rt Rx Rc).
Local Notation Rd := (datum_rel Rt Rx).
Local Notation Re := (error_rel (@eq Pos) Rc).
Local Notation srel := (st_rel (Rs_abs Rs) (Ra_view view)).

Definition try_rel (o1 : res Empty_set (list (datum TT ET) + error Pos CE) * pstate S A)
  (o2 : res Empty_set (list (datum text AE) + error Pos AC) * pstate (@abs_state Pos) W) : Prop :=
  match fst o1, fst o2 with
  | Ok (inl l1), Ok (inl l2) => Forall2 Rd l1 l2 /\ srel (snd o1) (snd o2)
  | Ok (inr e1), Ok (inr e2) => Re e1 e2 /\ srel (snd o1) (snd o2)
  | Panic, Panic => True
  | OutOfFuel, OutOfFuel => True
  | _, _ => False
  end.

Lemma sim_try_collect fuel n : forall st1 st2, srel st1 st2 ->
  try_rel (try_collect umax cc so co ao bnd n fuel st1)
    (try_collect umax cc (@abs_stream W Pos) abs_concat abs_alloc abnd n fuel st2).
Proof.
  induction n as [|n IH]; intros st1 st2 H; cbn [try_collect]; [exact I|].
  pose proof (sim_iter_next umax cc (lw_sim_stream LW) (lw_sim_concat LW) (lw_sim_alloc LW) (lw_bnd LW) fuel H) as G.
  unfold next_rel in G.
  destruct (iter_next umax cc so co ao bnd fuel st1) as [[[x1|]|[]| |] s1],
           (iter_next umax cc (@abs_stream W Pos) abs_concat abs_alloc abnd fuel st2) as [[[x2|]|[]| |] s2];
    cbn in *; try tauto.
  - destruct G as [[Hx Hs]|[HL _]]; [|tauto]. destruct x1 as [d1|e1], x2 as [d2|e2]; cbn in Hx; try tauto.
    + specialize (IH _ _ Hs). unfold try_rel in *.
      destruct (try_collect umax cc so co ao bnd n fuel s1) as [[[l1|e1]|[]| |] t1],
        (try_collect umax cc (@abs_stream W Pos) abs_concat abs_alloc abnd n fuel s2) as [[[l2|e2]|[]| |] t2];
        cbn in *; try tauto. destruct IH. auto.
    + unfold try_rel. cbn. auto.
  - destruct G as [[_ Hs]|[HL _]]; [|tauto]. split; [constructor|exact Hs].
Qed.

Lemma dlist_rel l1 l2 : Forall2 Rd l1 l2 -> Rd (fold_right DList DEmptyList l1) (fold_right DList DEmptyList l2).
Proof. induction 1; cbn; constructor; auto. Qed.

Lemma dlist_rel_inv l1 : forall l2, Rd (fold_right DList DEmptyList l1) (fold_right DList DEmptyList l2) -> Forall2 Rd l1 l2.
Proof.
  induction l1 as [|d1 l1 IH]; intros [|d2 l2] H; cbn in H; try contradiction; constructor; [apply H|apply IH, H].
Qed.

Lemma reparse_rel (opens : TT -> res Empty_set S) (size : TT -> nat) :
  (forall t l, Rt t l -> exists s, opens t = Ok s /\ Rs s l []) ->
  (forall t l, Rt t l -> size t = length l) ->
  combiner_rel False (Ra_view view) Rt Rx eq Rc
    (Operative (reparse umax cc so co ao bnd opens size)) (Operative (abs_reparse umax cc abnd)).
Proof.
  intros Ho Hz d1 d2 t1 t2 a1 a2 Hd Ht Ha. unfold abs_reparse, reparse.
  destruct (Ho _ _ Ht) as (s & -> & Hs). rewrite (Hz _ _ Ht).
  assert (G : srel (parse_iter_new s a1) (parse_iter_new (t2, []) a2)) by (repeat split; auto).
  apply (sim_try_collect (parse_fuel (length t2)) (parse_calls (length t2))) in G. unfold try_rel in G.
  destruct (try_collect umax cc so co ao bnd _ _ _) as [[[l1|e1]|[]| |] u1],
    (try_collect umax cc (@abs_stream W Pos) abs_concat abs_alloc abnd _ _ _) as [[[l2|e2]|[]| |] u2];
    cbn in G; try tauto; unfold cres_rel; cbn.
  - destruct G as [Hl (_ & _ & Hu)]. split; [|exact Hu]. cbn. constructor; [exact Hd|]. apply dlist_rel. exact Hl.
  - destruct G as [He (_ & _ & Hu)]. left. auto.
  - auto.
  - auto.
Qed.
End Concrete.

(** ** The same with the types of src/common/inmem.rs *)
Section InMem.
Context {W ET CE : Type} (ET_eq : ET -> ET -> bool) (ET_hash : ET -> list hash_word)
        (hasher : list hash_word -> N)
        (XH : forall a b, ET_eq a b = true -> ET_hash a = ET_hash b).
Local Notation text := (list (item strpos)).
Local Notation Rt := (text_items (im_ops (W:=W)) posstr_any).
Local Notation Rd := (datum_rel Rt (@eq ET)).
Definition im_named (k : datum im_text ET) : Prop := exists ak : datum text ET, Rd k ak.

Lemma im_size_rep t l : Rt t l -> im_size (W:=W) t = length l.
Proof.
  intros H. unfold im_size. pose proof posstr_any_contract as KC.
  destruct (titer_new_rep (A:=W) (Rcs:=posstr_any_state) KC H) as (s & E & Hs). rewrite E. cbn [res_bind].
  assert (G : titer_collect posstr_ops (text_fuel (im_ops (W:=W)) posstr_size t) s = Ok l)
    by exact (titer_collect_rep KC (tvec_contract KC False (fun w : W => w)) Hs (text_fuel_enough posstr_size posstr_size_ok H)).
  rewrite G. reflexivity.
Qed.

Lemma im_reparse_rel (m : im_bindings (W:=W) (ET:=ET) (CE:=CE)) am : str_bindings m am ->
  combiner_rel False (Ra_view (fun w => w)) Rt eq eq eq
    (Operative (im_reparse ET_eq ET_hash hasher m))
    (Operative (abs_reparse usize_max default_classifier (abs_lookup ET_eq am))).
Proof.
  intros H. unfold im_reparse. eapply reparse_rel.
  - apply str_lawful; auto.
  - intros t l Ht. exact (titer_new_rep (A:=W) (Rcs:=posstr_any_state) posstr_any_contract Ht).
  - exact im_size_rep.
Qed.

Lemma im_reparse_shape (m : im_bindings (W:=W) (ET:=ET) (CE:=CE)) d t w :
  (exists ds w', im_reparse ET_eq ET_hash hasher m d t w = (inl (Some (DComb d (fold_right DList DEmptyList ds))), w')) \/
  (exists e w', im_reparse ET_eq ET_hash hasher m d t w = (inr e, w')) \/
  (exists w', im_reparse ET_eq ET_hash hasher m d t w = (inl None, w')).
Proof.
  unfold im_reparse, reparse. destruct (titer_new _ _ _) as [s|[]| |]; eauto 6.
  destruct (try_collect _ _ _ _ _ _ _ _ _) as [[[ds|e]|[]| |] st]; eauto 6.
Qed.

Lemma hm_insert_new (K V : Type) (eqb : K -> K -> bool) (h : K -> list hash_word) k (v : V) m :
  hm_lookup eqb h hasher m k = None -> hm_insert eqb h hasher k v m = m ++ [(k, v)].
Proof.
  induction m as [|[k' v'] m IH]; [reflexivity|]. cbn. destruct (same_key _ _ _ _ _); [discriminate|].
  intros H. rewrite (IH H). reflexivity.
Qed.
Lemma pair_lookup_app (K V : Type) (eqb : K -> K -> bool) k (v : V) m d :
  pair_lookup eqb (m ++ [(k, v)]) d =
  match pair_lookup eqb m d with Some c => Some c | None => if eqb d k then Some v else None end.
Proof. induction m as [|[k' v'] m IH]; [reflexivity|]. cbn. destruct (eqb d k'); auto. Qed.

Lemma overrides_refl {Pos} umax cc (bnd : bindings W (list (item Pos)) ET Pos CE) : overrides umax cc bnd bnd.
Proof. intros d. left. reflexivity. Qed.

Lemma reparsing_overrides (m m' : im_bindings (W:=W) (ET:=ET) (CE:=CE)) am : disjoint_classes default_classifier ->
  str_bindings m am -> reparsing ET_eq ET_hash hasher im_named m m' ->
  exists am', str_bindings m' am' /\
    overrides usize_max default_classifier (abs_lookup ET_eq am) (abs_lookup ET_eq am').
Proof.
  intros DC Hm. induction 1 as [|k m1 m2 _ (am1 & H1 & O1) _ (am2 & H2 & O2) (ak & Hk) Hl].
  - exists am. split; [exact Hm|apply overrides_refl].
  - exists (am1 ++ [(ak, Operative (abs_reparse usize_max default_classifier (abs_lookup ET_eq am2)))]). split.
    + unfold im_lookup in Hl. rewrite hm_insert_new by exact Hl. apply Forall2_app; [exact H1|].
      constructor; [|constructor]. split; [exact Hk|]. apply im_reparse_rel. exact H2.
    + intros d. unfold abs_lookup. rewrite pair_lookup_app. specialize (O1 d). unfold abs_lookup in O1.
      destruct (pair_lookup _ am1 d) as [c|]; [exact O1|].
      destruct (datum_eq _ _ _ _); [|exact O1]. right. split; [destruct O1 as [<-|[-> _]]; reflexivity|].
      eexists. split; [reflexivity|]. apply override_reparses; [exact DC|exact O2].
Qed.
End InMem.
