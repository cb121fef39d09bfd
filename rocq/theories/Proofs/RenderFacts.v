(** What is written by [Render] is derivable in the grammar. *)
From Coq Require Import List NArith Bool Lia.
From Verif.Model Require Import Prelude Parser.
From Verif.Spec Require Import Grammar Canonical Render.
From Verif.Proofs Require Import Sim GrammarFacts.
Import ListNotations.
Set Implicit Arguments.

Lemma map_app_inv {X Y} (f : X -> Y) l a b : map f l = a ++ b ->
  exists l1 l2, l = l1 ++ l2 /\ map f l1 = a /\ map f l2 = b.
Proof.
  revert l. induction a as [|y a IH]; intros l H; cbn in H.
  - exists [], l. auto.
  - destruct l as [|x l]; cbn in H; [discriminate|]. injection H as E H.
    destruct (IH _ H) as (l1 & l2 & -> & H1 & H2). exists (x :: l1), l2. cbn. subst. auto.
Qed.
Lemma map_cons_inv {X Y} (f : X -> Y) l a b : map f l = a :: b ->
  exists x l', l = x :: l' /\ f x = a /\ map f l' = b.
Proof. destruct l as [|x l]; intros H; cbn in H; [discriminate|]. injection H as E H. eauto. Qed.

Section Facts.
Context {W ET Pos CE : Type} (cc : classifier) (bnd : bindings W (list (item Pos)) ET Pos CE).
Context (DC : disjoint_classes cc) (k : delimiters) (DK : delimiters_of cc k).
Context (NB : forall d, bnd d = None).
Local Notation source := (list (item Pos)).
Local Notation forms := (forms cc bnd).
Local Notation nest := (nest cc bnd).
Local Notation head := (head cc bnd).
Local Notation chs := (map (@it_ch Pos)).
Definition text_chars (t : list (item Pos)) (u : list char) : Prop := chs t = u.
Local Notation Rd := (datum_rel text_chars (@eq ET)).

Lemma escape_raw stop p u s : (forall c, p c = false -> stop c = false /\ is_nest_escape cc c = false) ->
  chs s = escape_where k p u -> exists t, raw cc stop s t /\ chs t = u.
Proof.
  intros Hp. revert s. induction u as [|c u IH]; intros s Es; cbn in Es.
  - apply map_eq_nil in Es. subst. exists []. split; constructor.
  - destruct (p c) eqn:P; cbn in Es.
    + destruct (map_cons_inv _ _ Es) as (x & s1 & -> & Ex & Es1).
      destruct (map_cons_inv _ _ Es1) as (y & s2 & -> & Ey & Es2).
      destruct (IH _ Es2) as (t & Hr & Ht). exists (y :: t). split.
      * apply raw_escaped; [|exact Hr]. unfold escapes. rewrite Ex. apply DK.
      * cbn. congruence.
    + destruct (map_cons_inv _ _ Es) as (x & s1 & -> & Ex & Es1).
      destruct (IH _ Es1) as (t & Hr & Ht). destruct (Hp _ P) as [P1 P2]. exists (x :: t). split.
      * apply raw_plain; [rewrite Ex; exact P1|unfold escapes; rewrite Ex, P2; discriminate|exact Hr].
      * cbn. congruence.
Qed.
Lemma escape_nil p u s : chs s = escape_where k p u -> u <> [] -> s <> [].
Proof. intros E Hu ->. destruct u as [|c u]; [auto|]. cbn in E. destruct (p c); discriminate. Qed.

Lemma escape_text_raw u s : chs s = escape_text cc k u -> exists t, raw cc (delimiter cc) s t /\ chs t = u.
Proof.
  apply escape_raw. intros c H. unfold special, delimiter in *.
  destruct (is_nest_start cc c), (is_nest_end cc c), (is_nest_escape cc c); auto; discriminate.
Qed.
Lemma escape_operator_raw u s : chs s = escape_operator cc k u ->
  exists t, raw cc (operator_delimiter cc) s t /\ chs t = u.
Proof.
  apply escape_raw. intros c H. unfold special, operator_delimiter, delimiter in *.
  destruct (is_nest_start cc c), (is_nest_end cc c), (is_nest_escape cc c), (is_whitespace cc c); auto; discriminate.
Qed.

(** The list of operands is written as the sequence of operands. *)
Lemma render_proper_list (ds : list (datum (list char) ET)) :
  render cc k AsOperands (proper_list ds) = render_all cc k ds.
Proof. induction ds as [|d ds IH]; [reflexivity|]. cbn [proper_list fold_right render render_all flat_map]. f_equal. exact IH. Qed.

Lemma dlist_rel ads (ds : list (datum (list char) ET)) : Forall2 Rd ads ds -> Rd (dlist ads) (proper_list ds).
Proof. induction 1; cbn; auto. Qed.

Lemma render_grammar :
  (forall b ds, canon_seq b ds -> forall s w, chs s = render_all cc k ds ->
     exists ads b', Forall2 Rd ads ds /\ forms false b w s ads w b') /\
  (forall d, canon_nest d -> forall s w, chs s = render cc k AsForm d ->
     exists ad, Rd ad d /\ nest w s (inl (Some ad)) w) /\
  (forall d, canon_operator d -> forall s w, chs s = render cc k AsOperator d ->
     exists ad tx, Rd ad d /\ head w s ad tx w).
Proof.
  apply canon_mind.
  - intros b s w E. apply map_eq_nil in E. subst. exists [], b. split; constructor.
  - intros t ds Ht _ IH s w E. cbn in E. destruct (map_app_inv _ _ _ _ E) as (s1 & s2 & -> & E1 & E2).
    destruct (escape_text_raw _ _ E1) as (u & Hr & Hu).
    destruct (IH _ w E2) as (ads & b' & Hd & Hf). exists (DText u :: ads), b'. split.
    + constructor; [exact Hu|exact Hd].
    + apply f_text; [eapply escape_nil; [exact E1|exact Ht]|exact Hr|exact Hf].
  - intros b d ds _ IHd _ IH s w E. cbn in E. destruct (map_app_inv _ _ _ _ E) as (s1 & s2 & -> & E1 & E2).
    destruct (IHd _ w E1) as (ad & Hd & Hn). destruct (IH _ w E2) as (ads & b' & Hds & Hf).
    exists (ad :: ads), b'. split; [constructor; auto|]. eapply f_nest; eauto.
  - intros s w E. cbn in E. destruct (map_cons_inv _ _ E) as (x & s1 & -> & Ex & E1).
    destruct (map_cons_inv _ _ E1) as (y & s2 & -> & Ey & E2). apply map_eq_nil in E2. subst s2.
    exists DEmptyNest. split; [constructor|]. change [x; y] with (x :: [] ++ [y]).
    apply n_empty; [unfold starts; rewrite Ex; apply DK|constructor|unfold ends; rewrite Ey; apply DK].
  - intros d ds _ IHd _ IH s w E. cbn [render] in E. rewrite render_proper_list in E.
    destruct (map_cons_inv _ _ E) as (x & s1 & -> & Ex & E1).
    destruct (map_app_inv _ _ _ _ E1) as (h & s2 & -> & Eh & E2).
    destruct (map_cons_inv _ _ E2) as (sp & s3 & -> & Esp & E3).
    destruct (map_app_inv _ _ _ _ E3) as (body & s4 & -> & Eb & E4).
    destruct (map_cons_inv _ _ E4) as (y & s5 & -> & Ey & E5). apply map_eq_nil in E5. subst s5.
    destruct (IHd _ w Eh) as (ad & tx & Hd & Hh). destruct (IH _ w Eb) as (ads & b' & Hds & Hf).
    exists (DComb ad (dlist ads)). split; [split; [exact Hd|apply dlist_rel; exact Hds]|].
    change (x :: h ++ sp :: body ++ [y]) with (x :: [] ++ h ++ [sp] ++ body ++ [y]).
    eapply n_unbound; eauto.
    + unfold starts. rewrite Ex. apply DK.
    + constructor.
    + left. exists sp. split; [reflexivity|]. unfold white. rewrite Esp. apply DK.
    + unfold ends. rewrite Ey. apply DK.
  - intros t Ht s w E. cbn in E. destruct (escape_operator_raw _ _ E) as (u & Hr & Hu).
    exists (DText u), true. split; [exact Hu|].
    apply h_text; [eapply escape_nil; [exact E|exact Ht]|exact Hr].
  - intros d Hd IH s w E.
    assert (E' : chs s = render cc k AsForm d).
    { rewrite E. inversion Hd; reflexivity. }
    destruct (IH _ w E') as (ad & Hr & Hn). exists ad, false. split; [exact Hr|]. apply h_nest. exact Hn.
Qed.

Theorem render_input ds s w : canon_seq false ds -> chs s = render_all cc k ds ->
  exists ads, input cc bnd w s ads w /\ Forall2 Rd ads ds.
Proof.
  intros H E. destruct (proj1 render_grammar _ _ H _ w E) as (ads & b' & Hd & Hf).
  exists ads. split; [|exact Hd]. exists b'. apply forms_eof. exact Hf.
Qed.

End Facts.

(** Escaped text is a text, whatever is bound. *)
Theorem escape_input {W ET Pos CE} cc (bnd : bindings W (list (item Pos)) ET Pos CE) k u s w :
  delimiters_of cc k -> u <> [] -> map it_ch s = escape_text cc k u ->
  exists t, input cc bnd w s [DText t] w /\ map it_ch t = u.
Proof.
  intros DK Hu E. destruct (escape_text_raw DK _ _ E) as (t & Hr & Ht). exists t. split; [|exact Ht].
  exists true. rewrite <- (app_nil_r s). apply f_text; [eapply escape_nil; [exact E|exact Hu]|exact Hr|constructor].
Qed.
