(** Dropping boxes when texts or extras hold boxes themselves. *)
From Coq Require Import List Arith Lia Permutation.
From Verif.Model Require Import Prelude Drop DropValue DropExtra.
From Verif.Spec Require Import Drops DropExtras.
From Verif.Proofs Require Import DropFacts.
Import ListNotations.
Set Implicit Arguments.

Section Expand.
Context {V : Type}.
Local Notation box := (bref (deep V)).
Local Notation log' := (list (event V)).

(** What the drops of values do, given by [xc], and the values for which they do it. *)
Context (xc : deep V -> log') (okx : deep V -> Prop).
Definition expand (e : event (deep V)) : log' :=
  match e with Freed id => [Freed id] | Dropped x => xc x end.

(** [m'] does what [m] does and the drops of values with it. *)
Definition expands {A} (m : D (list (event (deep V))) A) (m' : D log' A) : Prop := forall h a h', m h = Ok (a, h') ->
  exists evs, h' = h ++ evs /\
    ((forall x, In (Dropped x) evs -> okx x) -> forall s, exists zs, m' s = Ok (a, s ++ zs) /\ Permutation zs (flat_map expand evs)).

Lemma expands_ret A (a : A) : expands (d_ret a) (d_ret a).
Proof.
  intros h a' h' [= <- <-]. exists []. rewrite app_nil_r. split; [reflexivity|]. intros _ s. exists []. rewrite app_nil_r. split; [reflexivity|auto].
Qed.
Lemma expands_panic A m' : expands (d_panic (X := A)) m'. Proof. intros h a h' [=]. Qed.
Lemma expands_nofuel A m' : expands (d_nofuel (X := A)) m'. Proof. intros h a h' [=]. Qed.
Lemma expands_bind A B (m : D _ A) m' (k : A -> D _ B) k' : expands m m' -> (forall a, expands (k a) (k' a)) -> expands (d_bind m k) (d_bind m' k').
Proof.
  intros Hm Hk h b h2. unfold d_bind. destruct (m h) as [[a h1]|e| |] eqn:E; try discriminate. intros E2.
  destruct (Hm _ _ _ E) as (e1 & -> & H1). destruct (Hk a _ _ _ E2) as (e2 & -> & H2). exists (e1 ++ e2). rewrite app_assoc. split; [reflexivity|].
  intros HO s. destruct (H1 (fun x Hx => HO x (in_or_app _ _ _ (or_introl Hx))) s) as (z1 & -> & P1).
  destruct (H2 (fun x Hx => HO x (in_or_app _ _ _ (or_intror Hx))) (s ++ z1)) as (z2 & -> & P2).
  exists (z1 ++ z2). rewrite app_assoc, flat_map_app. split; [reflexivity|]. apply Permutation_app; assumption.
Qed.
Lemma expands_happens id : expands (happens (Freed id)) (happens (Freed id)).
Proof.
  intros h a h' [= <- <-]. exists [Freed id]. split; [reflexivity|]. intros _ s. exists [Freed id]. split; [reflexivity|auto].
Qed.

Local Notation ro := (@box_ops (deep V)).
Local Notation ro' := (@deep_ops V).
Lemma expands_class r : expands (class_of ro r) (class_of ro' r).
Proof. apply expands_bind; [destruct r; apply expands_ret|intros; apply expands_ret]. Qed.
Lemma expands_trytake r : expands (trytake ro r) (trytake ro' r).
Proof. destruct r. apply expands_ret. Qed.
Lemma expands_set r v : expands (r_set ro r v) (r_set ro' r v).
Proof. destruct r. apply expands_ret. Qed.
Lemma expands_take_left lc rc l r : expands (take_left ro lc rc l r) (take_left ro' lc rc l r).
Proof. apply expands_bind; [apply expands_trytake|]. intros [[d|] x]; apply expands_ret. Qed.
Lemma expands_take_right lc rc l r : expands (take_right ro lc rc l r) (take_right ro' lc rc l r).
Proof. apply expands_bind; [apply expands_trytake|]. intros [[d|] x]; apply expands_ret. Qed.
Lemma expands_take_either lc rc l r : expands (take_either ro lc rc l r) (take_either ro' lc rc l r).
Proof. apply expands_bind; [apply expands_trytake|]. intros [[d|] x]; [apply expands_ret|apply expands_take_right]. Qed.
Lemma expands_select lock lc rc l r : expands (select ro lock lc rc l r) (select ro' lock lc rc l r).
Proof.
  pose proof (expands_take_left lc rc l r). pose proof (expands_take_right lc rc l r). pose proof (expands_take_either lc rc l r).
  unfold select. destruct lock as [[]|], lc, rc; auto; apply expands_ret.
Qed.

Section Loop.
Context (drop : box -> D (list (event (deep V))) unit) (drop' : box -> D log' unit).
Context (HD : forall r, expands (drop r) (drop' r)).
Lemma expands_loop : forall fuel lock top, expands (algo1_loop ro drop fuel lock top) (algo1_loop ro' drop' fuel lock top).
Proof.
  induction fuel as [|fuel IH]; intros lock top; [apply expands_nofuel|]. cbn [algo1_loop]. destruct (branches top) as [[l r]|]; [|apply expands_panic].
  apply expands_bind; [apply expands_class|]. intros lc. apply expands_bind; [apply expands_class|]. intros rc.
  apply expands_bind; [apply expands_select|]. intros [[[[[mode d] reuse] oc] other]|[l' r']].
  - destruct (branches d) as [[sl sr]|], oc.
    + destruct mode; (apply expands_bind; [apply expands_set|]; intros reuse'; apply IH).
    + apply expands_bind; [apply HD|]. intros _. apply expands_bind; [apply HD|]. intros _. apply IH.
    + apply expands_panic.
    + apply expands_bind; [apply HD|]. intros _. apply expands_bind; [apply HD|]. intros _. apply IH.
  - apply expands_bind; [apply HD|]. intros _. apply HD.
Qed.
Lemma expands_algo1 fuel r : expands (algo1 ro drop fuel r) (algo1 ro' drop' fuel r).
Proof.
  apply expands_bind; [apply expands_class|]. intros [|]; [|apply expands_ret].
  apply expands_bind; [apply expands_trytake|]. intros [[d|] r']; [|apply expands_ret].
  apply expands_bind; [apply expands_loop|]. intros _. apply expands_ret.
Qed.
End Loop.

(** Values are dropped with at least the depth [extra]. *)
Context (fuel extra : nat).
Context (HX : forall x, okx x -> forall depth s, extra <= depth ->
  exists zs, deep_value_drop (deep_drop fuel depth) x s = Ok (tt, s ++ zs) /\ Permutation zs (xc x)).
Lemma expands_drop : forall depth r, expands (box_drop fuel depth r) (deep_drop fuel (depth + extra) r).
Proof.
  induction depth as [|depth IH]; intros r; [apply expands_nofuel|].
  apply expands_bind; [apply expands_algo1; exact IH|]. intros [id n]. apply expands_bind; [|intros; apply expands_happens].
  destruct n as [a b|a b|[x|]]; cbn [datum_drop].
  - apply expands_bind; [apply IH|intros; apply IH].
  - apply expands_bind; [apply IH|intros; apply IH].
  - intros h a h' [= <- <-]. exists [Dropped x]. split; [reflexivity|]. intros HO s.
    destruct (HX (HO x (or_introl eq_refl)) (depth := depth + extra) s) as (zs & E & P); [lia|]. exists zs. split; [exact E|].
    cbn. rewrite app_nil_r. exact P.
  - apply expands_ret.
Qed.
End Expand.

Section Deep.
Context {V : Type}.
Local Notation box := (bref (deep V)).

Theorem deep_drop_spec n fuel : 2 * n <= fuel -> forall L (r : box) depth s, within L r -> branches_at_most n L r -> 2 * S L <= depth ->
  exists zs, deep_drop fuel depth r s = Ok (tt, s ++ zs) /\ Permutation zs (all_in L r).
Proof.
  intros HF. induction L as [|L IH]; intros r depth s HW HB HD.
  - destruct (@box_drop_spec (deep V) fuel (depth - 2) r []) as (evs & E & P); [destruct HB; lia|]. cbn [app] in E.
    set (xc := fun x : deep V => match x with Deep v l => [Dropped v] end). set (okx := fun x : deep V => match x with Deep v l => l = [] end).
    destruct (@expands_drop V xc okx fuel 0) with (depth := S (S (depth - 2))) (r := r) (h := @nil (event (deep V))) (a := tt) (h' := evs) as (e' & EE & G).
    + intros [v l] ->. intros d s' _. exists [Dropped v]. split; [reflexivity|auto].
    + exact E.
    + cbn in EE. subst e'. destruct (G (fun x Hx => match x return In (Dropped x) evs -> okx x with Deep v l => fun Hx => ltac:(
        destruct l as [|b l]; [reflexivity|exfalso; apply (HW v (b :: l) b (Permutation_in _ P Hx) (or_introl eq_refl))]) end Hx) s) as (zs & EZ & PZ).
      replace (S (S (depth - 2)) + 0) with depth in EZ by lia. exists zs. split; [exact EZ|]. rewrite PZ.
      rewrite (Permutation_flat_map _ P). cbn [all_in]. apply Permutation_refl'. apply flat_map_ext. intros [id|[v l]]; reflexivity.
  - destruct HB as (HB1 & HB2). destruct (@box_drop_spec (deep V) fuel 0 r []) as (evs & E & P); [lia|]. cbn [app] in E.
    set (xc := fun x : deep V => match x with Deep v l => Dropped v :: flat_map (all_in L) l end).
    set (okx := fun x : deep V => match x with Deep v l => forall b, In b l -> within L b /\ branches_at_most n L b end).
    destruct (@expands_drop V xc okx fuel (depth - 2)) with (depth := 2) (r := r) (h := @nil (event (deep V))) (a := tt) (h' := evs) as (e' & EE & G).
    + intros [v l] HO d s' Hd. cbn [deep_value_drop].
      assert (GL : forall (l : list box) s', (forall b, In b l -> within L b /\ branches_at_most n L b) ->
        exists zs, boxes_drop (deep_drop fuel d) l s' = Ok (tt, s' ++ zs) /\ Permutation zs (flat_map (all_in L) l)).
      { clear - IH HD Hd. induction l as [|b l IHl]; intros s' HO; [exists []; rewrite app_nil_r; split; [reflexivity|auto]|].
        destruct (HO b (or_introl eq_refl)) as (W & B). destruct (IH b d s' W B) as (z1 & E1 & P1); [lia|].
        destruct (IHl (s' ++ z1)) as (z2 & E2 & P2); [intros; apply HO; right; assumption|].
        exists (z1 ++ z2). cbn [boxes_drop]. unfold d_bind. rewrite E1, E2, app_assoc. split; [reflexivity|]. cbn [flat_map]. apply Permutation_app; assumption. }
      destruct (GL l (s' ++ [Dropped v]) HO) as (zs & EZ & PZ). exists (Dropped v :: zs).
      unfold d_bind, happens. rewrite EZ, <- app_assoc. split; [reflexivity|]. cbn. constructor. exact PZ.
    + exact E.
    + cbn in EE. subst e'. destruct (G) with (s := s) as (zs & EZ & PZ).
      * intros [v l] Hx b Hb. pose proof (Permutation_in _ P Hx) as HI. split; [apply (HW v l b HI Hb)|apply (HB2 v l b HI Hb)].
      * replace (2 + (depth - 2)) with depth in EZ by lia. exists zs. split; [exact EZ|]. rewrite PZ.
        rewrite (Permutation_flat_map _ P). cbn [all_in]. apply Permutation_refl'. apply flat_map_ext. intros [id|[v l]]; reflexivity.
Qed.

(** ** All trees *)
Section Ind.
Context (P : box -> Prop).
Context (Hc : forall id a b, P a -> P b -> P (BRef id (NComb a b))) (Hl : forall id a b, P a -> P b -> P (BRef id (NList a b))).
Context (Hx : forall id x, P (BRef id (NLeaf x))).
Fixpoint box_ind' (r : box) : P r :=
  match r with
  | BRef id (NComb a b) => Hc id (box_ind' a) (box_ind' b)
  | BRef id (NList a b) => Hl id (box_ind' a) (box_ind' b)
  | BRef id (NLeaf x) => Hx id x
  end.
End Ind.

Lemma list_max_in l x : In x l -> x <= list_max l.
Proof. intros HI. pose proof (proj1 (list_max_le l (list_max l)) (Nat.le_refl _)) as HA. rewrite Forall_forall in HA. auto. Qed.
Lemma max_inside f (r : box) x : In (Dropped x) (contents r) -> f x <= max_leaf f r.
Proof.
  induction r as [id a b IHa IHb|id a b IHa IHb|id [y|]] using box_ind'; intros HI; cbn [contents max_leaf] in *.
  - destruct HI as [[=]|HI]. apply in_app_or in HI. destruct HI as [HI|HI]; [specialize (IHa HI)|specialize (IHb HI)]; lia.
  - destruct HI as [[=]|HI]. apply in_app_or in HI. destruct HI as [HI|HI]; [specialize (IHa HI)|specialize (IHb HI)]; lia.
  - destruct HI as [[=]|[[= <-]|[]]]. lia.
  - destruct HI as [[=]|[]].
Qed.
Lemma level_inside v l (b : box) : In b l -> level b < level_of (Deep v l).
Proof.
  intros HB. destruct l as [|c l]; [destruct HB|]. cbn [level_of]. apply Nat.lt_succ_r. apply list_max_in. unfold level.
  apply (in_map (max_leaf level_of)). exact HB.
Qed.
Lemma most_inside v l (b : box) : In b l -> most_branches b <= most_of (Deep v l).
Proof. intros HB. cbn [most_of]. apply list_max_in. apply (in_map most_branches). exact HB. Qed.
Lemma level_within : forall L (r : box), level r <= L -> within L r.
Proof.
  induction L as [|L IH]; intros r HL v l b HI HB; pose proof (level_inside v _ _ HB); pose proof (max_inside level_of _ _ HI);
    unfold level in HL; [lia|]. apply IH. unfold level in *. lia.
Qed.
Lemma most_at_most n : forall L (r : box), most_branches r <= n -> branches_at_most n L r.
Proof.
  induction L as [|L IH]; intros r HL; (split; [unfold most_branches in HL; lia|]); intros v l b HI HB; [exact I|].
  apply IH. pose proof (most_inside v _ _ HB). pose proof (max_inside most_of _ _ HI). unfold most_branches in *. lia.
Qed.
Lemma all_everything : forall L (r : box), level r <= L -> all_in L r = everything r.
Proof.
  induction L as [L IHL] using (well_founded_induction Wf_nat.lt_wf). intros r. unfold level, everything.
  induction r as [id x y IHx IHy|id x y IHx IHy|id [[v l]|]] using box_ind'; intros HL; cbn [max_leaf] in HL.
  - specialize (IHx ltac:(lia)). specialize (IHy ltac:(lia)). destruct L; cbn [all_in contents flat_map with_leaves] in *; rewrite flat_map_app, IHx, IHy; reflexivity.
  - specialize (IHx ltac:(lia)). specialize (IHy ltac:(lia)). destruct L; cbn [all_in contents flat_map with_leaves] in *; rewrite flat_map_app, IHx, IHy; reflexivity.
  - assert (G : forall b, In b l -> level b < L) by (intros b HB; pose proof (level_inside v _ _ HB); lia).
    destruct L as [|L]; cbn [all_in contents flat_map with_leaves everything_of app]; rewrite ?app_nil_r.
    + destruct l as [|c l]; [reflexivity|]. specialize (G c (or_introl eq_refl)). lia.
    + do 2 f_equal. clear HL. induction l as [|b l IHl]; [reflexivity|]. cbn [flat_map].
      rewrite (IHL L) by (try lia; specialize (G b (or_introl eq_refl)); lia).
      rewrite IHl by (intros; apply G; right; assumption). reflexivity.
  - destruct L; reflexivity.
Qed.

Theorem deep_drop_all fuel depth (r : box) s : 2 * most_branches r <= fuel -> 2 * S (level r) <= depth ->
  exists zs, deep_drop fuel depth r s = Ok (tt, s ++ zs) /\ Permutation zs (everything r).
Proof.
  intros HF HD. destruct (@deep_drop_spec (most_branches r) fuel HF (level r) r depth s) as (zs & E & P).
  - apply level_within. lia.
  - apply most_at_most. lia.
  - exact HD.
  - exists zs. split; [exact E|]. rewrite (all_everything _ (Nat.le_refl _)) in P. exact P.
Qed.

(** ** Leaves in leaves *)
Fixpoint nested (v : V) (n : nat) : box :=
  BRef n (NLeaf (Some (Deep v (match n with 0 => [] | S m => [nested v m] end)))).
Lemma nested_deep v : forall n fuel depth s, depth <= n -> deep_drop fuel depth (nested v n) s = OutOfFuel.
Proof.
  induction n as [|n IH]; intros fuel depth s HD; (destruct depth as [|depth]; [reflexivity|]); [lia|].
  cbn [nested deep_drop]. unfold algo1, class_of. cbn [m_bind m_ret direct r_deref deep_ops]. unfold d_bind, d_ret. cbn [node_class branches datum_drop deep_value_drop].
  unfold d_bind, happens. cbn [boxes_drop]. unfold d_bind. rewrite IH by lia. reflexivity.
Qed.
End Deep.
