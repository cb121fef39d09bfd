(** Looking up operators. *)
From Coq Require Import List Arith NArith Bool Lia.
From Verif.Model Require Import Prelude TextMethods Bindings.
Import ListNotations.
Set Implicit Arguments.

Section Lookup.
Context {K V : Type} (key_eq : K -> K -> bool) (key_hash : K -> list hash_word)
        (hasher : list hash_word -> N) (ok : K -> Prop).
Context (Kref : forall a, ok a -> key_eq a a = true)
        (Ksym : forall a b, ok a -> ok b -> key_eq a b = true -> key_eq b a = true)
        (Ktrans : forall a b c, ok a -> ok b -> ok c -> key_eq a b = true -> key_eq b c = true -> key_eq a c = true)
        (Khash : forall a b, ok a -> ok b -> key_eq a b = true -> key_hash a = key_hash b).
Local Notation pair_lookup := (@pair_lookup K V key_eq).
Local Notation hm_insert := (@hm_insert K V key_eq key_hash hasher).
Local Notation hm_lookup := (@hm_lookup K V key_eq key_hash hasher).
Local Notation hm_collect := (@hm_collect K V key_eq key_hash hasher).
Local Notation same_key := (@same_key K key_eq key_hash hasher).
Local Notation oks := (Forall (fun kv : K * V => ok (fst kv))).

Lemma same_key_eq a b : ok a -> ok b -> same_key a b = key_eq a b.
Proof.
  intros Ha Hb. unfold same_key. destruct (key_eq a b) eqn:E; [|apply andb_false_r].
  rewrite (Khash Ha Hb E), N.eqb_refl. reflexivity.
Qed.

Lemma hm_lookup_pairs m o : oks m -> ok o -> hm_lookup m o = pair_lookup m o.
Proof.
  intros H Ho. induction H as [|[k v] m Hk _ IH]; [reflexivity|]. cbn in *. rewrite same_key_eq by auto.
  rewrite IH. reflexivity.
Qed.

Lemma hm_insert_ok k v m : ok k -> oks m -> oks (hm_insert k v m).
Proof.
  intros Hk H. induction H as [|[k' v'] m Hk' H IH]; cbn; [repeat constructor; auto|].
  destruct (same_key k k'); constructor; auto.
Qed.

(** What a lookup finds after an insertion. *)
Lemma hm_lookup_insert k v m o : ok k -> oks m -> ok o ->
  hm_lookup (hm_insert k v m) o = if key_eq o k then Some v else hm_lookup m o.
Proof.
  intros Hk H Ho. induction H as [|[k' v'] m Hk' H IH]; cbn in *.
  - rewrite same_key_eq by auto. reflexivity.
  - rewrite same_key_eq by auto. destruct (key_eq k k') eqn:E; cbn; rewrite (same_key_eq Ho Hk').
    + destruct (key_eq o k') eqn:E2, (key_eq o k) eqn:E1; auto.
      * assert (key_eq o k = true) by eauto using Ktrans, Ksym. congruence.
      * assert (key_eq o k' = true) by eauto using Ktrans, Ksym. congruence.
    + rewrite IH. destruct (key_eq o k') eqn:E2; auto. destruct (key_eq o k) eqn:E1; auto.
      assert (key_eq k k' = true) by eauto using Ktrans, Ksym. congruence.
Qed.

Lemma pair_lookup_app a b o : pair_lookup (a ++ b) o =
  match pair_lookup a o with Some v => Some v | None => pair_lookup b o end.
Proof. induction a as [|[k v] a IH]; cbn; [reflexivity|]. destruct (key_eq o k); auto. Qed.

(** The last pair with an equal key. *)
Lemma hm_collect_lookup pairs o : oks pairs -> ok o ->
  hm_lookup (hm_collect pairs) o = pair_lookup (rev pairs) o.
Proof.
  intros H Ho. unfold hm_collect.
  assert (G : forall ps m, oks ps -> oks m ->
    hm_lookup (fold_left (fun m kv => hm_insert (fst kv) (snd kv) m) ps m) o =
    match pair_lookup (rev ps) o with Some v => Some v | None => hm_lookup m o end).
  { induction ps as [|[k v] ps IH]; intros m Hp Hm; [reflexivity|]. cbn [fold_left rev fst snd].
    inversion Hp; subst. cbn in *. rewrite IH by (auto using hm_insert_ok). rewrite pair_lookup_app. cbn.
    rewrite hm_lookup_insert by auto. destruct (pair_lookup (rev ps) o); auto.
    destruct (key_eq o k); auto. }
  rewrite G by auto. cbn. destruct (pair_lookup (rev pairs) o); auto.
Qed.

(** The pair bindings find the first pair with an equal key. *)
Lemma pair_lookup_some pairs o v : pair_lookup pairs o = Some v <->
  exists a k b, pairs = a ++ (k, v) :: b /\ key_eq o k = true /\ forall k' v', In (k', v') a -> key_eq o k' = false.
Proof.
  induction pairs as [|[k' v'] ps IH]; cbn.
  - split; [discriminate|]. intros (a & k & b & E & _). destruct a; discriminate.
  - destruct (key_eq o k') eqn:E.
    + split.
      * intros G. injection G as <-. exists [], k', ps. repeat split; auto. intros ? ? [].
      * intros (a & k & b & Ea & Ek & Hn). destruct a as [|[ka va] a]; cbn in Ea; injection Ea as -> -> Ea; [auto|].
        rewrite (Hn ka va) in E by (left; reflexivity). discriminate.
    + rewrite IH. split; intros (a & k & b & Ea & Ek & Hn).
      * subst. exists ((k', v') :: a), k, b. repeat split; auto. intros k2 v2 [G|G]; [injection G as <- <-; auto|eauto].
      * destruct a as [|[ka va] a]; cbn in Ea; injection Ea as -> -> Ea; [congruence|]. exists a, k, b.
        repeat split; auto. intros k2 v2 Hin. apply (Hn k2 v2). right. exact Hin.
Qed.

Lemma pair_lookup_none pairs o : pair_lookup pairs o = None <->
  forall k v, In (k, v) pairs -> key_eq o k = false.
Proof.
  induction pairs as [|[k' v'] ps IH]; cbn; [split; auto; intros _ ? ? []|].
  destruct (key_eq o k') eqn:E.
  - split; [discriminate|]. intros H. rewrite (H k' v') in E by auto. discriminate.
  - rewrite IH. split; intros H k v; [intros [G|G]; [injection G as <- <-; auto|eauto]|eauto].
Qed.

(** Pairwise different keys: the order does not matter. *)
Lemma pair_lookup_rev pairs o : oks pairs -> ok o ->
  ForallOrdPairs (fun x y => key_eq (fst x) (fst y) = false) pairs ->
  pair_lookup (rev pairs) o = pair_lookup pairs o.
Proof.
  intros H Ho D. induction D as [|[k v] ps Hd D IH]; [reflexivity|]. cbn [rev Bindings.pair_lookup].
  inversion H as [|? ? Hk Hps]; subst. cbn in Hk. rewrite pair_lookup_app. cbn. rewrite IH by auto.
  destruct (pair_lookup ps o) eqn:E, (key_eq o k) eqn:E1; auto.
  apply pair_lookup_some in E as (a & k1 & b & -> & E2 & _).
  rewrite Forall_forall in Hd. specialize (Hd (k1, v0)). cbn in Hd.
  rewrite Forall_forall in Hps. specialize (Hps (k1, v0)). cbn in Hps.
  assert (In (k1, v0) (a ++ (k1, v0) :: b)) by (apply in_or_app; right; left; reflexivity).
  assert (key_eq k k1 = true) by (eapply Ktrans; [auto|exact Ho|auto| |eassumption]; apply Ksym; auto).
  rewrite Hd in * by auto. discriminate.
Qed.

Lemma hm_agrees_pairs pairs o : oks pairs -> ok o ->
  ForallOrdPairs (fun x y => key_eq (fst x) (fst y) = false) pairs ->
  hm_lookup (hm_collect pairs) o = pair_lookup pairs o.
Proof. intros H Ho D. rewrite hm_collect_lookup by auto. apply pair_lookup_rev; auto. Qed.
End Lookup.
