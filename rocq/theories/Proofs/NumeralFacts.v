(** [i128_from_str] gives the integers that numerals stand for. *)
From Coq Require Import List NArith ZArith Bool Lia.
From Verif.Model Require Import Prelude Utf8 Numeral.
From Verif.Spec Require Import Numeral.
Import ListNotations.
Set Implicit Arguments.
Local Open Scope Z_scope.

Lemma to_digit_some c x : to_digit c = Some x <-> digit c /\ x = Z.of_N c - 48.
Proof.
  unfold to_digit, digit. destruct ((48 <=? c)%N && (c <=? 57)%N) eqn:E.
  - apply andb_true_iff in E. rewrite !N.leb_le in E. split; [intros H; injection H as <-; auto|intros [_ ->]; reflexivity].
  - split; [discriminate|]. intros [H _]. exfalso.
    assert ((48 <=? c)%N && (c <=? 57)%N = true); [|congruence]. rewrite andb_true_iff, !N.leb_le. exact H.
Qed.

Lemma checked_some z r : checked z = Some r <-> in_i128 z /\ r = z.
Proof.
  unfold checked, in_i128, i128_min, i128_max. destruct ((- 2 ^ 127 <=? z) && (z <=? 2 ^ 127 - 1)) eqn:E.
  - apply andb_true_iff in E. rewrite !Z.leb_le in E. split; [intros H; injection H as <-; split; [lia|reflexivity]|intros [_ ->]; reflexivity].
  - split; [discriminate|]. intros [H _]. exfalso.
    assert ((- 2 ^ 127 <=? z) && (z <=? 2 ^ 127 - 1) = true); [|congruence]. rewrite andb_true_iff, !Z.leb_le. lia.
Qed.

Lemma pow_pos n : 1 <= 10 ^ Z.of_nat n.
Proof. pose proof (Z.pow_pos_nonneg 10 (Z.of_nat n)). lia. Qed.

Lemma place_value_bounds ds : Forall digit ds -> 0 <= place_value ds < 10 ^ Z.of_nat (length ds).
Proof.
  induction 1 as [|c l H _ IH]; cbn [place_value length]; [cbn; lia|].
  rewrite Nat2Z.inj_succ, Z.pow_succ_r by lia. pose proof (pow_pos (length l)). unfold digit in H. nia.
Qed.

(** The loop with the sign [sg] folded out. *)
Lemma digits_loop_iff (positive : bool) : let sg := if positive then 1 else -1 in forall ds r z, 0 <= r -> in_i128 (sg * r) ->
  digits_loop positive (sg * r) ds = Some z <->
  Forall digit ds /\ z = sg * (r * 10 ^ Z.of_nat (length ds) + place_value ds) /\ in_i128 z.
Proof.
  intros sg. assert (S : sg = 1 \/ sg = -1) by (destruct positive; auto).
  induction ds as [|c l IH]; intros r z Hr Hi; cbn [digits_loop place_value length].
  - rewrite Z.mul_1_r, Z.add_0_r. split; [intros H; injection H as <-; auto|intros (_ & -> & _); reflexivity].
  - assert (P : (if positive then sg * r * 10 + (Z.of_N c - 48) else sg * r * 10 - (Z.of_N c - 48)) = sg * (r * 10 + (Z.of_N c - 48)))
      by (subst sg; destruct positive; lia).
    rewrite Nat2Z.inj_succ, Z.pow_succ_r by lia. set (p := 10 ^ Z.of_nat (length l)) in *. pose proof (pow_pos (length l)) as Hp. fold p in Hp.
    split.
    + destruct (checked (sg * r * 10)) as [m|] eqn:E1; [|discriminate]. destruct (to_digit c) as [x|] eqn:E2; [|discriminate].
      apply checked_some in E1. destruct E1 as [_ ->]. apply to_digit_some in E2. destruct E2 as [Hc ->].
      destruct (checked _) as [q|] eqn:E3; [|discriminate]. rewrite P in E3. apply checked_some in E3. destruct E3 as [H3 ->].
      intros H. apply IH in H; [|unfold digit in Hc; lia|exact H3]. destruct H as (Hd & -> & H). split; [auto|]. split; [|exact H].
      f_equal. ring.
    + intros (Hd & -> & H). inversion Hd as [|? ? Hc Hl]; subst. clear Hd.
      pose proof (place_value_bounds Hl) as Hb. fold p in Hb. unfold in_i128, digit in *.
      assert (Hpow : 0 < 2 ^ 127) by reflexivity. set (M := 2 ^ 127) in *.
      assert (B : 0 <= r * 10 <= r * 10 + (Z.of_N c - 48)) by lia.
      assert (B2 : r * 10 + (Z.of_N c - 48) <= r * (10 * p) + ((Z.of_N c - 48) * p + place_value l)) by nia.
      assert (C1 : checked (sg * r * 10) = Some (sg * r * 10)) by (apply checked_some; split; [unfold in_i128; fold M; nia|reflexivity]).
      rewrite C1. assert (C2 : to_digit c = Some (Z.of_N c - 48)) by (apply to_digit_some; auto). rewrite C2, P.
      assert (C3 : in_i128 (sg * (r * 10 + (Z.of_N c - 48)))) by (unfold in_i128; fold M; nia).
      assert (C4 : checked (sg * (r * 10 + (Z.of_N c - 48))) = Some (sg * (r * 10 + (Z.of_N c - 48)))) by (apply checked_some; auto).
      rewrite C4. apply IH; [lia|exact C3|]. split; [exact Hl|]. split; [fold p; ring|]. unfold in_i128. fold M. lia.
Qed.

Lemma i128_from_str_iff s z : i128_from_str s = Some z <-> decimal s z /\ in_i128 z.
Proof.
  assert (L : forall b ds, digits_loop b 0 ds = Some z <-> Forall digit ds /\ z = (if b then 1 else -1) * place_value ds /\ in_i128 z).
  { intros b ds. pose proof (digits_loop_iff b ds (r:=0) z) as H. cbn zeta in H. rewrite Z.mul_0_r, Z.mul_0_l, Z.add_0_l in H.
    apply H; [lia|]. split; [discriminate|reflexivity]. }
  destruct s as [|c l]; cbn [i128_from_str].
  { split; [discriminate|]. intros [H _]. inversion H; congruence. }
  destruct (c =? 43)%N eqn:E1; [apply N.eqb_eq in E1; subst c|destruct (c =? 45)%N eqn:E2; [apply N.eqb_eq in E2; subst c|]]; cbn [orb].
  - destruct l as [|c l].
    + split; [discriminate|]. intros [H _]. inversion H; subst; try congruence. inversion H1; unfold digit in *; lia.
    + rewrite L. split.
      * intros (H & -> & Hi). split; [|exact Hi]. rewrite Z.mul_1_l. constructor; [discriminate|exact H].
      * intros [H Hi]. inversion H; subst; [inversion H1; unfold digit in *; lia|]. rewrite Z.mul_1_l. auto.
  - destruct l as [|c l].
    + split; [discriminate|]. intros [H _]. inversion H; subst; try congruence. inversion H1; unfold digit in *; lia.
    + rewrite L. split.
      * intros (H & -> & Hi). split; [|exact Hi]. replace (-1 * place_value (c :: l)) with (- place_value (c :: l)) by lia. constructor; [discriminate|exact H].
      * intros [H Hi]. inversion H; subst; [inversion H1; unfold digit in *; lia|]. split; [assumption|]. split; [lia|exact Hi].
  - rewrite L. apply N.eqb_neq in E1, E2. split.
    + intros (H & -> & Hi). split; [|exact Hi]. rewrite Z.mul_1_l. constructor; [discriminate|exact H].
    + intros [H Hi]. inversion H; subst; try congruence. rewrite Z.mul_1_l. auto.
Qed.

Lemma decimal_unique s z1 z2 : decimal s z1 -> decimal s z2 -> z1 = z2.
Proof.
  assert (P : forall ds : str, Forall digit (43%N :: ds) -> False) by (intros ds H; inversion H; unfold digit in *; lia).
  assert (Q : forall ds : str, Forall digit (45%N :: ds) -> False) by (intros ds H; inversion H; unfold digit in *; lia).
  intros H1 H2. inversion H1; subst; inversion H2; subst; try reflexivity; exfalso; eauto.
Qed.

(** How many characters it takes. *)
Lemma decimal_long s z : decimal s z -> z <= - 10 ^ 38 -> (40 <= length s)%nat.
Proof.
  intros H Hz. inversion H as [ds H0 Hd|ds H0 Hd|ds H0 Hd]; subst; pose proof (place_value_bounds Hd) as B.
  - exfalso. assert (0 < 10 ^ 38) by reflexivity. lia.
  - exfalso. assert (0 < 10 ^ 38) by reflexivity. lia.
  - cbn [length]. assert (38 < Z.of_nat (length ds)); [|lia]. apply (Z.pow_lt_mono_r_iff 10); lia.
Qed.

(** Every number has a numeral of as many digits as it needs. *)
Lemma numeral_exists n : forall z, 0 <= z < 10 ^ Z.of_nat n -> exists ds, length ds = n /\ Forall digit ds /\ place_value ds = z.
Proof.
  induction n as [|n IH]; intros z Hz.
  - exists []. cbn in *. repeat split; [constructor|lia].
  - rewrite Nat2Z.inj_succ, Z.pow_succ_r in Hz by lia. set (p := 10 ^ Z.of_nat n) in *. pose proof (pow_pos n) as Hp. fold p in Hp.
    pose proof (Z.div_mod z p ltac:(lia)) as E. pose proof (Z.mod_pos_bound z p ltac:(lia)) as Hm.
    assert (Hq : 0 <= z / p <= 9) by (split; [apply Z.div_pos; lia|]; assert (z / p < 10); [apply Z.div_lt_upper_bound; lia|lia]).
    destruct (IH (z mod p) Hm) as (ds & L & D & V). exists (Z.to_N (z / p + 48) :: ds). cbn [length place_value]. rewrite L. fold p.
    split; [reflexivity|]. split.
    + constructor; [|exact D]. unfold digit. lia.
    + rewrite V, Z2N.id by lia. lia.
Qed.
