(** Encoding to UTF-8 and decoding. *)
From Coq Require Import List Arith NArith Bool Lia.
From Verif.Model Require Import Prelude Utf8.
Import ListNotations.
Set Implicit Arguments.
Local Open Scope N_scope.

Lemma encode_char_length c : N.of_nat (length (encode_char c)) = len_utf8 c.
Proof. unfold encode_char, len_utf8. repeat destruct (_ <? _); reflexivity. Qed.

Lemma encode_app a b : encode (a ++ b) = encode a ++ encode b.
Proof. unfold encode. apply flat_map_app. Qed.

Lemma encode_length s : N.of_nat (length (encode s)) = byte_len s.
Proof.
  induction s as [|c s IH]; [reflexivity|]. cbn [encode flat_map byte_len].
  rewrite app_length, Nat2N.inj_add, encode_char_length. unfold encode in IH. rewrite IH. reflexivity.
Qed.

Local Ltac bsimp := repeat match goal with
  | |- context [?a <? ?b] => first [rewrite (proj2 (N.ltb_lt a b)) by lia | rewrite (proj2 (N.ltb_ge a b)) by lia]
  | |- context [?a <=? ?b] => first [rewrite (proj2 (N.leb_le a b)) by lia | rewrite (proj2 (N.leb_gt a b)) by lia]
  | |- context [?a =? ?b] => first [rewrite (proj2 (N.eqb_eq a b)) by lia | rewrite (proj2 (N.eqb_neq a b)) by lia]
  end.

Lemma decode_char c r : is_scalar c = true -> decode (encode_char c ++ r) = option_map (cons c) (decode r).
Proof.
  intros H. assert (Hs : c < 0xD800 \/ 0xE000 <= c < 0x110000).
  { unfold is_scalar in H. rewrite orb_true_iff, andb_true_iff, !N.ltb_lt, N.leb_le in H. lia. }
  clear H. unfold encode_char.
  replace (c / 4096) with (c / 64 / 64) by (rewrite N.div_div by lia; reflexivity).
  replace (c / 262144) with (c / 64 / 64 / 64) by (rewrite !N.div_div by lia; reflexivity).
  pose proof (N.div_mod' c 64). pose proof (N.mod_lt c 64 ltac:(lia)).
  pose proof (N.div_mod' (c/64) 64). pose proof (N.mod_lt (c/64) 64 ltac:(lia)).
  pose proof (N.div_mod' (c/64/64) 64). pose proof (N.mod_lt (c/64/64) 64 ltac:(lia)).
  set (q1 := c / 64) in *. set (r0 := c mod 64) in *. set (q2 := q1 / 64) in *. set (r1 := q1 mod 64) in *.
  set (q3 := q2 / 64) in *. set (r2 := q2 mod 64) in *. clearbody q1 r0 q2 r1 q3 r2.
  destruct (N.ltb_spec c 0x80); [|destruct (N.ltb_spec c 0x800); [|destruct (N.ltb_spec c 0x10000)]];
    cbn [app decode]; unfold cont.
  - bsimp. reflexivity.
  - bsimp. cbn [andb]. f_equal. f_equal. lia.
  - destruct (N.eq_dec q2 0); [subst q2|destruct (N.eq_dec q2 13); [subst q2|]]; bsimp; cbn [andb]; bsimp; cbn [andb];
      f_equal; f_equal; lia.
  - destruct (N.eq_dec q3 0); [subst q3|destruct (N.eq_dec q3 4); [subst q3|]]; bsimp; cbn [andb]; bsimp; cbn [andb];
      f_equal; f_equal; lia.
Qed.

Lemma decode_encode s : Forall (fun c => is_scalar c = true) s -> decode (encode s) = Some s.
Proof.
  induction 1 as [|c s Hc _ IH]; [reflexivity|]. cbn [encode flat_map].
  rewrite decode_char by exact Hc. unfold encode in IH. rewrite IH. reflexivity.
Qed.

Local Ltac bprop := repeat match goal with
  | H : (_ && _) = true |- _ => apply andb_true_iff in H; destruct H
  | H : (_ <? _) = true |- _ => apply N.ltb_lt in H
  | H : (_ <? _) = false |- _ => apply N.ltb_ge in H
  | H : (_ <=? _) = true |- _ => apply N.leb_le in H
  | H : (_ =? _) = true |- _ => apply N.eqb_eq in H
  | H : (_ =? _) = false |- _ => apply N.eqb_neq in H
  | H : (if ?b then _ else _) = true |- _ => let E := fresh "E" in destruct b eqn:E
  end.

Lemma digits a b : b < 64 -> (a * 64 + b) / 64 = a /\ (a * 64 + b) mod 64 = b.
Proof.
  intros H. split.
  - symmetry. apply N.div_unique with b; lia.
  - symmetry. apply N.mod_unique with a; lia.
Qed.

Lemma scalar_intro c : c < 0xD800 \/ 0xE000 <= c < 0x110000 -> is_scalar c = true.
Proof. intros H. unfold is_scalar. rewrite orb_true_iff, andb_true_iff, !N.ltb_lt, N.leb_le. lia. Qed.

Lemma decode_sound bs : forall s, decode bs = Some s -> Forall (fun c => is_scalar c = true) s /\ bs = encode s.
Proof.
  induction bs as [bs IH] using (induction_ltof1 _ (@length byte)). unfold ltof in IH. intros s H.
  assert (Hstep : forall p r c, bs = p ++ r -> p <> [] -> option_map (cons c) (decode r) = Some s ->
    is_scalar c = true -> encode_char c = p -> Forall (fun c => is_scalar c = true) s /\ bs = encode s).
  { intros p r c -> Hp Hd Hc <-. destruct (decode r) as [u|] eqn:Eu; [|discriminate]. injection Hd as <-.
    destruct (IH r) with (s := u) as [A B]; [|exact Eu|].
    - rewrite app_length. destruct (encode_char c); [congruence|cbn; lia].
    - split; [constructor; assumption|]. cbn [encode flat_map]. unfold encode in B. rewrite <- B. reflexivity. }
  destruct bs as [|b0 r0]; [injection H as <-; split; [constructor|reflexivity]|]. cbn [decode] in H.
  destruct (b0 <? 0x80) eqn:E0.
  { apply (Hstep [b0] r0 b0); auto; [discriminate| |unfold encode_char; rewrite E0; reflexivity].
    apply scalar_intro. bprop. lia. }
  destruct r0 as [|b1 r1]; [discriminate|]. destruct ((0xC2 <=? b0) && (b0 <? 0xE0)) eqn:E1.
  { destruct (cont b1) eqn:C1; [|discriminate]. unfold cont in C1. bprop.
    destruct (@digits (b0 - 0xC0) (b1 - 0x80)) as [D1 D2]; [lia|].
    apply (Hstep [b0; b1] r1 _ eq_refl ltac:(discriminate) H).
    - apply scalar_intro. lia.
    - unfold encode_char. rewrite D1, D2. bsimp. repeat f_equal; lia. }
  destruct r1 as [|b2 r2]; [discriminate|]. destruct ((0xE0 <=? b0) && (b0 <? 0xF0)) eqn:E2.
  { match type of H with (if ?b then _ else _) = _ => destruct b eqn:C1; [|discriminate] end.
    unfold cont in C1. clear E1.
    assert (B : 0xE0 <= b0 < 0xF0 /\ 0x80 <= b1 < 0xC0 /\ 0x80 <= b2 < 0xC0 /\
      (b0 = 0xE0 -> 0xA0 <= b1) /\ (b0 = 0xED -> b1 < 0xA0)) by (bprop; repeat split; intros; lia).
    clear C1 E2. set (c := (b0 - 0xE0) * 4096 + (b1 - 0x80) * 64 + (b2 - 0x80)) in *.
    assert (Ec : c = ((b0 - 0xE0) * 64 + (b1 - 0x80)) * 64 + (b2 - 0x80)) by (unfold c; lia).
    destruct (@digits ((b0 - 0xE0) * 64 + (b1 - 0x80)) (b2 - 0x80)) as [D1 D2]; [lia|].
    destruct (@digits (b0 - 0xE0) (b1 - 0x80)) as [D3 D4]; [lia|]. rewrite <- Ec in D1, D2.
    apply (Hstep [b0; b1; b2] r2 _ eq_refl ltac:(discriminate) H).
    - apply scalar_intro. assert (b0 < 0xED \/ b0 = 0xED \/ 0xEE <= b0) as [?|[?|?]] by lia; lia.
    - unfold encode_char. replace (c / 4096) with (c / 64 / 64) by (rewrite N.div_div by lia; reflexivity).
      rewrite D1, D2, D3, D4. assert (0x800 <= c < 0x10000) by (assert (b0 = 0xE0 \/ 0xE1 <= b0) as [?|?] by lia; lia).
      bsimp. repeat f_equal; lia. }
  destruct r2 as [|b3 r3]; [discriminate|]. destruct ((0xF0 <=? b0) && (b0 <? 0xF5)) eqn:E3; [|discriminate].
  match type of H with (if ?b then _ else _) = _ => destruct b eqn:C1; [|discriminate] end.
  unfold cont in C1. clear E1 E2.
  assert (B : 0xF0 <= b0 < 0xF5 /\ 0x80 <= b1 < 0xC0 /\ 0x80 <= b2 < 0xC0 /\ 0x80 <= b3 < 0xC0 /\
    (b0 = 0xF0 -> 0x90 <= b1) /\ (b0 = 0xF4 -> b1 < 0x90)) by (bprop; repeat split; intros; lia).
  clear C1 E3. set (c := (b0 - 0xF0) * 262144 + (b1 - 0x80) * 4096 + (b2 - 0x80) * 64 + (b3 - 0x80)) in *.
  assert (Ec : c = (((b0 - 0xF0) * 64 + (b1 - 0x80)) * 64 + (b2 - 0x80)) * 64 + (b3 - 0x80)) by (unfold c; lia).
  destruct (@digits (((b0 - 0xF0) * 64 + (b1 - 0x80)) * 64 + (b2 - 0x80)) (b3 - 0x80)) as [D1 D2]; [lia|].
  destruct (@digits ((b0 - 0xF0) * 64 + (b1 - 0x80)) (b2 - 0x80)) as [D3 D4]; [lia|].
  destruct (@digits (b0 - 0xF0) (b1 - 0x80)) as [D5 D6]; [lia|]. rewrite <- Ec in D1, D2.
  apply (Hstep [b0; b1; b2; b3] r3 _ eq_refl ltac:(discriminate) H).
  - apply scalar_intro. assert (b0 = 0xF0 \/ 0xF1 <= b0 < 0xF4 \/ b0 = 0xF4) as [?|[?|?]] by lia; lia.
  - unfold encode_char. replace (c / 4096) with (c / 64 / 64) by (rewrite N.div_div by lia; reflexivity).
    replace (c / 262144) with (c / 64 / 64 / 64) by (rewrite !N.div_div by lia; reflexivity).
    rewrite D1, D2, D3, D4, D5, D6. assert (0x10000 <= c) by (assert (b0 = 0xF0 \/ 0xF1 <= b0) as [?|?] by lia; lia).
    bsimp. repeat f_equal; lia.
Qed.
