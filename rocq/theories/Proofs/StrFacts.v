(** Facts about UTF-8 lengths and slicing. *)
From Coq Require Import List NArith Bool Lia.
From Verif.Model Require Import Prelude Utf8.
Import ListNotations.
Set Implicit Arguments.
Local Open Scope N_scope.

Lemma len_utf8_pos c : 1 <= len_utf8 c.
Proof. unfold len_utf8. repeat destruct (_ <? _); lia. Qed.

Lemma byte_len_app a b : byte_len (a ++ b) = byte_len a + byte_len b.
Proof. induction a as [|c a IH]; cbn [byte_len app]; [reflexivity|]. rewrite IH. lia. Qed.

Lemma byte_len_0 s : byte_len s = 0 -> s = [].
Proof. destruct s as [|c s]; auto. cbn. pose proof (len_utf8_pos c). lia. Qed.

Lemma drop_bytes_app a b : drop_bytes (byte_len a) (a ++ b) = Some b.
Proof.
  induction a as [|c a IH]; cbn [byte_len app].
  - destruct b; reflexivity.
  - pose proof (len_utf8_pos c). cbn [drop_bytes].
    destruct (N.eqb_spec (len_utf8 c + byte_len a) 0); [lia|].
    destruct (N.ltb_spec (len_utf8 c + byte_len a) (len_utf8 c)); [lia|].
    replace (len_utf8 c + byte_len a - len_utf8 c) with (byte_len a) by lia. exact IH.
Qed.

Lemma take_bytes_app a b : take_bytes (byte_len a) (a ++ b) = Some a.
Proof.
  induction a as [|c a IH]; cbn [byte_len app].
  - destruct b; reflexivity.
  - pose proof (len_utf8_pos c). cbn [take_bytes].
    destruct (N.eqb_spec (len_utf8 c + byte_len a) 0); [lia|].
    destruct (N.ltb_spec (len_utf8 c + byte_len a) (len_utf8 c)); [lia|].
    replace (len_utf8 c + byte_len a - len_utf8 c) with (byte_len a) by lia. rewrite IH. reflexivity.
Qed.

Lemma str_from_app a b : str_from (a ++ b) (byte_len a) = Ok b.
Proof. unfold str_from. rewrite drop_bytes_app. reflexivity. Qed.

Lemma str_slice_mid a v b : str_slice (a ++ v ++ b) (byte_len a) (byte_len a + byte_len v) = Ok v.
Proof.
  unfold str_slice. destruct (N.leb_spec (byte_len a) (byte_len a + byte_len v)); [|lia].
  rewrite drop_bytes_app. replace (byte_len a + byte_len v - byte_len a) with (byte_len v) by lia.
  rewrite take_bytes_app. reflexivity.
Qed.

(** Slicing succeeds only in range and on boundaries. *)
Lemma drop_bytes_inv n s t : drop_bytes n s = Some t -> exists a, s = a ++ t /\ byte_len a = n.
Proof.
  revert n. induction s as [|c s IH]; intros n; cbn [drop_bytes].
  - destruct (N.eqb_spec n 0); [|discriminate]. intros E. injection E as <-. exists []. auto.
  - destruct (N.eqb_spec n 0). { intros E. injection E as <-. exists []. auto. }
    destruct (N.ltb_spec n (len_utf8 c)); [discriminate|].
    intros E. destruct (IH _ E) as (a & -> & Ha). exists (c :: a). split; [reflexivity|]. cbn. lia.
Qed.

Lemma take_bytes_inv n s t : take_bytes n s = Some t -> exists b, s = t ++ b /\ byte_len t = n.
Proof.
  revert n t. induction s as [|c s IH]; intros n t; cbn [take_bytes].
  - destruct (N.eqb_spec n 0); [|discriminate]. intros E. injection E as <-. exists []. auto.
  - destruct (N.eqb_spec n 0). { intros E. injection E as <-. exists (c :: s). auto. }
    destruct (N.ltb_spec n (len_utf8 c)); [discriminate|].
    destruct (take_bytes (n - len_utf8 c) s) as [u|] eqn:E; [|discriminate]. cbn. intros E'.
    injection E' as <-. destruct (IH _ _ E) as (b & -> & Hb). exists b. split; [reflexivity|]. cbn. lia.
Qed.

Lemma str_slice_inv s a b v : str_slice s a b = Ok v ->
  exists p q, s = p ++ v ++ q /\ byte_len p = a /\ byte_len v = b - a /\ a <= b.
Proof.
  unfold str_slice. destruct (N.leb_spec a b); [|discriminate].
  destruct (drop_bytes a s) as [t|] eqn:E; [|discriminate].
  destruct (take_bytes (b - a) t) as [u|] eqn:E'; [|discriminate]. intros E2. injection E2 as <-.
  apply drop_bytes_inv in E. apply take_bytes_inv in E'. destruct E as (p & -> & Hp), E' as (q & -> & Hq).
  exists p, q. auto.
Qed.
