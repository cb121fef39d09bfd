(** The methods of texts depend on the characters only. *)
From Coq Require Import List Arith NArith Bool Lia.
From Verif.Model Require Import Prelude Parser Utf8 Chunk TextIter TextMethods Premade.
From Verif.Spec Require Import Contract ChunkContract Lex.
From Verif.Proofs Require Import Utf8Facts TextFacts.
Import ListNotations.
Set Implicit Arguments.

Definition chars {Pos} (l : list (item Pos)) : list char := map it_ch l.

Section Two.
Context {T1 C1 S1 A1 P1 W1 T2 C2 S2 A2 P2 W2 : Type}.
Context (k1 : chunk_ops C1 S1 P1) (Rc1 : C1 -> list (item P1) -> Prop)
        (Rcs1 : S1 -> list (item P1) -> list (item P1) -> Prop) (KC1 : chunk_contract k1 Rc1 Rcs1).
Context (F1 : Prop) (view1 : A1 -> W1) (x1 : text_ops T1 C1 A1) (XC1 : text_contract F1 view1 x1 Rc1).
Context (k2 : chunk_ops C2 S2 P2) (Rc2 : C2 -> list (item P2) -> Prop)
        (Rcs2 : S2 -> list (item P2) -> list (item P2) -> Prop) (KC2 : chunk_contract k2 Rc2 Rcs2).
Context (F2 : Prop) (view2 : A2 -> W2) (x2 : text_ops T2 C2 A2) (XC2 : text_contract F2 view2 x2 Rc2).

Lemma iter_eq_spec : forall n s1 s2 l1 l2 p1 p2,
  titer_rep Rc1 Rcs1 x1 s1 l1 p1 -> titer_rep Rc2 Rcs2 x2 s2 l2 p2 -> length l1 < n ->
  exists b, iter_eq k1 k2 n s1 s2 = Ok b /\ (b = true <-> chars l1 = chars l2).
Proof.
  induction n as [|n IH]; intros s1 s2 l1 l2 p1 p2 H1 H2 Hn; [lia|]. cbn [iter_eq].
  destruct (sc_next (titer_contract KC1 XC1) _ _ _ H1) as (s1' & E1 & H1').
  destruct (sc_next (titer_contract KC2 XC2) _ _ _ H2) as (s2' & E2 & H2').
  cbn in E1, E2. rewrite E1. cbn. rewrite E2. cbn.
  destruct l1 as [|i1 l1], l2 as [|i2 l2]; cbn in *; eauto.
  - exists true. tauto.
  - exists false. split; [auto|]. split; discriminate.
  - exists false. split; [auto|]. split; discriminate.
  - destruct (N.eqb_spec (it_ch i1) (it_ch i2)) as [E|E].
    + destruct (IH _ _ _ _ _ _ H1' H2') as (b & -> & Hb); [lia|]. exists b. split; [auto|].
      unfold chars in *. rewrite Hb, E. split; [congruence|]. intros G. injection G. auto.
    + exists false. split; [auto|]. split; [discriminate|]. intros G. injection G as G _. congruence.
Qed.

Lemma text_eq_spec n t1 t2 l1 l2 : text_items x1 Rc1 t1 l1 -> text_items x2 Rc2 t2 l2 -> length l1 < n ->
  exists b, text_eq k1 x1 k2 x2 n t1 t2 = Ok b /\ (b = true <-> chars l1 = chars l2).
Proof.
  intros H1 H2 Hn. unfold text_eq.
  destruct (titer_new_rep KC1 H1) as (s1 & -> & R1). destruct (titer_new_rep KC2 H2) as (s2 & -> & R2).
  cbn. eapply iter_eq_spec; eauto.
Qed.

Lemma iter_cmp_spec : forall n s1 s2 l1 l2 p1 p2,
  titer_rep Rc1 Rcs1 x1 s1 l1 p1 -> titer_rep Rc2 Rcs2 x2 s2 l2 p2 -> length l1 < n ->
  exists c, iter_cmp k1 k2 n s1 s2 = Ok c /\
  match c with
  | Eq => chars l1 = chars l2
  | Lt => lex_lt (chars l1) (chars l2)
  | Gt => lex_lt (chars l2) (chars l1)
  end.
Proof.
  induction n as [|n IH]; intros s1 s2 l1 l2 p1 p2 H1 H2 Hn; [lia|]. cbn [iter_cmp].
  destruct (sc_next (titer_contract KC1 XC1) _ _ _ H1) as (s1' & E1 & H1').
  destruct (sc_next (titer_contract KC2 XC2) _ _ _ H2) as (s2' & E2 & H2').
  cbn in E1, E2. rewrite E1. cbn. rewrite E2. cbn.
  destruct l1 as [|i1 l1], l2 as [|i2 l2]; cbn in *.
  - exists Eq. auto.
  - eexists. split; [reflexivity|]. exists []. left. cbn. eauto.
  - eexists. split; [reflexivity|]. exists []. left. cbn. eauto.
  - destruct (N.compare_spec (it_ch i1) (it_ch i2)) as [E|E|E].
    + destruct (IH _ _ _ _ _ _ H1' H2') as (c & -> & Hc); [lia|]. exists c. split; [auto|]. unfold chars in *.
      rewrite E. destruct c; [congruence| |];
        destruct Hc as (p & [(Hp & c & r & Hv)|(a & b & r & r' & Hu & Hv & Hlt)]);
        exists (it_ch i2 :: p); cbn; [left|right|left|right].
      * split; [congruence|]. exists c, r. congruence.
      * exists a, b, r, r'. repeat split; congruence.
      * split; [congruence|]. exists c, r. congruence.
      * exists a, b, r, r'. repeat split; congruence.
    + eexists. split; [reflexivity|]. exists []. right. cbn. do 4 eexists. repeat split; eauto.
    + eexists. split; [reflexivity|]. exists []. right. cbn. do 4 eexists. repeat split; eauto.
Qed.

Lemma text_cmp_spec n t1 t2 l1 l2 : text_items x1 Rc1 t1 l1 -> text_items x2 Rc2 t2 l2 -> length l1 < n ->
  exists c, text_cmp k1 x1 k2 x2 n t1 t2 = Ok c /\
  match c with
  | Eq => chars l1 = chars l2
  | Lt => lex_lt (chars l1) (chars l2)
  | Gt => lex_lt (chars l2) (chars l1)
  end.
Proof.
  intros H1 H2 Hn. unfold text_cmp.
  destruct (titer_new_rep KC1 H1) as (s1 & -> & R1). destruct (titer_new_rep KC2 H2) as (s2 & -> & R2).
  cbn. eapply iter_cmp_spec; eauto.
Qed.
End Two.

Section One.
Context {TT C CS A Pos W : Type} (k : chunk_ops C CS Pos) (Rc : C -> list (item Pos) -> Prop)
        (Rcs : CS -> list (item Pos) -> list (item Pos) -> Prop) (KC : chunk_contract k Rc Rcs).
Context (F : Prop) (view : A -> W) (x : text_ops TT C A) (XC : text_contract F view x Rc).

Lemma text_hash_spec n t l : text_items x Rc t l -> length l < n ->
  text_hash k x n t = Ok (map HChar (chars l)).
Proof.
  intros H Hn. unfold text_hash. destruct (titer_new_rep KC H) as (s & -> & R). cbn.
  clear H. revert s l R Hn. generalize (@nil (item Pos)) as p.
  induction n as [|n IH]; intros p s l R Hn; [lia|]. cbn [iter_hash].
  destruct (sc_next (titer_contract KC XC) _ _ _ R) as (s' & E & R'). cbn in E. rewrite E. cbn.
  destruct l as [|i l]; cbn in *; [reflexivity|]. rewrite (IH _ _ _ R') by lia. reflexivity.
Qed.

(** [encode_utf8]. *)
Lemma skipn_add X (a b : nat) (l : list X) : skipn (a + b) l = skipn a (skipn b l).
Proof.
  revert l. induction b as [|b IH]; intros l; [rewrite Nat.add_0_r; reflexivity|].
  rewrite Nat.add_succ_r. destruct l; cbn [skipn]; [destruct a; reflexivity|apply IH].
Qed.

Lemma write_at_end buf pos bs : (pos <= length buf)%nat -> (pos + length bs <= length buf)%nat ->
  exists buf', write_at buf pos bs = Some buf' /\ length buf' = length buf /\
    firstn (pos + length bs) buf' = firstn pos buf ++ bs /\
    skipn (pos + length bs) buf' = skipn (pos + length bs) buf.
Proof.
  intros H1 H2. unfold write_at. rewrite (proj2 (Nat.leb_le _ _) H2). eexists. split; [reflexivity|].
  assert (L : length (firstn pos buf ++ bs) = pos + length bs).
  { rewrite app_length, firstn_length. lia. }
  rewrite app_assoc. repeat split.
  - rewrite app_length, L, skipn_length. lia.
  - rewrite <- L. rewrite firstn_app, firstn_all, Nat.sub_diag. cbn. apply app_nil_r.
  - rewrite <- L at 1. rewrite skipn_app, skipn_all, Nat.sub_diag. reflexivity.
Qed.

Lemma encode_loop_spec : forall n s l p buf done, titer_rep Rc Rcs x s l p -> length l < n ->
  Forall (fun c => is_scalar c = true) (done ++ chars l) ->
  length (encode done) <= length buf -> firstn (length (encode done)) buf = encode done ->
  exists r u v buf', encode_loop k n s buf (length (encode done)) = (Ok (r, length (encode (done ++ u))), buf') /\
    chars l = u ++ v /\ length buf' = length buf /\
    length (encode (done ++ u)) <= length buf /\
    firstn (length (encode (done ++ u))) buf' = encode (done ++ u) /\
    skipn (length (encode (done ++ u))) buf' = skipn (length (encode (done ++ u))) buf /\
    match v with
    | [] => r = inl (done ++ u)
    | c :: _ => r = inr (done ++ u) /\ length buf < length (encode (done ++ u ++ [c]))
    end.
Proof.
  induction n as [|n IH]; intros s l p buf done R Hn Hsc Hl Hb; [lia|]. cbn [encode_loop].
  destruct (sc_next (titer_contract KC XC) _ _ _ R) as (s' & E & R'). cbn in E. rewrite E.
  assert (D : Forall (fun c => is_scalar c = true) done) by (apply Forall_app in Hsc; tauto).
  destruct l as [|i l]; cbn [hd_error tl chars map length] in *.
  - unfold as_str. rewrite Hb, (decode_encode D). cbn.
    exists (inl done), [], [], buf. rewrite !app_nil_r. repeat split; auto.
  - assert (Le : length (encode (done ++ [it_ch i])) = length (encode done) + length (encode_char (it_ch i))).
    { rewrite encode_app, app_length. cbn. rewrite app_nil_r. reflexivity. }
    destruct (N.leb_spec (N.of_nat (length (encode done)) + len_utf8 (it_ch i)) (N.of_nat (length buf))) as [G|G];
      rewrite <- encode_char_length in G.
    + destruct (write_at_end buf (encode_char (it_ch i)) Hl) as (buf' & Ew & Lw & Fw & Sw); [lia|]. rewrite Ew.
      rewrite <- Le in *.
      destruct (IH s' l _ buf' (done ++ [it_ch i]) R') as (r & u & v & buf2 & E2 & Ec & L2 & M2 & F2 & S2 & V2);
        [lia|rewrite <- app_assoc; exact Hsc|lia| |].
      { rewrite Fw, Hb, encode_app. cbn. rewrite app_nil_r. reflexivity. }
      rewrite E2. exists r, (it_ch i :: u), v, buf2.
      rewrite <- app_assoc in M2, F2, S2. cbn [app] in M2, F2, S2. rewrite Lw in L2, M2.
      rewrite <- app_assoc. cbn [app]. repeat split; auto; [unfold chars in Ec; rewrite Ec; reflexivity| |].
      * rewrite S2. assert (J : length (encode (done ++ it_ch i :: u)) =
          length (encode u) + length (encode (done ++ [it_ch i]))).
        { change (done ++ it_ch i :: u) with (done ++ [it_ch i] ++ u). rewrite app_assoc, (encode_app (done ++ _)), app_length. lia. }
        rewrite J, !skipn_add, Sw. reflexivity.
      * destruct v as [|c v].
        { rewrite <- app_assoc in V2. exact V2. }
        rewrite <- !app_assoc, Lw in V2. exact V2.
    + unfold as_str. rewrite Hb, (decode_encode D). cbn.
      exists (inr done), [], (it_ch i :: chars l), buf. rewrite !app_nil_r. repeat split; auto.
      cbn [app]. rewrite Le. lia.
Qed.

(** What is returned: the longest prefix [u] of the characters that fits. *)
Lemma encode_utf8_spec n t l buf : text_items x Rc t l -> length l < n ->
  Forall (fun c => is_scalar c = true) (chars l) ->
  exists r u v buf', encode_utf8 k x n t buf = (Ok (r, length (encode u)), buf') /\
    chars l = u ++ v /\ length buf' = length buf /\
    length (encode u) <= length buf /\
    firstn (length (encode u)) buf' = encode u /\
    skipn (length (encode u)) buf' = skipn (length (encode u)) buf /\
    match v with
    | [] => r = inl u
    | c :: _ => r = inr u /\ length buf < length (encode (u ++ [c]))
    end.
Proof.
  intros H Hn Hs. unfold encode_utf8. destruct (titer_new_rep KC H) as (s & -> & R).
  exact (@encode_loop_spec n s l [] buf [] R Hn Hs (Nat.le_0_l _) eq_refl).
Qed.

(** The total versions used for keys. *)
Context (size : C -> nat) (Hsize : forall c l, Rc c l -> length l <= size c).

Lemma text_fuel_enough t l : text_items x Rc t l -> length l < text_fuel x size t.
Proof.
  intros (cs & ls & E & H & ->). unfold text_fuel. rewrite E. clear E.
  induction H as [|c l cs ls Hc _ IH]; cbn; [lia|]. rewrite app_length. specialize (Hsize Hc). lia.
Qed.

Lemma text_eqb_spec t1 t2 l1 l2 : text_items x Rc t1 l1 -> text_items x Rc t2 l2 ->
  text_eqb k x size t1 t2 = true <-> chars l1 = chars l2.
Proof.
  intros H1 H2. unfold text_eqb.
  destruct (text_eq_spec KC XC KC XC H1 H2 (text_fuel_enough H1)) as (b & -> & Hb). exact Hb.
Qed.

Lemma text_words_spec t l : text_items x Rc t l ->
  text_words k x size t = map HChar (chars l).
Proof. intros H. unfold text_words. rewrite (text_hash_spec H (text_fuel_enough H)). reflexivity. Qed.
End One.

(** The order of character sequences. *)
Lemma lex_lt_irrefl u : ~ lex_lt u u.
Proof.
  intros (p & [(-> & c & r & E)|(a & b & r & r' & E1 & E2 & H)]).
  - rewrite <- (app_nil_r p) in E at 1. apply app_inv_head in E. discriminate.
  - rewrite E1 in E2. apply app_inv_head in E2. injection E2 as -> _. lia.
Qed.

Lemma lex_lt_cons c u v : lex_lt (c :: u) (c :: v) <-> lex_lt u v.
Proof.
  split.
  - intros (p & [(<- & d & r & E)|(a & b & r & r' & E1 & E2 & H)]).
    + injection E as E. exists u. left. eauto.
    + destruct p as [|e p]; cbn in E1, E2.
      * injection E1 as E1 _. injection E2 as E2 _. lia.
      * injection E1 as _ E1. injection E2 as _ E2. subst. exists p. right. do 4 eexists. eauto.
  - intros (p & [(-> & d & r & ->)|(a & b & r & r' & -> & -> & H)]); exists (c :: p).
    + left. cbn. eauto.
    + right. cbn. do 4 eexists. eauto.
Qed.

Lemma lex_lt_nil_r u : ~ lex_lt u [].
Proof. intros (p & [(-> & d & r & E)|(a & b & r & r' & E1 & E2 & H)]); destruct p; discriminate. Qed.

Lemma lex_lt_head a b u v : (a < b)%N -> lex_lt (a :: u) (b :: v).
Proof. intros H. exists []. right. cbn. do 4 eexists. eauto. Qed.

Lemma lex_lt_cons_inv a b u v : lex_lt (a :: u) (b :: v) -> (a < b)%N \/ (a = b /\ lex_lt u v).
Proof.
  intros H. destruct (N.eq_dec a b) as [->|N]; [right; split; auto; apply (lex_lt_cons b), H|]. left.
  destruct H as (p & [(<- & d & r & E)|(c & d & r & r' & E1 & E2 & H)]).
  - injection E as -> _. congruence.
  - destruct p as [|e p]; cbn in *; injection E1 as -> _; injection E2 as -> _; [lia|congruence].
Qed.

Lemma lex_lt_trans u v w : lex_lt u v -> lex_lt v w -> lex_lt u w.
Proof.
  revert v w. induction u as [|a u IH]; intros v w H1 H2.
  - destruct w as [|c w]; [contradiction (lex_lt_nil_r H2)|]. exists []. left. cbn. eauto.
  - destruct v as [|b v]; [contradiction (lex_lt_nil_r H1)|].
    destruct w as [|c w]; [contradiction (lex_lt_nil_r H2)|].
    apply lex_lt_cons_inv in H1, H2.
    destruct H1 as [H1|[-> H1]], H2 as [H2|[-> H2]]; try (apply lex_lt_head; lia).
    apply lex_lt_cons. eauto.
Qed.

Lemma lex_lt_total u v : lex_lt u v \/ u = v \/ lex_lt v u.
Proof.
  revert v. induction u as [|a u IH]; intros [|b v]; auto.
  - left. exists []. left. cbn. eauto.
  - right. right. exists []. left. cbn. eauto.
  - destruct (N.lt_trichotomy a b) as [H|[->|H]]; [left; apply lex_lt_head; auto| |right; right; apply lex_lt_head; auto].
    destruct (IH v) as [H|[->|H]]; rewrite !lex_lt_cons; auto.
Qed.
