(** The two chunk types obey the chunk contract. *)
From Coq Require Import List NArith Bool Lia.
From Verif.Model Require Import Prelude Parser Utf8 Chunk PosStr PosStrish CharIter.
From Verif.Spec Require Import Contract ChunkContract.
From Verif.Proofs Require Import StrFacts.
Import ListNotations.
Set Implicit Arguments.
Local Open Scope N_scope.
Local Notation N_len l := (N.of_nat (length l)).

Lemma is_nil_byte_len v : (byte_len v =? 0) = is_nil v.
Proof.
  destruct v as [|c v]; [reflexivity|]. cbn. pose proof (len_utf8_pos c).
  apply N.eqb_neq. lia.
Qed.

(** [PosStr] chunks of the source string [src]. *)
Section PosStrFacts.
Context (src : str).
Local Notation at_ pre := (StrPos src (byte_len pre%list) (N_len pre%list)).

(** The items of a part [v] of the source that comes after [pre]. *)
Definition str_items (pre v : str) : list (item strpos) :=
  indexed (StrPos src 0 0) (N_len pre) (byte_len pre) v.

Lemma indexed_shift s b c ci bi v :
  indexed (StrPos s b c) ci bi v = indexed (StrPos s 0 0) (c + ci) (b + bi) v.
Proof.
  revert ci bi. induction v as [|x v IH]; intros ci bi; cbn [indexed sp_src sp_byte sp_char]; [reflexivity|].
  rewrite IH. f_equal. f_equal; lia.
Qed.

Lemma str_items_cons pre c v :
  str_items pre (c :: v) = Item c (at_ pre) :: str_items (pre ++ [c]) v.
Proof.
  unfold str_items. cbn [indexed sp_src sp_byte sp_char]. rewrite !N.add_0_l. f_equal.
  rewrite app_length, byte_len_app. cbn [length byte_len]. f_equal; lia.
Qed.

Lemma str_items_app pre u v : str_items pre (u ++ v) = str_items pre u ++ str_items (pre ++ u) v.
Proof.
  revert pre. induction u as [|c u IH]; intros pre; cbn [app].
  - rewrite app_nil_r. reflexivity.
  - rewrite !str_items_cons, IH. cbn. rewrite <- app_assoc. reflexivity.
Qed.

Lemma str_items_ch pre v : map it_ch (str_items pre v) = v.
Proof. revert pre. induction v as [|c v IH]; intros pre; [reflexivity|]. rewrite str_items_cons. cbn. f_equal. apply IH. Qed.

Lemma str_items_nil pre v : is_nil (str_items pre v) = is_nil v.
Proof. destruct v; reflexivity. Qed.

(** [p] is the part of the source with items [l]. *)
Definition posstr_rep (p : posstr) (l : list (item strpos)) : Prop :=
  (ps_val p = [] /\ l = []) \/
  exists pre v post, src = pre ++ v ++ post /\ p = PosStr v (at_ pre) /\ l = str_items pre v.

Definition posstr_state (s : posstr_iter) (rest pend : list (item strpos)) : Prop :=
  exists pre pv rv post, src = pre ++ pv ++ rv ++ post /\
    rest = str_items (pre ++ pv) rv /\ pend = str_items pre pv /\ pi_iter s = rest /\
    pi_accum s = match pv with [] => None | _ => Some (PosStr pv (at_ pre)) end.

Lemma posstr_contract : chunk_contract posstr_ops posstr_rep posstr_state.
Proof.
  split; cbn.
  - left. auto.
  - intros c l [[E ->]|(pre & v & post & E & -> & ->)]; unfold posstr_is_empty.
    + rewrite E. reflexivity.
    + cbn. rewrite is_nil_byte_len, str_items_nil. reflexivity.
  - intros c l [[E ->]|(pre & v & post & E & -> & ->)]; unfold posstr_src_strm.
    + exists src, [], [], []. rewrite E, !app_nil_r. cbn. auto.
    + exists pre, [], v, post. rewrite app_nil_r. cbn. repeat split; auto.
      rewrite indexed_shift, !N.add_0_r. reflexivity.
  - intros s rest pend (pre & pv & rv & post & E & -> & -> & Ei & Ea).
    exists s. unfold posstr_peek. rewrite Ei. split; [reflexivity|].
    exists pre, pv, rv, post. auto.
  - intros s rest pend (pre & pv & rv & post & E & -> & -> & Ei & Ea).
    unfold posstr_next. rewrite Ei. eexists. split; [reflexivity|].
    destruct rv as [|c rv].
    + exists src, [], [], []. rewrite !app_nil_r. cbn. auto.
    + exists (pre ++ pv ++ [c]), [], rv, post. rewrite E, str_items_cons, <- !app_assoc. cbn. auto.
  - intros s rest pend (pre & pv & rv & post & E & -> & -> & Ei & Ea).
    unfold posstr_next_accum. rewrite Ei.
    destruct rv as [|c rv].
    + cbn. eexists. split; [reflexivity|]. exists pre, pv, [], post. rewrite app_nil_r. auto.
    + rewrite str_items_cons. cbn [hd_error tl firstn it_pos it_ch sp_byte sp_src].
      assert (Hnext : posstr_state
        (PosStrIter (str_items ((pre ++ pv) ++ [c]) rv) (Some (PosStr (pv ++ [c]) (at_ pre))))
        (str_items ((pre ++ pv) ++ [c]) rv)
        (str_items pre pv ++ [Item c (at_ (pre ++ pv))])).
      { exists pre, (pv ++ [c]), rv, post. cbn [app pi_iter pi_accum].
        repeat split; auto.
        - rewrite E, <- !app_assoc. reflexivity.
        - rewrite <- !app_assoc. reflexivity.
        - rewrite str_items_app, str_items_cons. reflexivity.
        - destruct pv; reflexivity. }
      rewrite Ea. destruct pv as [|c0 pv].
      * cbn [ps_pos sp_src sp_byte].
        assert (X : src = (pre ++ []) ++ [c] ++ rv ++ post) by (rewrite E, !app_nil_r; reflexivity).
        replace (len_utf8 c) with (byte_len [c]) by (cbn; lia).
        pose proof (str_slice_mid (pre ++ []) [c] (rv ++ post)) as Y. rewrite <- X in Y. rewrite Y.
        eexists. split; [reflexivity|].
        rewrite app_nil_r in *. exact Hnext.
      * cbn [ps_pos sp_src sp_byte].
        assert (X : src = pre ++ ((c0 :: pv) ++ [c]) ++ rv ++ post)
          by (rewrite E, <- !app_assoc; reflexivity).
        replace (byte_len (pre ++ c0 :: pv) + len_utf8 c) with (byte_len pre + byte_len ((c0 :: pv) ++ [c]))
          by (rewrite !byte_len_app; cbn [byte_len]; lia).
        pose proof (str_slice_mid pre ((c0 :: pv) ++ [c]) (rv ++ post)) as Y. rewrite <- X in Y. rewrite Y.
        eexists. split; [reflexivity|]. exact Hnext.
  - intros s rest pend (pre & pv & rv & post & E & -> & -> & Ei & Ea).
    unfold posstr_accum_done. do 2 eexists. split; [reflexivity|]. split.
    + rewrite Ea. destruct pv as [|c pv].
      * left. auto.
      * right. exists pre, (c :: pv), (rv ++ post). auto.
    + exists (pre ++ pv), [], rv, post. rewrite app_nil_r. cbn. repeat split; auto.
      rewrite E, <- !app_assoc. reflexivity.
Qed.

Lemma posstr_from_rep : posstr_rep (posstr_from src) (str_items [] src).
Proof. right. exists [], src, []. rewrite app_nil_r. auto. Qed.
End PosStrFacts.

(** [PosStrish] chunks: parts of strings [s] with [ok s base], that is [s]
    starts at character [base] of the stream. *)
Section PosStrishFacts.
Context (ok : str -> N -> Prop).

Lemma enumerate_app i u v : enumerate i (u ++ v) = enumerate i u ++ enumerate (i + N_len u) v.
Proof.
  revert i. induction u as [|c u IH]; intros i; cbn [app enumerate length].
  - rewrite N.add_0_r. reflexivity.
  - rewrite IH. replace (i + N.of_nat (S (length u))) with (i + 1 + N_len u) by lia. reflexivity.
Qed.

Lemma enumerate_nil i v : is_nil (enumerate i v) = is_nil v.
Proof. destruct v; reflexivity. Qed.

Lemma enumerate_length i v : length (enumerate i v) = length v.
Proof. revert i. induction v; intros; cbn; auto. Qed.

Lemma enumerate_ch i v : map it_ch (enumerate i v) = v.
Proof. revert i. induction v; intros; cbn; f_equal; auto. Qed.

Definition posstrish_rep (p : posstrish) (l : list (item charpos)) : Prop :=
  exists pre v post,
    px_val p = RcSlice (pre ++ v ++ post) (byte_len pre) (byte_len pre + byte_len v) /\
    l = enumerate (px_pos p) v /\
    (v = [] \/ exists base, ok (pre ++ v ++ post) base /\ px_pos p = base + N_len pre).

Definition posstrish_state (s : posstrish_iter) (rest pend : list (item charpos)) : Prop :=
  exists pre d0 pv rv post,
    let pos := px_pos (xi_chunk s) in
    let dn := d0 ++ pv in
    let v := dn ++ rv in
    px_val (xi_chunk s) = RcSlice (pre ++ v ++ post) (byte_len pre) (byte_len pre + byte_len v) /\
    (v = [] \/ exists base, ok (pre ++ v ++ post) base /\ pos = base + N_len pre) /\
    rest = enumerate (pos + N_len dn) rv /\
    pend = enumerate (pos + N_len d0) pv /\
    xi_accum s = match pv with
                 | [] => None
                 | _ => Some ((byte_len d0, byte_len dn), pos + N_len d0)
                 end /\
    match xi_peeked s with
    | None => xi_byte s = byte_len dn /\ xi_char s = N_len dn
    | Some it => match rv with
                 | [] => False
                 | c :: _ => it = Item c (pos + N_len dn) /\
                     xi_byte s = byte_len dn + len_utf8 c /\ xi_char s = N_len dn + 1
                 end
    end.

(** Reading the next character. *)
Lemma no_peeked_spec s rest pend : posstrish_state s rest pend -> xi_peeked s = None ->
  match rest with
  | [] => do_next_no_peeked s = (Ok None, s)
  | it :: _ => do_next_no_peeked s =
      (Ok (Some it), PosStrishIter (xi_chunk s) (xi_byte s + len_utf8 (it_ch it)) (xi_char s + 1)
                                   None (xi_accum s))
  end.
Proof.
  intros (pre & d0 & pv & rv & post & Ev & _ & -> & _ & _ & Hp) Hn.
  rewrite Hn in Hp. destruct Hp as [Eb Ec].
  unfold do_next_no_peeked, rc_as_str. rewrite Ev. cbn [rs_str rs_start rs_end].
  rewrite str_slice_mid. cbn [res_bind]. rewrite Eb, str_from_app.
  destruct rv as [|c rv]; cbn [enumerate it_ch]; [reflexivity|]. rewrite Hn, Ec. reflexivity.
Qed.

Lemma posstrish_contract : chunk_contract posstrish_ops posstrish_rep posstrish_state.
Proof.
  split; cbn.
  - exists [], [], []. cbn. auto.
  - intros c l (pre & v & post & E & -> & _). unfold posstrish_is_empty, rc_as_str.
    rewrite E. cbn [rs_str rs_start rs_end]. rewrite str_slice_mid. cbn.
    rewrite is_nil_byte_len, enumerate_nil. reflexivity.
  - intros c l (pre & v & post & E & -> & Hok). exists pre, [], [], v, post. cbn.
    rewrite !N.add_0_r. auto 10.
  - intros s rest pend H. unfold posstrish_peek.
    destruct (xi_peeked s) as [it|] eqn:Hpk.
    + exists s. split; [|exact H].
      destruct H as (pre & d0 & pv & rv & post & Ev & _ & -> & _ & _ & Hp). rewrite Hpk in Hp.
      destruct rv as [|c rv]; [contradiction|]. destruct Hp as (-> & _). reflexivity.
    + pose proof (no_peeked_spec H Hpk) as Hs.
      destruct H as (pre & d0 & pv & rv & post & Ev & Hok & -> & -> & Ha & Hp). rewrite Hpk in Hp.
      destruct rv as [|c rv]; cbn [enumerate] in Hs |- *; rewrite Hs.
      * eexists. split; [reflexivity|]. exists pre, d0, pv, [], post. cbn. auto 10.
      * eexists. split; [reflexivity|]. exists pre, d0, pv, (c :: rv), post. cbn.
        destruct Hp as [-> ->]. auto 10.
  - intros s rest pend (pre & d0 & pv & rv & post & Ev & Hok & -> & -> & Ha & Hp).
    unfold posstrish_next, do_next_strish.
    destruct (xi_peeked s) as [it|] eqn:Hpk; cbn [xi_chunk xi_byte xi_char xi_peeked xi_accum].
    + destruct rv as [|c rv]; [contradiction|]. destruct Hp as (-> & Eb & Ec).
      eexists. split; [reflexivity|].
      exists pre, (d0 ++ pv ++ [c]), [], rv, post. cbn [xi_chunk xi_accum xi_peeked xi_byte xi_char enumerate].
      rewrite app_nil_r, <- !app_assoc in *. cbn [app] in *. rewrite Eb, Ec.
      rewrite !app_length, !byte_len_app in *. cbn [length byte_len] in *.
      repeat split; auto; try (f_equal; lia); try lia.
      cbn [tl]. f_equal. lia.
    + assert (H : posstrish_state (PosStrishIter (xi_chunk s) (xi_byte s) (xi_char s) None None)
        (enumerate (px_pos (xi_chunk s) + N_len (d0 ++ pv)) rv) []).
      { exists pre, (d0 ++ pv), [], rv, post. cbn. rewrite app_nil_r. auto 10. }
      pose proof (no_peeked_spec H eq_refl) as Hs.
      destruct rv as [|c rv]; cbn [enumerate] in Hs |- *; rewrite Hs.
      * eexists. split; [reflexivity|]. exists pre, (d0 ++ pv), [], [], post. cbn.
        rewrite !app_nil_r in *. auto 10.
      * eexists. split; [reflexivity|]. destruct Hp as [Eb Ec].
        exists pre, (d0 ++ pv ++ [c]), [], rv, post. cbn.
        rewrite app_nil_r, <- !app_assoc in *. cbn [app] in *. rewrite Eb, Ec.
        rewrite !app_length, !byte_len_app in *. cbn [length byte_len] in *.
        repeat split; auto; try (f_equal; lia); lia.
  - intros s rest pend H0. pose proof H0 as (pre & d0 & pv & rv & post & Ev & Hok & -> & -> & Ha & Hp).
    unfold posstrish_next_accum, do_next_strish.
    (* the state after reading [c] *)
    assert (Next : forall c rv' s', rv = c :: rv' ->
      xi_chunk s' = xi_chunk s -> xi_byte s' = byte_len (d0 ++ pv) + len_utf8 c ->
      xi_char s' = N_len (d0 ++ pv) + 1 -> xi_peeked s' = None ->
      xi_accum s' = Some ((byte_len d0, xi_byte s'), px_pos (xi_chunk s) + N_len d0) ->
      posstrish_state s' (enumerate (px_pos (xi_chunk s) + N_len (d0 ++ pv) + 1) rv')
        (enumerate (px_pos (xi_chunk s) + N_len d0) pv ++ [Item c (px_pos (xi_chunk s) + N_len (d0 ++ pv))])).
    { intros c rv' s' -> E1 E2 E3 E4 E5.
      exists pre, d0, (pv ++ [c]), rv', post. cbn. rewrite E1, E4, E5, E2, E3.
      replace ((d0 ++ pv ++ [c]) ++ rv') with ((d0 ++ pv) ++ c :: rv') by (rewrite <- !app_assoc; reflexivity).
      rewrite Ev. rewrite enumerate_app. cbn [enumerate].
      rewrite !app_length, !byte_len_app. cbn [length byte_len].
      repeat split; auto; try lia.
      - f_equal. lia.
      - f_equal. f_equal. f_equal. lia.
      - replace (byte_len d0 + byte_len pv + len_utf8 c)
          with (byte_len d0 + (byte_len pv + (len_utf8 c + 0))) by lia.
        destruct pv; reflexivity. }
    assert (Acc : forall (s' : posstrish_iter) c rv', rv = c :: rv' ->
      xi_chunk s' = xi_chunk s -> xi_byte s' = byte_len (d0 ++ pv) + len_utf8 c ->
      xi_char s' = N_len (d0 ++ pv) + 1 -> xi_peeked s' = None -> xi_accum s' = xi_accum s ->
      exists s'', (match xi_accum s' with
      | Some ((b, _), p) =>
          (Ok (Some (Item c (px_pos (xi_chunk s) + N_len (d0 ++ pv)))),
           PosStrishIter (xi_chunk s') (xi_byte s') (xi_char s') (xi_peeked s')
                                       (Some ((b, xi_byte s'), p)))
      | None =>
          if (len_utf8 c <=? xi_byte s') && (1 <=? xi_char s') then
            (Ok (Some (Item c (px_pos (xi_chunk s) + N_len (d0 ++ pv)))),
             PosStrishIter (xi_chunk s') (xi_byte s') (xi_char s') (xi_peeked s')
               (Some ((xi_byte s' - len_utf8 c, xi_byte s'),
                      px_pos (xi_chunk s') + (xi_char s' - 1))))
          else (Panic, s')
      end : res Empty_set (option (item charpos)) * posstrish_iter)
      = (Ok (Some (Item c (px_pos (xi_chunk s) + N_len (d0 ++ pv)))), s'') /\
      posstrish_state s'' (enumerate (px_pos (xi_chunk s) + N_len (d0 ++ pv) + 1) rv')
        (enumerate (px_pos (xi_chunk s) + N_len d0) pv ++ [Item c (px_pos (xi_chunk s) + N_len (d0 ++ pv))])).
    { intros s' c rv' Er E1 E2 E3 E4 E5. rewrite E5, Ha. destruct pv as [|c0 pv].
      - rewrite E2, E3. rewrite app_nil_r in *.
        destruct (N.leb_spec (len_utf8 c) (byte_len d0 + len_utf8 c)); [|lia].
        destruct (N.leb_spec 1 (N_len d0 + 1)); [|lia].
        cbn [andb]. eexists. split; [reflexivity|].
        eapply Next; cbn; eauto. rewrite E1. repeat f_equal; lia.
      - eexists. split; [reflexivity|]. eapply Next; cbn; eauto. }
    destruct (xi_peeked s) as [it|] eqn:Hpk.
    + destruct rv as [|c rv]; [contradiction|]. destruct Hp as (-> & Eb & Ec).
      cbn [it_ch enumerate hd_error tl firstn]. eapply Acc; eauto; cbn; auto.
    + pose proof (no_peeked_spec H0 Hpk) as Hs.
      destruct rv as [|c rv]; cbn [enumerate] in Hs |- *; rewrite Hs.
      * eexists. split; [reflexivity|]. rewrite app_nil_r. exact H0.
      * cbn [it_ch hd_error tl firstn]. destruct Hp as [Eb Ec]. eapply Acc; eauto; cbn.
        -- rewrite Eb. reflexivity.
        -- rewrite Ec. reflexivity.
  - intros s rest pend (pre & d0 & pv & rv & post & Ev & Hok & -> & -> & Ha & Hp).
    unfold posstrish_accum_done. rewrite Ha.
    assert (St : posstrish_state (PosStrishIter (xi_chunk s) (xi_byte s) (xi_char s) (xi_peeked s) None)
      (enumerate (px_pos (xi_chunk s) + N_len (d0 ++ pv)) rv) []).
    { exists pre, (d0 ++ pv), [], rv, post. cbn. rewrite app_nil_r. auto 10. }
    destruct pv as [|c pv].
    + do 2 eexists. split; [reflexivity|]. split; [|exact St].
      exists [], [], []. cbn. auto.
    + unfold rc_slice. rewrite Ev. cbn [rs_str rs_start rs_end].
      set (v := (d0 ++ c :: pv) ++ rv) in *.
      assert (byte_len d0 <= byte_len (d0 ++ c :: pv) <= byte_len v).
      { unfold v. rewrite !byte_len_app. lia. }
      destruct (N.leb_spec (byte_len d0) (byte_len (d0 ++ c :: pv))); [|lia].
      destruct (N.leb_spec (byte_len pre) (byte_len pre + byte_len v)); [|lia].
      destruct (N.leb_spec (byte_len (d0 ++ c :: pv)) (byte_len pre + byte_len v - byte_len pre)); [|lia].
      cbn [andb res_map]. do 2 eexists. split; [reflexivity|]. split; [|exact St].
      exists (pre ++ d0), (c :: pv), (rv ++ post). cbn [px_val px_pos].
      assert (Ev' : pre ++ v ++ post = (pre ++ d0) ++ (c :: pv) ++ rv ++ post)
        by (unfold v; rewrite <- !app_assoc; reflexivity).
      rewrite Ev'. repeat split; auto.
      * rewrite !byte_len_app. f_equal. lia.
      * right. destruct Hok as [Hok|(base & Hok & ->)]; [destruct d0; discriminate|].
        exists base. rewrite Ev' in Hok. split; [exact Hok|]. rewrite app_length. lia.
Qed.

Lemma posstrish_new_rep s pos : ok s pos -> posstrish_rep (posstrish_new s pos) (enumerate pos s).
Proof.
  intros H. exists [], s, []. cbn. rewrite app_nil_r. repeat split; auto.
  right. exists pos. rewrite N.add_0_r. auto.
Qed.
End PosStrishFacts.
