(** Termination, absence of panics, progress and state hygiene of the parser,
    for every stream, text and allocator obeying their contracts, every
    classifier and all bindings. *)
From Coq Require Import List Arith NArith Bool Lia.
From Verif.Model Require Import Prelude Parser Iter.
From Verif.Spec Require Import Contract.
From Verif.Proofs Require Import Wp.
Import ListNotations.
Set Implicit Arguments.

Definition suffix {X} (r' r : list X) : Prop := exists u, r = u ++ r'.

Lemma suffix_refl X (r : list X) : suffix r r.
Proof. exists []; reflexivity. Qed.
Lemma suffix_trans X (a b c : list X) : suffix a b -> suffix b c -> suffix a c.
Proof. intros [u ->] [v ->]. exists (v ++ u). now rewrite app_assoc. Qed.
Lemma suffix_tl X (r : list X) : suffix (tl r) r.
Proof. destruct r; [exists []|exists [x]]; reflexivity. Qed.
Lemma suffix_cons X (x : X) r' r : suffix r' r -> suffix r' (x :: r).
Proof. intros [u ->]. exists (x :: u). reflexivity. Qed.
Lemma suffix_len X (r' r : list X) : suffix r' r -> length r' <= length r.
Proof. intros [u ->]. rewrite app_length. lia. Qed.
Lemma suffix_nil X (r : list X) : suffix [] r.
Proof. exists r; now rewrite app_nil_r. Qed.
#[export] Hint Resolve suffix_refl suffix_tl suffix_cons suffix_nil : suf.

Section Safety.
Context {S A TT ET Pos CE : Type}.
Context (umax : N) (cc : classifier) (so : stream_ops S A TT Pos) (co : concat_ops A TT)
        (ao : alloc_ops A TT ET) (bnd : bindings A TT ET Pos CE).
Context (Rs : S -> list (item Pos) -> list (item Pos) -> Prop)
        (Rt : TT -> list (item Pos) -> Prop).
Context {Wd : Type} (F : Prop) (view : A -> Wd).
Context (SC : stream_contract F view so Rs Rt) (TC : concat_contract F view co Rt)
        (AC : alloc_contract F view ao).
Implicit Types st : pstate S A.

Local Notation N_len r := (N.of_nat (length r)).

Definition hd_is (f : char -> bool) (r : list (item Pos)) : Prop :=
  exists it r', r = it :: r' /\ f (it_ch it) = true.

(** What holds after an error: depth as before, some suffix still to come,
    nothing pending unless at the end. *)
Definition err_post (r : list (item Pos)) (d : N) (prog : Prop) st' : Prop :=
  ps_depth st' = d /\
  exists r' p', Rs (ps_strm st') r' p' /\ suffix r' r /\ (p' = [] \/ r' = []) /\
                (prog -> length r' < length r).

Lemma skip_whitespace_safe : forall fuel r st,
  length r < fuel -> Rs (ps_strm st) r [] ->
  wp (CE:=CE) (skip_whitespace cc so fuel) (fun res st' =>
    res = Ok tt /\ ps_depth st' = ps_depth st /\
    exists r', Rs (ps_strm st') r' [] /\ suffix r' r /\
      ~ hd_is (is_whitespace cc) r') st.
Proof.
  induction fuel as [|fuel IH]; intros r st Hf H; [lia|].
  cbn [skip_whitespace]. apply wp_bind.
  eapply wp_peek; [exact SC|exact H|]. intros st1 H1 D1. cbn.
  destruct r as [|it r]; cbn.
  - apply wp_ret. repeat split; [congruence|]. exists []. repeat split; auto with suf.
    intros (it & r' & E & _); discriminate.
  - destruct (is_whitespace cc (it_ch it)) eqn:W.
    + apply wp_bind. eapply wp_next; [exact SC|exact H1|]. cbn. intros st2 H2 D2.
      eapply wp_mono; [eapply IH with (r := r); [cbn in Hf; lia|exact H2]|].
      intros res st3 (-> & D3 & r' & H3 & Hs & Hn). repeat split; [congruence|].
      exists r'; auto with suf.
    + apply wp_ret. repeat split; [congruence|]. exists (it :: r).
      repeat split; auto with suf.
      intros (it' & r' & E & W'). injection E as -> ->. congruence.
Qed.

Definition stops (m : mode) (d : N) (r : list (item Pos)) : Prop :=
  match r with
  | [] => True
  | it :: _ => is_end_char cc (it_ch it) m = true \/
               (is_nest_end cc (it_ch it) = true /\ (0 < d)%N)
  end.

(** Neither an end character of the mode nor any nest end is next. *)
Definition starts_text (m : mode) (r : list (item Pos)) : Prop :=
  exists it r', r = it :: r' /\ is_end_char cc (it_ch it) m = false /\
                is_nest_end cc (it_ch it) = false.

Lemma check_end_char_safe r p st d :
  Rs (ps_strm st) r p -> hd_is (is_nest_end cc) r ->
  wp (CE:=CE) (check_end_char cc so d) (fun res st' =>
    ps_depth st' = ps_depth st /\
    match res with
    | Ok _ => (0 < d)%N /\ Rs (ps_strm st') r p
    | Err e => d = 0%N /\ exists it r', r = it :: r' /\ e = UnbalancedEndChar (it_pos it) /\
               Rs (ps_strm st') r' []
    | _ => False
    end) st.
Proof.
  intros H (it & r' & -> & E). unfold check_end_char.
  apply wp_bind. eapply wp_peek; [exact SC|exact H|]. intros st1 H1 D1.
  cbn. apply wp_bind. apply wp_assert; [exact E|].
  destruct (0 <? d)%N eqn:Z.
  - apply wp_ret. apply N.ltb_lt in Z. auto.
  - apply N.ltb_ge in Z. apply wp_bind. eapply wp_next; [exact SC|exact H1|].
    cbn. intros st2 H2 D2. apply wp_raise. split; [congruence|].
    split; [lia|]. eauto.
Qed.

Lemma parse_text_done_safe text tl r p nl st m (prog : Prop) r0 d :
  Rs (ps_strm st) r p -> Rt text tl -> ps_depth st = d ->
  (nl = 0%N -> stops m d r) -> (nl <> 0%N -> r = []) ->
  suffix r r0 -> (prog -> length r < length r0) ->
  wp (CE:=CE) (parse_text_done so co text nl) (fun res st' =>
    match res with
    | Ok t => ps_depth st' = d /\ exists r' l, Rs (ps_strm st') r' [] /\ Rt t l /\
              suffix r' r0 /\ stops m d r' /\ (prog -> length r' < length r0)
    | Err e => err_post r0 d prog st'
    | _ => False
    end) st.
Proof.
  intros H Ht D Hst Hnl Hs Hp. unfold parse_text_done.
  destruct (nl =? 0)%N eqn:Z.
  - apply N.eqb_eq in Z.
    eapply wp_concat_accum; [exact SC|exact TC|exact H|exact Ht| |].
    + intros t st' Ht' H' D'. split; [congruence|]. exists r, (tl ++ p).
      repeat split; auto.
    + intros st' _ H' D'. split; [congruence|]. exists r, []. repeat split; auto.
  - apply N.eqb_neq in Z. apply wp_raise. split; [exact D|].
    exists r, p. repeat split; auto.
Qed.

Lemma parse_text_loop_safe : forall fuel m text tl nl r p st d,
  length r < fuel -> (nl + N_len r <= umax)%N ->
  Rs (ps_strm st) r p -> Rt text tl -> ps_depth st = d ->
  wp (CE:=CE) (parse_text_loop umax cc so co fuel m text nl) (fun res st' =>
    match res with
    | Ok t => ps_depth st' = d /\ exists r' l, Rs (ps_strm st') r' [] /\ Rt t l /\
              suffix r' r /\ stops m d r' /\
              (starts_text m r /\ p = [] /\ tl = [] -> length r' < length r)
    | Err e => err_post r d (starts_text m r /\ p = [] /\ tl = []) st'
    | _ => False
    end) st.
Proof.
  induction fuel as [|fuel IH]; intros m text tl nl r p st d Hf Hnl H Ht D; [lia|].
  cbn [parse_text_loop]. apply wp_bind.
  eapply wp_peek; [exact SC|exact H|]. intros st1 H1 D1.
  destruct r as [|it r]; cbn [hd_error].
  { eapply parse_text_done_safe with (m:=m) (r0:=[]) (d:=d); eauto with suf.
    - congruence.
    - intros; exact I.
    - intros ((it & r' & E & _) & _). discriminate. }
  set (prog := starts_text m (it :: r) /\ p = [] /\ tl = []).
  (* the recursive call, after consuming at least one item *)
  assert (REC : forall st2 text2 tl2 r2 p2 nl2,
    suffix r2 r -> Rs (ps_strm st2) r2 p2 -> Rt text2 tl2 -> ps_depth st2 = d ->
    (nl2 + N_len r2 <= umax)%N ->
    wp (CE:=CE) (parse_text_loop umax cc so co fuel m text2 nl2) (fun res st' =>
    match res with
    | Ok t => ps_depth st' = d /\ exists r' l, Rs (ps_strm st') r' [] /\ Rt t l /\
              suffix r' (it :: r) /\ stops m d r' /\
              (prog -> length r' < length (it :: r))
    | Err e => err_post (it :: r) d prog st'
    | _ => False
    end) st2).
  { intros st2 text2 tl2 r2 p2 nl2 Hs H2 Ht2 D2 Hn2.
    pose proof (suffix_len Hs) as Hl.
    eapply wp_mono; [eapply IH with (d:=d); try eassumption; cbn in Hf; lia|].
    intros [t|e| |] st'; auto.
    - intros (D' & r' & l & h1 & h2 & h3 & h4 & h5). split; auto. exists r', l.
      pose proof (suffix_len h3). repeat split; auto.
      + apply suffix_cons. eapply suffix_trans; eauto.
      + cbn; lia.
    - intros (D' & r' & p' & h1 & h2 & h3 & h4). split; auto. exists r', p'.
      pose proof (suffix_len h2). repeat split; auto.
      + apply suffix_cons. eapply suffix_trans; eauto.
      + cbn; lia. }
  (* failing to allocate while something is pending *)
  assert (FAIL : forall st2 r2, p <> [] -> Rs (ps_strm st2) r2 [] ->
    suffix r2 (it :: r) -> ps_depth st2 = d -> err_post (it :: r) d prog st2).
  { intros st2 r2 Hp H2 Hs D2. split; [exact D2|]. exists r2, []. repeat split; auto.
    intros (_ & -> & _). congruence. }
  cbn [length] in Hf, Hnl.
  destruct ((nl =? 0)%N && is_end_char cc (it_ch it) m) eqn:E1.
  { apply andb_true_iff in E1. destruct E1 as [Z E1]. apply N.eqb_eq in Z.
    eapply parse_text_done_safe with (m:=m) (r0:=it :: r) (d:=d); eauto with suf.
    - congruence.
    - intros _. left. exact E1.
    - intros; contradiction.
    - intros ((it' & r' & E & E' & _) & _). injection E as <- <-. congruence. }
  destruct (is_nest_escape cc (it_ch it)) eqn:E2.
  { apply wp_bind. eapply wp_concat_accum; [exact SC|exact TC|exact H1|exact Ht| |].
    2:{ intros; eapply FAIL; eauto with suf; congruence. }
    intros t2 st2 Ht2 H2 D2. apply wp_bind.
    eapply wp_next; [exact SC|exact H2|]. cbn [hd_error List.tl]. intros st3 H3 D3.
    apply wp_bind. eapply wp_next_accum; [exact SC|exact H3| |].
    - intros st4 H4 D4. eapply REC; [apply suffix_tl|exact H4|exact Ht2|congruence|].
      pose proof (suffix_len (suffix_tl r)). lia.
    - intros st4 Hp _ _. congruence. }
  destruct (is_nest_start cc (it_ch it)) eqn:E3.
  { apply wp_bind. eapply wp_next_accum; [exact SC|exact H1| |].
    2:{ intros; eapply FAIL; eauto with suf; congruence. }
    cbn [hd_error List.tl]. intros st2 H2 D2.
    replace (nl <? umax)%N with true by (symmetry; apply N.ltb_lt; lia).
    eapply REC; [apply suffix_refl|exact H2|exact Ht|congruence|lia]. }
  destruct (is_nest_end cc (it_ch it)) eqn:E4.
  { destruct (0 <? nl)%N eqn:Z.
    - apply N.ltb_lt in Z.
      apply wp_bind. eapply wp_next_accum; [exact SC|exact H1| |].
      2:{ intros; eapply FAIL; eauto with suf; congruence. }
      cbn [hd_error List.tl]. intros st2 H2 D2.
      eapply REC; [apply suffix_refl|exact H2|exact Ht|congruence|lia].
    - apply N.ltb_ge in Z. assert (nl = 0%N) as -> by lia.
      apply wp_bind. apply wp_get_depth. apply wp_bind.
      eapply wp_mono; [eapply check_end_char_safe; [exact H1|]; exists it, r; auto|].
      intros [u|e| |] st2 (D2 & X); try contradiction.
      + destruct X as (Hd & H2).
        eapply parse_text_done_safe with (m:=m) (r0:=it :: r) (d:=d); eauto with suf.
        * congruence.
        * intros _. right. split; [exact E4|]. congruence.
        * intros; contradiction.
        * intros ((it' & r' & E & _ & E') & _). injection E as <- <-. congruence.
      + destruct X as (Hd & it' & r' & E & -> & H2). injection E as <- <-.
        split; [congruence|]. exists r, []. repeat split; auto with suf. }
  apply wp_bind. eapply wp_next_accum; [exact SC|exact H1| |].
  2:{ intros; eapply FAIL; eauto with suf; congruence. }
  cbn [hd_error List.tl]. intros st2 H2 D2.
  eapply REC; [apply suffix_refl|exact H2|exact Ht|congruence|lia].
Qed.

Lemma parse_text_safe fuel m r st d :
  length r < fuel -> (N_len r <= umax)%N ->
  Rs (ps_strm st) r [] -> ps_depth st = d ->
  wp (CE:=CE) (parse_text umax cc so co fuel m) (fun res st' =>
    match res with
    | Ok t => ps_depth st' = d /\ exists r' l, Rs (ps_strm st') r' [] /\ Rt t l /\
              suffix r' r /\ stops m d r' /\
              (starts_text m r -> length r' < length r)
    | Err e => err_post r d (starts_text m r) st'
    | _ => False
    end) st.
Proof.
  intros Hf Hn H D. unfold parse_text.
  eapply wp_mono; [eapply parse_text_loop_safe with (d:=d) (tl:=[]); eauto; apply (tc_empty TC)|].
  - intros [t|e| |] st'; auto.
    + intros (D' & r' & l & h1 & h2 & h3 & h4 & h5). split; auto.
      exists r', l. repeat split; auto.
    + intros (D' & r' & p' & h1 & h2 & h3 & h4). split; auto.
      exists r', p'. repeat split; auto.
Qed.

Lemma nest_end_safe r st :
  Rs (ps_strm st) r [] -> r = [] \/ hd_is (is_nest_end cc) r ->
  wp (CE:=CE) (nest_end cc so) (fun res st' =>
    ps_depth st' = ps_depth st /\
    match res with
    | Ok _ => Rs (ps_strm st') (tl r) [] /\ r <> []
    | Err e => e = MissingEndChar /\ r = [] /\ Rs (ps_strm st') [] []
    | _ => False
    end) st.
Proof.
  intros H He. unfold nest_end. apply wp_bind.
  eapply wp_next; [exact SC|exact H|]. intros st1 H1 D1.
  destruct He as [->|(it & r' & -> & E)]; cbn in *.
  - apply wp_raise. auto.
  - apply wp_assert; [exact E|]. repeat split; auto. discriminate.
Qed.

(** Specification of the three mutually recursive functions. *)
Definition next_post (m : mode) (r : list (item Pos)) (d : N)
  (res : Prelude.res (error Pos CE) (option (datum TT ET))) st' : Prop :=
  match res with
  | Ok (Some _) => ps_depth st' = d /\ exists r', Rs (ps_strm st') r' [] /\ suffix r' r /\
                   length r' < length r
  | Ok None => ps_depth st' = d /\ exists r', Rs (ps_strm st') r' [] /\ suffix r' r /\
                   (m = Operator -> ~ hd_is (is_whitespace cc) r') /\
                   ((d = 0%N /\ r' = []) \/ ((0 < d)%N /\ hd_is (is_nest_end cc) r'))
  | Err _ => err_post r d (d = 0%N) st'
  | _ => False
  end.

Definition nested_post (r : list (item Pos)) (d : N)
  (res : Prelude.res (error Pos CE) (option (datum TT ET))) st' : Prop :=
  match res with
  | Ok _ => ps_depth st' = d /\ exists r', Rs (ps_strm st') r' [] /\ suffix r' r /\
                   length r' < length r
  | Err _ => err_post r d True st'
  | _ => False
  end.

Definition all_post (r : list (item Pos)) (d : N)
  (res : Prelude.res (error Pos CE) (datum TT ET)) st' : Prop :=
  match res with
  | Ok _ => ps_depth st' = d /\ exists r', Rs (ps_strm st') r' [] /\ suffix r' r /\
                   hd_is (is_nest_end cc) r'
  | Err _ => err_post r d False st'
  | _ => False
  end.

Lemma parser_safe : forall n,
  (forall fuel m r st, length r <= n -> 3 * length r + 3 <= fuel -> m <> Operands ->
     (ps_depth st + N_len r <= umax)%N ->
     Rs (ps_strm st) r [] ->
     wp (parse_next umax cc so co ao bnd fuel m) (next_post m r (ps_depth st)) st) /\
  (forall fuel r st, length r <= n -> 3 * length r + 2 <= fuel ->
     (0 < ps_depth st)%N -> (ps_depth st + N_len r <= umax + 1)%N ->
     Rs (ps_strm st) r [] -> hd_is (is_nest_start cc) r ->
     wp (parse_nested umax cc so co ao bnd fuel) (nested_post r (ps_depth st)) st) /\
  (forall fuel r st, length r <= n -> 3 * length r + 4 <= fuel ->
     (0 < ps_depth st)%N -> (ps_depth st + N_len r <= umax)%N ->
     Rs (ps_strm st) r [] ->
     wp (parse_all umax cc so co ao bnd fuel Base) (all_post r (ps_depth st)) st).
Proof.
  induction n as [n IH] using lt_wf_ind.
  assert (IHnext : forall fuel m r st, length r < n -> 3 * length r + 3 <= fuel -> m <> Operands ->
     (ps_depth st + N_len r <= umax)%N ->
     Rs (ps_strm st) r [] ->
     wp (parse_next umax cc so co ao bnd fuel m) (next_post m r (ps_depth st)) st).
  { intros. eapply (proj1 (IH (length r) ltac:(assumption))); auto. }
  assert (IHall : forall fuel r st, length r < n -> 3 * length r + 4 <= fuel ->
     (0 < ps_depth st)%N -> (ps_depth st + N_len r <= umax)%N ->
     Rs (ps_strm st) r [] ->
     wp (parse_all umax cc so co ao bnd fuel Base) (all_post r (ps_depth st)) st).
  { intros. eapply (proj2 (proj2 (IH (length r) ltac:(assumption)))); auto. }
  clear IH.
  assert (NESTED : forall fuel r st, length r <= n -> 3 * length r + 2 <= fuel ->
     (0 < ps_depth st)%N -> (ps_depth st + N_len r <= umax + 1)%N ->
     Rs (ps_strm st) r [] -> hd_is (is_nest_start cc) r ->
     wp (parse_nested umax cc so co ao bnd fuel) (nested_post r (ps_depth st)) st).
  { intros fuel r st Hl Hf Hd Hu H (it & r0 & -> & Est).
    cbn [length] in *. destruct fuel as [|fuel]; [lia|].
    cbn [parse_nested]. apply wp_bind. eapply wp_next; [exact SC|exact H|].
    cbn [hd_error tl]. intros st1 H1 D1.
    apply wp_bind. apply wp_assert; [exact Est|].
    apply wp_bind.
    eapply wp_mono; [eapply IHnext with (r:=r0); [lia|lia|discriminate|rewrite D1; lia|exact H1]|].
    assert (ERR : forall st' r' p', ps_depth st' = ps_depth st ->
       Rs (ps_strm st') r' p' -> suffix r' r0 -> (p' = [] \/ r' = []) ->
       err_post (it :: r0) (ps_depth st) True st').
    { intros st' r' p' D' H' Hs Hp. split; [exact D'|]. exists r', p'.
      pose proof (suffix_len Hs). repeat split; auto with suf. cbn; lia. }
    intros [operator|e| |] st2; try contradiction.
    2:{ intros (D2 & r2 & p2 & H2 & S2 & P2 & _). cbn. eapply ERR; eauto. congruence. }
    intros X.
    (* common part of Ok results *)
    assert (X' : ps_depth st2 = ps_depth st /\ exists r2, Rs (ps_strm st2) r2 [] /\
       suffix r2 r0 /\ (operator = None -> ~ hd_is (is_whitespace cc) r2 /\ hd_is (is_nest_end cc) r2)).
    { destruct operator as [d|]; cbn in X.
      - destruct X as (D2 & r2 & h1 & h2 & h3). split; [congruence|].
        exists r2. repeat split; auto; discriminate.
      - destruct X as (D2 & r2 & h1 & h2 & h4 & h3). split; [congruence|].
        exists r2. repeat split; auto. destruct h3 as [[h3 _]|[_ h3]]; [rewrite D1 in h3; lia|auto]. }
    clear X. destruct X' as (D2 & r2 & H2 & S2 & HN).
    pose proof (suffix_len S2) as L2.
    apply wp_bind. eapply wp_peek; [exact SC|exact H2|]. intros st3 H3 D3.
    apply wp_bind.
    (* skipping at most one whitespace *)
    assert (SKIP : wp (CE:=CE) (match hd_error r2 with
       | Some it0 => if is_whitespace cc (it_ch it0) then bind (next so) (fun _ => ret tt) else ret tt
       | None => ret tt end)
       (fun res st' => res = Ok tt /\ ps_depth st' = ps_depth st /\
          exists r4, Rs (ps_strm st') r4 [] /\ suffix r4 r2 /\
          (r4 = r2 \/ hd_is (is_whitespace cc) r2)) st3).
    { destruct r2 as [|it2 r2]; cbn.
      - apply wp_ret. repeat split; [congruence|]. exists []; auto with suf.
      - destruct (is_whitespace cc (it_ch it2)) eqn:W.
        + apply wp_bind. eapply wp_next; [exact SC|exact H3|]. cbn. intros st4 H4 D4.
          apply wp_ret. repeat split; [congruence|]. exists r2. repeat split; auto with suf.
          right. exists it2, r2; auto.
        + apply wp_ret. repeat split; [congruence|]. exists (it2 :: r2); auto with suf. }
    eapply wp_mono; [exact SKIP|]. clear SKIP.
    intros ? st4 (-> & D4 & r4 & H4 & S4 & W4).
    pose proof (suffix_len S4) as L4.
    assert (S40 : suffix r4 r0) by (eapply suffix_trans; eauto).
      assert (DONE : forall st' r' (x : option (datum TT ET)), ps_depth st' = ps_depth st ->
        Rs (ps_strm st') r' [] -> suffix r' r0 ->
        nested_post (it :: r0) (ps_depth st) (Ok x) st').
      { intros st' r' x D' H' S'. pose proof (suffix_len S'). split; [exact D'|].
        exists r'. repeat split; auto with suf. cbn; lia. }
      assert (END : forall st5 r5 (k : M (S:=S) (A:=A) (Pos:=Pos) (CE:=CE) (option (datum TT ET))),
        ps_depth st5 = ps_depth st -> Rs (ps_strm st5) r5 [] -> suffix r5 r0 ->
        (r5 = [] \/ hd_is (is_nest_end cc) r5) ->
        (forall st6, ps_depth st6 = ps_depth st -> Rs (ps_strm st6) (tl r5) [] ->
           suffix (tl r5) r0 ->
           wp k (nested_post (it :: r0) (ps_depth st)) st6) ->
        wp (bind (nest_end cc so) (fun _ => k)) (nested_post (it :: r0) (ps_depth st)) st5).
      { intros st5 r5 k D5 H5 S5 E5 K. apply wp_bind.
        eapply wp_mono; [eapply nest_end_safe; [exact H5|exact E5]|].
        intros [u|e| |] st6 (D6 & X); try contradiction.
        - destruct X as (H6 & _). apply K; [congruence|exact H6|].
          eapply suffix_trans; [apply suffix_tl|exact S5].
        - destruct X as (-> & -> & H6). cbn. eapply ERR; eauto with suf. congruence. }
    destruct operator as [operator|].
    - assert (CALL : forall st6 r6 f, ps_depth st6 = ps_depth st -> Rs (ps_strm st6) r6 [] ->
        suffix r6 r0 ->
        wp (call f) (nested_post (it :: r0) (ps_depth st)) st6).
      { intros st6 r6 f D6 H6 S6. apply wp_call. intros a'.
        destruct (fst (f (ps_alloc st6))) as [x|e].
        - eapply DONE; eauto.
        - cbn. eapply ERR; eauto. }
      assert (ALLW : wp (parse_all umax cc so co ao bnd fuel Base) (all_post r4 (ps_depth st4)) st4).
      { apply IHall; auto; try rewrite D4; lia. }
      destruct (bnd operator) as [[opr|apl]|].
      + apply wp_bind.
        eapply wp_mono; [eapply parse_text_safe with (r:=r4) (d:=ps_depth st); auto; lia|].
        intros [t|e| |] st5; auto.
        * intros (D5 & r5 & l & H5 & _ & S5 & Q5 & _).
          eapply END; [congruence|exact H5|eapply suffix_trans; eauto| |].
          { destruct r5 as [|it5 r5]; [left; reflexivity|right].
            exists it5, r5. split; [reflexivity|]. cbn in Q5. tauto. }
          intros st6 D6 H6 S6. eapply CALL; eauto.
        * intros (D5 & r5 & p5 & H5 & S5 & P5 & _). cbn. eapply ERR; eauto.
          eapply suffix_trans; eauto.
      + apply wp_bind. eapply wp_mono; [exact ALLW|].
        intros [t|e| |] st5; auto.
        * intros (D5 & r5 & H5 & S5 & E5).
          eapply END; [congruence|exact H5|eapply suffix_trans; eauto|right; exact E5|].
          intros st6 D6 H6 S6. eapply CALL; eauto.
        * intros (D5 & r5 & p5 & H5 & S5 & P5 & _). cbn. eapply ERR; eauto.
          congruence. eapply suffix_trans; eauto.
      + apply wp_bind. eapply wp_mono; [exact ALLW|].
        intros [t|e| |] st5; auto.
        * intros (D5 & r5 & H5 & S5 & E5).
          eapply END; [congruence|exact H5|eapply suffix_trans; eauto|right; exact E5|].
          intros st6 D6 H6 S6.
          apply wp_bind. eapply wp_new_datum; [exact AC| |];
            intros st7 E7 D7.
          2:{ cbn. eapply ERR; [congruence|rewrite E7; exact H6|exact S6|auto]. }
          apply wp_bind. eapply wp_new_datum; [exact AC| |];
            intros st8 E8 D8.
          2:{ cbn. eapply ERR; [congruence|rewrite E8, E7; exact H6|exact S6|auto]. }
          apply wp_ret. eapply DONE; [congruence|rewrite E8, E7; exact H6|exact S6].
        * intros (D5 & r5 & p5 & H5 & S5 & P5 & _). cbn. eapply ERR; eauto.
          congruence. eapply suffix_trans; eauto.
    - (* empty nest *)
      destruct (HN eq_refl) as [NW NE].
      destruct W4 as [->|W4]; [|contradiction].
      eapply END; [exact D4|exact H4|exact S40|right; exact NE|].
      intros st6 D6 H6 S6. apply wp_ret. eapply DONE; eauto. }
  assert (NEXT : forall fuel m r st, length r <= n -> 3 * length r + 3 <= fuel -> m <> Operands ->
     (ps_depth st + N_len r <= umax)%N ->
     Rs (ps_strm st) r [] ->
     wp (parse_next umax cc so co ao bnd fuel m) (next_post m r (ps_depth st)) st).
  { intros fuel m r st Hl Hf Hm Hu H.
    destruct fuel as [|fuel]; [lia|]. cbn [parse_next]. apply wp_bind.
    assert (SKIP : wp (CE:=CE) (if is_operator_mode m
         then skip_whitespace cc so fuel else ret tt)
       (fun res st' => res = Ok tt /\ ps_depth st' = ps_depth st /\
          exists r', Rs (ps_strm st') r' [] /\ suffix r' r /\
          (m = Operator -> ~ hd_is (is_whitespace cc) r')) st).
    { assert (wp (Pos:=Pos) (CE:=CE) (ret tt) (fun res st' => res = Ok tt /\ ps_depth st' = ps_depth st /\
          exists r', Rs (ps_strm st') r' [] /\ suffix r' r /\
          (Base = Operator -> ~ hd_is (is_whitespace cc) r')) st) as R.
      { apply wp_ret. repeat split. exists r. repeat split; auto with suf. discriminate. }
      destruct m; cbn; [exact R| |congruence].
      eapply wp_mono; [eapply skip_whitespace_safe with (r:=r); [lia|exact H]|].
      intros res st' (-> & D' & r' & h1 & h2 & h3). repeat split; auto. exists r'; auto. }
    eapply wp_mono; [exact SKIP|]. clear SKIP.
    intros ? st1 (-> & D1 & r1 & H1 & S1 & W1).
    pose proof (suffix_len S1) as L1.
    apply wp_bind. eapply wp_peek; [exact SC|exact H1|]. intros st2 H2 D2.
    destruct r1 as [|it r1]; cbn [hd_error].
    { apply wp_bind. apply wp_get_depth.
      destruct (ps_depth st2 =? 0)%N eqn:Z.
      - apply N.eqb_eq in Z. apply wp_ret. split; [congruence|]. exists [].
        repeat split; auto with suf. left. split; congruence.
      - apply N.eqb_neq in Z. apply wp_raise. split; [congruence|].
        exists [], []. repeat split; auto with suf. intros; exfalso. congruence. }
    cbn [length] in *.
    destruct (is_nest_start cc (it_ch it)) eqn:E1.
    { apply wp_bind. apply wp_incr_depth; [rewrite D2, D1; lia|].
      apply wp_bind. apply wp_finally.
      eapply wp_mono; [eapply NESTED with (r := it :: r1); cbn [length ps_depth ps_strm]; [lia|lia|lia| |exact H2|exists it, r1; auto]|].
      { rewrite D2, D1. lia. }
      cbn [ps_depth].
      intros [x|e| |] st3; auto.
      - intros (D3 & r3 & H3 & S3 & L3). cbn [length] in L3.
        apply wp_decr_depth; [lia|].
        assert (D3' : (ps_depth st3 - 1)%N = ps_depth st) by lia.
        assert (S3' : suffix r3 r) by (eapply suffix_trans; eauto).
        destruct x as [d|].
        + apply wp_ret. split; [exact D3'|]. exists r3. repeat split; auto. lia.
        + eapply wp_mono; [eapply IHnext with (r := r3); cbn [length ps_depth ps_strm]; [lia|lia|exact Hm| |exact H3]|].
          { rewrite D3'. pose proof (suffix_len S3'). lia. }
          cbn [ps_depth]. rewrite D3'.
          intros [[d|]|e| |] st4; auto.
          * intros (D4 & r4 & H4 & S4 & L4). split; auto. exists r4.
            repeat split; auto; [eapply suffix_trans; eauto|lia].
          * intros (D4 & r4 & H4 & S4 & W4 & X4). split; auto. exists r4.
            repeat split; auto. eapply suffix_trans; eauto.
          * intros (D4 & r4 & p4 & H4 & S4 & P4 & L4). split; auto. exists r4, p4.
            repeat split; auto; [eapply suffix_trans; eauto|].
            intros Hd. specialize (L4 Hd). lia.
      - intros (D3 & r3 & p3 & H3 & S3 & P3 & L3). cbn [length] in L3.
        apply wp_decr_depth; [lia|]. cbn.
        split; [cbn; lia|]. exists r3, p3. cbn. specialize (L3 I).
        repeat split; auto; [eapply suffix_trans; eauto|lia]. }
    destruct (is_nest_end cc (it_ch it)) eqn:E2.
    { apply wp_bind. apply wp_get_depth. apply wp_bind.
      eapply wp_mono; [eapply check_end_char_safe; [exact H2|exists it, r1; auto]|].
      intros [u|e| |] st3 (D3 & X); try contradiction.
      - destruct X as (Hd & H3). apply wp_ret. split; [congruence|].
        exists (it :: r1). repeat split; auto. right. split; [congruence|]. exists it, r1; auto.
      - destruct X as (Hd & it' & r' & E & -> & H3). injection E as <- <-.
        split; [congruence|]. exists r1, []. repeat split; auto.
        eapply suffix_trans; [|exact S1]. auto with suf. }
    apply wp_bind.
    eapply wp_mono; [eapply parse_text_safe with (r:=it :: r1) (d:=ps_depth st); cbn [length];
      [lia|lia|exact H2|congruence]|].
    assert (ST : starts_text m (it :: r1)).
    { exists it, r1. repeat split; auto. destruct m; cbn; auto.
      - rewrite E1, E2, !orb_false_r. destruct (is_whitespace cc (it_ch it)) eqn:W; auto.
        exfalso. apply (W1 eq_refl). exists it, r1; auto. }
    intros [t|e| |] st3; auto.
    - intros (D3 & r3 & l & H3 & _ & S3 & _ & L3). apply wp_ret. split; [congruence|].
      exists r3. specialize (L3 ST). cbn in L3.
      repeat split; auto; [eapply suffix_trans; eauto|lia].
    - intros (D3 & r3 & p3 & H3 & S3 & P3 & L3). split; [congruence|].
      exists r3, p3. specialize (L3 ST). cbn in L3.
      repeat split; auto; [eapply suffix_trans; eauto|lia]. }
  repeat split; [exact NEXT|exact NESTED|].
  intros fuel r st Hl Hf Hd Hu H.
  destruct fuel as [|fuel]; [lia|]. cbn [parse_all]. apply wp_bind.
  eapply wp_mono; [eapply NEXT with (r := r); auto; [lia|discriminate]|].
  intros [[x|]|e| |] st1; auto.
  - intros (D1 & r1 & H1 & S1 & L1).
    assert (ERR : forall st', ps_depth st' = ps_depth st -> Rs (ps_strm st') r1 [] ->
      err_post r (ps_depth st) False st').
    { intros st' D' H'. split; auto. exists r1, []. repeat split; auto; contradiction. }
    apply wp_bind. eapply wp_new_datum; [exact AC| |]; intros st2 E2 D2.
    2:{ cbn. apply ERR; [congruence|rewrite E2; auto]. }
    apply wp_bind. eapply wp_new_datum; [exact AC| |]; intros st3 E3 D3.
    2:{ cbn. apply ERR; [congruence|rewrite E3, E2; auto]. }
    apply wp_bind. unfold wp at 1. cbn [fst snd].
    destruct (a_get_mut ao DEmptyList (ps_alloc st3)).
    2:{ apply wp_raise. cbn. apply ERR; [congruence|rewrite E3, E2; auto]. }
    apply wp_bind.
    assert (D31 : ps_depth st3 = ps_depth st) by congruence.
    eapply wp_mono; [eapply IHall with (r := r1); [lia|lia|lia| |rewrite E3, E2; exact H1]|].
    { rewrite D31. pose proof (suffix_len S1). lia. }
    rewrite D31.
    intros [y|e| |] st4; auto.
    + intros (D4 & r4 & H4 & S4 & E4). apply wp_ret. split; auto. exists r4.
      repeat split; auto. eapply suffix_trans; eauto.
    + intros (D4 & r4 & p4 & H4 & S4 & P4 & _). split; auto. exists r4, p4.
      repeat split; auto; [eapply suffix_trans; eauto|contradiction].
  - intros (D1 & r1 & H1 & S1 & _ & X). apply wp_ret. split; auto. exists r1.
    repeat split; auto. destruct X as [[? _]|[_ X]]; [lia|exact X].
  - intros (D1 & r1 & p1 & H1 & S1 & P1 & _). split; auto. exists r1, p1.
    repeat split; auto. contradiction.
Qed.

(** The iterator step at depth 0. *)
Lemma do_next_safe fuel r st :
  3 * length r + 3 <= fuel -> ps_depth st = 0%N -> (N_len r <= umax)%N ->
  Rs (ps_strm st) r [] ->
  wp (do_next umax cc so co ao bnd fuel) (next_post Base r 0%N) st.
Proof.
  intros Hf D Hu H. rewrite <- D.
  eapply (proj1 (parser_safe (length r))); auto; [discriminate|].
  rewrite D. lia.
Qed.

End Safety.
