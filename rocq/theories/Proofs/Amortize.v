(** Work that is accounted for by the texts it results in. *)
From Coq Require Import List Arith NArith ZArith Bool Lia.
From Verif.Model Require Import Prelude Parser Iter Chunk TextIter CharIter StrishIter PosStrish.
From Verif.Spec Require Import Run TextWork.
Import ListNotations.
Set Implicit Arguments.
Local Open Scope Z_scope.

Definition zsum (l : list Z) : Z := fold_right Z.add 0 l.
Lemma zsum_app a b : zsum (a ++ b) = zsum a + zsum b.
Proof. unfold zsum. induction a as [|n a IH]; cbn [app fold_right]; [reflexivity|]. rewrite IH. apply Z.add_assoc. Qed.

(** ** The parser, given what [parse_text] does *)
Section Texts.
Context {S A TT ET Pos CE : Type} (umax : N) (cc : classifier) (so : stream_ops S A TT Pos) (co : concat_ops A TT)
        (ao : alloc_ops A TT ET) (bnd : bindings A TT ET Pos CE).
Context (used : A -> Z) (tc : TT -> Z) (tok : TT -> Prop) (pfine : S -> Prop).
Definition dcost (d : datum TT ET) : Z := zsum (map tc (texts_in d)).
Definition dok (d : datum TT ET) : Prop := Forall tok (texts_in d).

Local Notation pst := (pstate S A).
Local Notation M X := (M (S:=S) (A:=A) (Pos:=Pos) (CE:=CE) X).
Definition usedp (st : pst) : Z := used (ps_alloc st).
Definition fine (st : pst) : Prop := pfine (ps_strm st).
Definition acct {X} (m : M X) (c : X -> Z) (ok : X -> Prop) : Prop :=
  forall st v st', fine st -> m st = (Ok v, st') -> fine st' /\ ok v /\ usedp st' <= usedp st + c v.
Definition quiet {X} (m : M X) : Prop := acct m (fun _ => 0) (fun _ => True).
Definition ocost (o : option (datum TT ET)) : Z := match o with Some d => dcost d | None => 0 end.
Definition ook (o : option (datum TT ET)) : Prop := match o with Some d => dok d | None => True end.

Context (H_peek : forall s v s', pfine s -> s_peek so s = (Ok v, s') -> pfine s').
Context (H_next : forall s v s', pfine s -> s_next so s = (Ok v, s') -> pfine s').
Context (H_text : forall fuel m, acct (parse_text umax cc so co fuel m) tc tok).
Context (H_new : forall d a d' a', a_new_datum ao d a = (Ok d', a') -> d' = d /\ used a' = used a).
Context (H_bnd : forall d, dok d -> match bnd d with
  | Some (Operative f) => forall t a o a', tok t -> f d t a = (inl o, a') -> ook o /\ used a' + dcost d + tc t <= used a + ocost o
  | Some (Applicative f) => forall l a o a', dok l -> f d l a = (inl o, a') -> ook o /\ used a' + dcost d + dcost l <= used a + ocost o
  | None => True
  end).

Lemma q_ret X (v : X) : quiet (ret v).
Proof. intros st v' st' Hf [= <- <-]. split; [auto|split; [exact I|lia]]. Qed.
Lemma c_fail X (m : M X) c ok : (forall st v st', m st <> (Ok v, st')) -> acct m c ok.
Proof. intros Hm st v st' _ E. destruct (Hm _ _ _ E). Qed.
Lemma c_bind0 X Y (m : M X) (f : X -> M Y) c ok : quiet m -> (forall v, acct (f v) c ok) -> acct (bind m f) c ok.
Proof.
  intros Hm Hf st v st' Hs E. unfold bind in E. destruct (m st) as [[y|e| |] s1] eqn:Em; try discriminate.
  destruct (Hm _ _ _ Hs Em) as (H1 & _ & E1). destruct (Hf y _ _ _ H1 E) as (H2 & H3 & E3).
  split; [exact H2|]. split; [exact H3|lia].
Qed.
Lemma q_assert b : quiet (assert b).
Proof. destruct b; [apply q_ret|apply c_fail; discriminate]. Qed.
Lemma q_get_depth : quiet get_depth.
Proof. intros st v st' Hf [= <- <-]. split; [auto|split; [exact I|lia]]. Qed.
Lemma q_incr_depth : quiet (incr_depth umax).
Proof.
  intros st v st' Hf E. unfold incr_depth in E. destruct (ps_depth st <? umax)%N; [|discriminate].
  injection E as <- <-. split; [exact Hf|]. split; [exact I|unfold usedp; cbn; lia].
Qed.
Lemma c_finally X (m : M X) c ok : acct m c ok -> acct (finally m decr_depth) c ok.
Proof.
  intros Hm st v st' Hf E. unfold finally, bind, decr_depth in E.
  destruct (m st) as [[y|e| |] s1] eqn:Em; try discriminate; destruct (0 <? ps_depth s1)%N; try discriminate.
  injection E as <- <-. exact (Hm _ _ _ Hf Em).
Qed.
Lemma q_peek : quiet (peek (CE:=CE) so).
Proof.
  intros st v st' H1 E. unfold peek in E. destruct (s_peek so (ps_strm st)) as [r s] eqn:Es. destruct r as [o|[]| |]; try discriminate.
  injection E as <- <-. split; [exact (H_peek H1 Es)|]. split; [exact I|unfold usedp; cbn; lia].
Qed.
Lemma q_next : quiet (next so).
Proof.
  intros st v st' H1 E. unfold next in E. destruct (s_next so (ps_strm st)) as [r s] eqn:Es. destruct r as [o|[]| |]; try discriminate.
  injection E as <- <-. split; [exact (H_next H1 Es)|]. split; [exact I|unfold usedp; cbn; lia].
Qed.
Lemma q_check_end_char d : quiet (check_end_char cc so d).
Proof.
  apply c_bind0; [apply q_peek|]. intros o. apply c_bind0; [apply q_assert|]. intros _.
  destruct (0 <? d)%N; [apply q_ret|]. apply c_bind0; [apply q_next|]. intros [it|]; apply c_fail; discriminate.
Qed.
Lemma q_skip_whitespace fuel : quiet (skip_whitespace cc so fuel).
Proof.
  induction fuel as [|f IH]; cbn [skip_whitespace]; [apply c_fail; discriminate|].
  apply c_bind0; [apply q_peek|]. intros [it|]; [|apply q_ret].
  destruct (is_whitespace cc (it_ch it)); [|apply q_ret]. apply c_bind0; [apply q_next|]. auto.
Qed.
Lemma q_nest_end : quiet (nest_end cc so).
Proof.
  unfold nest_end. apply c_bind0; [apply q_next|]. intros [it|]; [apply q_assert|apply c_fail; discriminate].
Qed.
Lemma new_datum_acct d st v st' : fine st -> new_datum (S:=S) (Pos:=Pos) (CE:=CE) ao d st = (Ok v, st') ->
  fine st' /\ v = d /\ usedp st' = usedp st.
Proof.
  intros Hs E. unfold new_datum in E. destruct (a_new_datum ao d (ps_alloc st)) as [[d'|e| |] a'] eqn:En; try discriminate.
  injection E as <- <-. destruct (H_new _ _ En) as [-> Hu]. split; [exact Hs|]. split; [reflexivity|exact Hu].
Qed.
Lemma bind_inv X Y (m : M X) (f : X -> M Y) st v st' : bind m f st = (Ok v, st') ->
  exists y s1, m st = (Ok y, s1) /\ f y s1 = (Ok v, st').
Proof. unfold bind. destruct (m st) as [[y|e| |] s1]; try discriminate. eauto. Qed.
Lemma dcost_comb d1 d2 : dcost (DComb d1 d2) = dcost d1 + dcost d2.
Proof. unfold dcost. cbn. rewrite map_app, zsum_app. reflexivity. Qed.
Lemma dcost_list d1 d2 : dcost (DList d1 d2) = dcost d1 + dcost d2.
Proof. unfold dcost. cbn. rewrite map_app, zsum_app. reflexivity. Qed.
Lemma dok_pair d1 d2 : dok d1 -> dok d2 -> Forall tok (texts_in d1 ++ texts_in d2).
Proof. intros. apply Forall_app. auto. Qed.
Ltac inv_bind E y s En := apply bind_inv in E; destruct E as (y & s & En & E).
Lemma c_parser fuel :
  (forall m, acct (parse_next umax cc so co ao bnd fuel m) ocost ook) /\
  acct (parse_nested umax cc so co ao bnd fuel) ocost ook /\
  (forall m, acct (parse_all umax cc so co ao bnd fuel m) dcost dok).
Proof.
  induction fuel as [|fuel (IH1 & IH2 & IH3)].
  { split; [|split]; intros; apply c_fail; discriminate. }
  assert (RN : forall c (ok : _ -> Prop), c None = 0 -> ok None -> acct (ret (@None (datum TT ET))) c ok).
  { intros c ok H0 Hk st v st' Hs [= <- <-]. split; [exact Hs|]. split; [exact Hk|lia]. }
  split; [|split].
  - intros m. cbn [parse_next]. cbv zeta. apply c_bind0.
    { destruct (is_operator_mode m); [apply q_skip_whitespace|apply q_ret]. }
    intros _. apply c_bind0; [apply q_peek|]. intros [it|].
    2:{ apply c_bind0; [apply q_get_depth|]. intros d. destruct (d =? 0)%N; [apply RN; [reflexivity|exact I]|apply c_fail; discriminate]. }
    destruct (is_nest_start cc (it_ch it)).
    { apply c_bind0; [apply q_incr_depth|]. intros _. intros st v st' Hs E. inv_bind E r s1 En.
      destruct r as [d|]; destruct (c_finally IH2 Hs En) as (H1 & K1 & E1).
      - injection E as <- <-. auto.
      - destruct (IH1 _ _ _ _ H1 E) as (H2 & K2 & E2). split; [exact H2|]. split; [exact K2|]. cbn in E1. lia. }
    destruct (is_nest_end cc (it_ch it)).
    { apply c_bind0; [apply q_get_depth|]. intros d. apply c_bind0; [|intros _; apply RN; [reflexivity|exact I]].
      apply q_check_end_char. }
    intros st v st' Hs E. inv_bind E t s1 Et.
    injection E as <- <-. destruct (H_text _ _ Hs Et) as (H1 & K1 & E1). split; [exact H1|]. split.
    + constructor; auto.
    + unfold ocost, dcost. cbn. lia.
  - cbn [parse_nested]. apply c_bind0; [apply q_next|]. intros o. apply c_bind0; [apply q_assert|]. intros _.
    intros st v st' Hs E. inv_bind E op s1 En.
    destruct (IH1 _ _ _ _ Hs En) as (H1 & K1 & E1).
    inv_bind E p s2 Ep. destruct (q_peek H1 Ep) as (H2 & _ & E2). inv_bind E u s3 Ew.
    assert (K : fine s3 /\ usedp s3 <= usedp s2).
    { destruct p as [it|]; [destruct (is_whitespace cc (it_ch it))|].
      - inv_bind Ew p2 s4 E4. injection Ew as _ <-. destruct (q_next H2 E4) as (? & _ & ?). split; [auto|lia].
      - injection Ew as _ <-. split; [auto|lia].
      - injection Ew as _ <-. split; [auto|lia]. }
    destruct K as [H3 E3]. destruct op as [op|].
    + pose proof (H_bnd K1) as HB. destruct (bnd op) as [[f|f]|].
      { inv_bind E t s4 Ea. destruct (H_text _ _ H3 Ea) as (H4 & K4 & E4). inv_bind E u' s5 Ee.
        destruct (q_nest_end H4 Ee) as (H5 & _ & E5). unfold call in E. destruct (f op t (ps_alloc s5)) as [[o'|e] a'] eqn:Ef; [|discriminate].
        injection E as <- <-. destruct (HB _ _ _ _ K4 Ef) as [K6 E6]. split; [exact H5|]. split; [exact K6|].
        unfold usedp in *. cbn [ps_alloc ocost] in *. lia. }
      { inv_bind E t s4 Ea. destruct (IH3 _ _ _ _ H3 Ea) as (H4 & K4 & E4). inv_bind E u' s5 Ee.
        destruct (q_nest_end H4 Ee) as (H5 & _ & E5). unfold call in E. destruct (f op t (ps_alloc s5)) as [[o'|e] a'] eqn:Ef; [|discriminate].
        injection E as <- <-. destruct (HB _ _ _ _ K4 Ef) as [K6 E6]. split; [exact H5|]. split; [exact K6|].
        unfold usedp in *. cbn [ps_alloc ocost] in *. lia. }
      inv_bind E ops s4 Ea. destruct (IH3 _ _ _ _ H3 Ea) as (H4 & K4 & E4). inv_bind E u' s5 Ee.
      destruct (q_nest_end H4 Ee) as (H5 & _ & E5). inv_bind E r1 s6 E6. destruct (new_datum_acct _ H5 E6) as (H6 & -> & E6').
      inv_bind E r2 s7 E7. destruct (new_datum_acct _ H6 E7) as (H7 & -> & E7'). injection E as <- <-.
      split; [exact H7|]. split; [apply dok_pair; assumption|]. cbn [ocost] in *. rewrite dcost_comb. lia.
    + inv_bind E u' s5 Ee. destruct (q_nest_end H3 Ee) as (H5 & _ & E5). injection E as <- <-.
      split; [exact H5|]. split; [constructor|]. cbn in *. lia.
  - intros m. cbn [parse_all]. intros st v st' Hs E. inv_bind E o s1 En. destruct (IH1 _ _ _ _ Hs En) as (H1 & K1 & E1).
    destruct o as [d|].
    2:{ injection E as <- <-. split; [exact H1|]. split; [constructor|exact E1]. }
    inv_bind E r1 s2 E2. destruct (new_datum_acct _ H1 E2) as (H2 & -> & E2').
    inv_bind E r2 s3 E3. destruct (new_datum_acct _ H2 E3) as (H3 & -> & E3'). inv_bind E g s3' Eg.
    injection Eg as <- <-. destruct (a_get_mut ao DEmptyList (ps_alloc s3)); [|discriminate].
    inv_bind E rest s4 E4. destruct (IH3 _ _ _ _ H3 E4) as (H4 & K4 & E4'). injection E as <- <-. split; [exact H4|].
    split; [apply dok_pair; assumption|]. cbn [ocost] in *. rewrite dcost_list. lia.
Qed.

Lemma texts_collect fuel : forall n st ds more st', fine st ->
  iter_collect umax cc so co ao bnd n fuel st = (Ok (map inl ds ++ more), st') -> Forall dok ds.
Proof.
  induction n as [|n IH]; intros st ds more st' Hs E; cbn [iter_collect] in E; [discriminate|].
  unfold iter_next, do_next in E.
  destruct (parse_next umax cc so co ao bnd fuel Base st) as [[[d|]|e| |] s1] eqn:En; try discriminate.
  - destruct (proj1 (c_parser fuel) Base _ _ _ Hs En) as (H1 & K1 & E1).
    destruct (iter_collect umax cc so co ao bnd n fuel s1) as [[l|[]| |] s2] eqn:Ec; try discriminate.
    injection E as E <-. destruct ds as [|d' ds]; [constructor|]. injection E as -> ->. constructor; [exact K1|eauto].
  - injection E as E <-. destruct ds; [constructor|discriminate].
  - destruct (iter_collect umax cc so co ao bnd n fuel s1) as [[l|[]| |] s2] eqn:Ec; try discriminate.
    injection E as E <-. destruct ds; [constructor|discriminate].
Qed.
Lemma texts_nexts st os st' : nexts umax cc so co ao bnd st os st' -> fine st ->
  forall ods, os = map (option_map inl) ods -> Forall ook ods /\ fine st'.
Proof.
  induction 1 as [st|fuel st o st1 os st2 E _ IH]; intros Hs ods Eo.
  - destruct ods; [|discriminate]. auto.
  - destruct ods as [|od ods]; [discriminate|]. injection Eo as -> ->. unfold iter_next, do_next in E.
    destruct (parse_next umax cc so co ao bnd fuel Base st) as [[v|e| |] s1] eqn:En; try discriminate.
    + destruct (proj1 (c_parser fuel) Base _ _ _ Hs En) as (H1 & K1 & _).
      assert (E' : option_map inl v = option_map (@inl _ (error Pos CE)) od /\ s1 = st1) by (destruct v; injection E as <- <-; auto).
      destruct E' as [Ev ->]. assert (v = od) by (destruct v, od; cbn in Ev; try discriminate; [injection Ev as ->|]; reflexivity). subst od.
      destruct (IH H1 _ eq_refl). auto.
    + destruct od; discriminate.
Qed.
Lemma collect_acct fuel : forall n st ds st', fine st ->
  iter_collect umax cc so co ao bnd n fuel st = (Ok (map inl ds), st') ->
  Forall dok ds /\ usedp st' <= usedp st + zsum (map tc (flat_map (@texts_in TT ET) ds)).
Proof.
  induction n as [|n IH]; intros st ds st' Hs E; cbn [iter_collect] in E; [discriminate|].
  unfold iter_next, do_next in E.
  destruct (parse_next umax cc so co ao bnd fuel Base st) as [[[d|]|e| |] s1] eqn:En; try discriminate.
  - destruct (proj1 (c_parser fuel) Base _ _ _ Hs En) as (H1 & K1 & E1).
    destruct (iter_collect umax cc so co ao bnd n fuel s1) as [[l|[]| |] s2] eqn:Ec; try discriminate.
    injection E as E <-. destruct ds as [|d' ds]; [discriminate|]. injection E as -> ->.
    destruct (IH _ _ _ H1 Ec) as [H2 E2]. split; [constructor; [exact K1|exact H2]|].
    cbn [flat_map]. rewrite map_app, zsum_app. cbn [ocost] in E1. unfold dcost in E1. lia.
  - destruct (proj1 (c_parser fuel) Base _ _ _ Hs En) as (H1 & _ & E1).
    injection E as E <-. destruct ds; [|discriminate]. split; [constructor|]. cbn in *. lia.
  - destruct (iter_collect umax cc so co ao bnd n fuel s1) as [[l|[]| |] s2] eqn:Ec; try discriminate.
    injection E as E <-. destruct ds; discriminate.
Qed.
End Texts.

(** ** Operations whose work is accounted for *)
Section Amortize.
Context {S A TT ET Pos CE : Type} (umax : N) (cc : classifier) (so : stream_ops S A TT Pos) (co : concat_ops A TT)
        (ao : alloc_ops A TT ET).
(** [tc] and [tok]: the cost of a text that is being put together, and what is
    known about it; [ac] and [aok]: the same of an accumulated text; [pc] and [pok]: of
    what the stream has accumulated. *)
Context (used : A -> Z) (tc ac : TT -> Z) (tok aok : TT -> Prop) (pc : S -> Z) (pok : S -> Prop).
Record amortized : Prop := {
  h_peek : forall s v s', pok s -> s_peek so s = (Ok v, s') -> pok s' /\ pc s' = pc s;
  h_next : forall s v s', pok s -> s_next so s = (Ok v, s') -> pok s' /\ pc s' = 0;
  h_next_accum : forall s a v s' a', pok s -> s_next_accum so s a = (Ok v, (s', a')) ->
    pok s' /\ used a' + pc s <= used a + pc s';
  h_accum_done : forall s a t s' a', pok s -> s_accum_done so s a = (Ok t, (s', a')) ->
    pok s' /\ pc s' = 0 /\ aok t /\ used a' + pc s <= used a + ac t;
  h_empty : tok (t_empty co) /\ 0 <= tc (t_empty co);
  h_concat : forall t u a t' a', tok t -> aok u -> t_concat co t u a = (Ok t', a') ->
    tok t' /\ used a' + tc t + ac u <= used a + tc t';
  h_new : forall d a d' a', a_new_datum ao d a = (Ok d', a') -> d' = d /\ used a' = used a }.
Context (H : amortized).


Local Notation pst := (pstate S A).
Local Notation M X := (M (S:=S) (A:=A) (Pos:=Pos) (CE:=CE) X).
Local Notation usedp := (usedp (S:=S) used).
Local Notation fine := (fine (A:=A) (fun s => pok s /\ pc s = 0)).
Lemma peek_acct st v st' : pok (ps_strm st) -> peek (CE:=CE) so st = (Ok v, st') ->
  pok (ps_strm st') /\ pc (ps_strm st') = pc (ps_strm st) /\ usedp st' = usedp st.
Proof.
  unfold peek. intros Hp E. destruct (s_peek so (ps_strm st)) as [r s] eqn:Es. destruct r as [o|[]| |]; try discriminate.
  injection E as <- <-. destruct (h_peek H Hp Es). unfold usedp. cbn. auto.
Qed.
Lemma next_acct st v st' : fine st -> next (CE:=CE) so st = (Ok v, st') -> fine st' /\ usedp st' = usedp st.
Proof.
  intros [H1 _] E. unfold next in E. destruct (s_next so (ps_strm st)) as [r s] eqn:Es. destruct r as [o|[]| |]; try discriminate.
  injection E as <- <-. exact (conj (h_next H H1 Es) eq_refl).
Qed.
Lemma next_accum_acct st v st' : pok (ps_strm st) -> next_accum (CE:=CE) so st = (Ok v, st') ->
  pok (ps_strm st') /\ usedp st' + pc (ps_strm st) <= usedp st + pc (ps_strm st').
Proof.
  intros Hp E. unfold next_accum in E. destruct (s_next_accum so (ps_strm st) (ps_alloc st)) as [r [s a]] eqn:Es.
  destruct r as [o|e| |]; try discriminate. injection E as <- <-. exact (h_next_accum H _ Hp Es).
Qed.
Lemma concat_accum_acct t st v st' : tok t -> pok (ps_strm st) -> concat_accum (CE:=CE) so co t st = (Ok v, st') ->
  fine st' /\ usedp st' + pc (ps_strm st) + tc t <= usedp st + tc v /\ tok v.
Proof.
  intros Ht Hp E. unfold concat_accum, bind, accum_done in E.
  destruct (s_accum_done so (ps_strm st) (ps_alloc st)) as [r [s a]] eqn:Es. destruct r as [u|e| |]; try discriminate.
  destruct (h_accum_done H _ Hp Es) as (H1 & H2 & H3 & H4). cbn in E. unfold concat in E. cbn [ps_alloc ps_strm ps_depth] in E.
  destruct (t_concat co t u a) as [[v'|e| |] a'] eqn:E2; try discriminate. injection E as <- <-.
  destruct (h_concat H _ Ht H3 E2) as [H5 H6]. unfold fine, usedp in *; cbn in *. split; [auto|]. split; [lia|exact H5].
Qed.

Definition text_acct (m : M TT) (t : TT) : Prop := forall st v st', tok t -> pok (ps_strm st) -> m st = (Ok v, st') ->
  fine st' /\ usedp st' + pc (ps_strm st) + tc t <= usedp st + tc v /\ tok v.
Lemma check_end_char_acct d st v st' : pok (ps_strm st) -> check_end_char (CE:=CE) cc so d st = (Ok v, st') ->
  pok (ps_strm st') /\ pc (ps_strm st') = pc (ps_strm st) /\ usedp st' = usedp st.
Proof.
  unfold check_end_char, bind. intros Hp E. destruct (peek so st) as [[o|e| |] s1] eqn:Ep; try discriminate.
  pose proof (peek_acct _ Hp Ep) as G. unfold assert in E. destruct (match o with Some it => _ | None => _ end); [|discriminate].
  cbn [ret] in E. destruct (0 <? d)%N; [injection E as <- <-; exact G|].
  destruct (next so s1) as [[[it|]|e| |] s2]; discriminate.
Qed.
Lemma done_acct t nl : text_acct (parse_text_done (CE:=CE) so co t nl) t.
Proof.
  intros st v st' Ht Hp E. unfold parse_text_done in E. destruct (nl =? 0)%N; [|discriminate].
  exact (concat_accum_acct _ Ht Hp E).
Qed.
Lemma loop_acct m : forall fuel t nl, text_acct (parse_text_loop umax cc so co fuel m t nl) t.
Proof.
  induction fuel as [|f IH]; intros t nl st v st' Ht Hp E; cbn [parse_text_loop] in E; [discriminate|].
  unfold bind at 1 in E. destruct (peek so st) as [[o|e| |] s1] eqn:Ep; try discriminate.
  destruct (peek_acct _ Hp Ep) as (P1 & P2 & P3).
  assert (DN : forall s2, pok (ps_strm s2) -> pc (ps_strm s2) = pc (ps_strm s1) -> usedp s2 = usedp s1 ->
     parse_text_done (CE:=CE) so co t nl s2 = (Ok v, st') ->
     fine st' /\ usedp st' + pc (ps_strm st) + tc t <= usedp st + tc v /\ tok v).
  { intros s2 Q1 Q2 Q3 E2. destruct (@done_acct t nl _ _ _ Ht Q1 E2) as (H1 & H2 & H3). split; [exact H1|]. split; [|exact H3].
    rewrite Q2, Q3, P2, P3 in *. lia. }
  destruct o as [it|]; [|eauto].
  cbv zeta in E. destruct ((nl =? 0)%N && is_end_char cc (it_ch it) m)%bool; [eauto|].
  assert (AC : forall t' nl' s0 v0 s0', tok t' -> pok (ps_strm s0) ->
     bind (next_accum (CE:=CE) so) (fun _ => parse_text_loop umax cc so co f m t' nl') s0 = (Ok v0, s0') ->
     fine s0' /\ usedp s0' + pc (ps_strm s0) + tc t' <= usedp s0 + tc v0 /\ tok v0).
  { intros t' nl' s0 v0 s0' Ht' Hp' E'. unfold bind in E'. destruct (next_accum so s0) as [[o2|e| |] s2] eqn:E2; try discriminate.
    destruct (next_accum_acct _ Hp' E2) as [H1 H2]. destruct (IH _ _ _ _ _ Ht' H1 E') as (H3 & H4 & H5). split; [exact H3|]. split; [lia|exact H5]. }
  destruct (is_nest_escape cc (it_ch it)).
  { unfold bind at 1 in E. destruct (concat_accum so co t s1) as [[t'|e| |] s2] eqn:E2; try discriminate.
    destruct (concat_accum_acct _ Ht P1 E2) as (H1 & H2 & H3).
    unfold bind at 1 in E. destruct (next so s2) as [[o2|e| |] s3] eqn:E3; try discriminate.
    destruct (next_acct H1 E3) as ([H4 H5] & H6). destruct (AC _ _ _ _ _ H3 H4 E) as (H7 & H8 & H9). split; [exact H7|].
    split; [|exact H9]. rewrite P2, P3 in *. lia. }
  destruct (is_nest_start cc (it_ch it)).
  { unfold bind in E. destruct (next_accum so s1) as [[o2|e| |] s2] eqn:E2; try discriminate.
    destruct (nl <? umax)%N; [|discriminate].
    destruct (next_accum_acct _ P1 E2) as [H1 H2]. destruct (IH _ _ _ _ _ Ht H1 E) as (H3 & H4 & H5). split; [exact H3|].
    split; [|exact H5]. rewrite P2, P3 in *. lia. }
  destruct (is_nest_end cc (it_ch it)).
  { destruct (0 <? nl)%N.
    - destruct (AC _ _ _ _ _ Ht P1 E) as (H7 & H8 & H9). split; [exact H7|]. split; [|exact H9]. rewrite P2, P3 in *. lia.
    - unfold bind at 1, get_depth in E. unfold bind in E.
      destruct (check_end_char cc so (ps_depth s1) s1) as [[o2|e| |] s2] eqn:E2; try discriminate.
      destruct (check_end_char_acct _ _ P1 E2) as (Q1 & Q2 & Q3). exact (DN _ Q1 Q2 Q3 E). }
  destruct (AC _ _ _ _ _ Ht P1 E) as (H7 & H8 & H9). split; [exact H7|]. split; [|exact H9]. rewrite P2, P3 in *. lia.
Qed.
Lemma c_parse_text fuel m : acct (CE:=CE) used (fun s => pok s /\ pc s = 0) (parse_text umax cc so co fuel m) tc tok.
Proof.
  intros st v st' [H1 H2] E. unfold parse_text in E. destruct (h_empty H) as [T1 T2].
  destruct (loop_acct _ _ _ _ T1 H1 E) as (H3 & H4 & H5). split; [exact H3|]. split; [exact H5|]. lia.
Qed.

Lemma amortized_collect fuel n st ds st' : pok (ps_strm st) -> pc (ps_strm st) = 0 ->
  iter_collect umax cc so co ao (fun _ : datum TT ET => @None (combiner A TT ET Pos CE)) n fuel st = (Ok (map inl ds), st') ->
  Forall (dok tok) ds /\ usedp st' <= usedp st + zsum (map tc (flat_map (@texts_in TT ET) ds)).
Proof.
  intros H1 H2. apply collect_acct with (pfine:=fun s => pok s /\ pc s = 0); auto.
  - intros s v s' [K1 K2] E. destruct (h_peek H K1 E). split; [auto|congruence].
  - intros s v s' [K1 K2] E. exact (h_next H K1 E).
  - exact c_parse_text.
  - exact (h_new H).
  - split; assumption.
Qed.
End Amortize.

(** ** The streams *)
Section Streams.
Context {TT C CS Pos A : Type} (k : chunk_ops C CS Pos) (x : text_ops TT C A).
Context (used : A -> Z) (ac : TT -> Z) (aok : TT -> Prop).
Record accumulates : Prop := {
  u_empty : aok (tx_empty x) /\ 0 <= ac (tx_empty x);
  u_from : forall c, aok (tx_from x c) /\ 0 <= ac (tx_from x c);
  u_concat : forall t c a t' a', aok t -> tx_concat x t (tx_from x c) a = (Ok t', a') ->
    aok t' /\ used a' + ac t <= used a + ac t' }.
Context (HU : accumulates).
Definition accum_cost (o : option TT) : Z := match o with Some t => ac t | None => 0 end.
Definition accum_ok (o : option TT) : Prop := match o with Some t => aok t | None => True end.

Lemma accum_chunk_acct accum cs a t cs' a' : accum_ok accum -> accum_chunk k x accum cs a = (Ok t, (cs', a')) ->
  aok t /\ used a' + accum_cost accum <= used a + ac t.
Proof.
  intros Hu E. unfold accum_chunk in E. destruct (cs_accum_done k cs) as [[c|[]| |] cs1]; try discriminate.
  destruct (tx_concat x _ _ a) as [r b] eqn:Ec. injection E as -> -> ->.
  destruct accum as [u|]; cbn in *.
  - exact (u_concat HU _ _ Hu Ec).
  - destruct (u_empty HU) as [T1 T2]. destruct (u_concat HU _ _ T1 Ec). split; [auto|lia].
Qed.
Lemma accum_end accum : accum_ok accum -> aok (match accum with Some t => t | None => tx_empty x end) /\
  accum_cost accum <= ac (match accum with Some t => t | None => tx_empty x end).
Proof. destruct accum; cbn; [intros; split; [auto|lia]|intros _; apply (u_empty HU)]. Qed.
End Streams.

Section TIter.
Context {TT C CS Pos A ET : Type} (k : chunk_ops C CS Pos) (x : text_ops TT C A) (ao : alloc_ops A TT ET).
Context (used : A -> Z) (tc ac : TT -> Z) (tok aok : TT -> Prop).
Context (HU : accumulates x used ac aok).
Context (HE : tok (tx_empty x) /\ 0 <= tc (tx_empty x)).
Context (HC : forall t u a t' a', tok t -> aok u -> tx_concat x t u a = (Ok t', a') ->
    tok t' /\ used a' + tc t + ac u <= used a + tc t').
Context (HN : forall d a d' a', a_new_datum ao d a = (Ok d', a') -> d' = d /\ used a' = used a).

Lemma titer_loop_acct : forall nexts cs accum a o s' a', accum_ok aok accum ->
  titer_next_accum_loop k x nexts cs accum a = (Ok o, (s', a')) ->
  accum_ok aok (ti_accum s') /\ used a' + accum_cost ac accum <= used a + accum_cost ac (ti_accum s').
Proof.
  induction nexts as [| |c rest IH]; intros cs accum a o s' a' Hu E; cbn [titer_next_accum_loop] in E;
    (destruct (cs_next_accum k cs) as [[[it|]|[]| |] cs']; try discriminate;
      [injection E as <- <- <-; cbn; split; [exact Hu|lia]|]);
    (destruct (accum_chunk k x accum cs' a) as [[t|e| |] [cs2 b]] eqn:Ec; try discriminate;
     destruct (accum_chunk_acct _ HU _ _ _ Hu Ec) as [H1 H2]); try discriminate.
  - injection E as <- <- <-. cbn. auto.
  - apply IH in E; [|exact H1]. destruct E as [H3 H4]. split; [exact H3|]. cbn in H4. lia.
Qed.
Lemma titer_amortized : amortized (titer_stream k x) (text_concat_ops x) ao used tc ac tok aok
  (fun s => accum_cost ac (ti_accum s)) (fun s => accum_ok aok (ti_accum s)).
Proof.
  split.
  - intros s v s' Hp E. cbn in E. unfold titer_peek in E. destruct (ti_peeked s); [injection E as _ <-; auto|].
    destruct (ti_cur s) as [cs|]; [|injection E as _ <-; auto]. destruct (cs_peek k cs). injection E as _ <-. cbn. auto.
  - intros s v s' Hp E. cbn in E. unfold titer_next in E. destruct (ti_cur s) as [cs|]; [|injection E as _ <-; cbn; auto].
    destruct (titer_next_loop k (ti_next s) cs) as [r [cur nexts]]. injection E as _ <-. cbn; auto.
  - intros s a v s' a' Hp E. cbn in E. unfold titer_next_accum in E. destruct (ti_cur s) as [cs|].
    + exact (titer_loop_acct _ _ _ _ Hp E).
    + injection E as _ <- <-. cbn. split; [exact Hp|lia].
  - intros s a t s' a' Hp E. cbn in E. unfold titer_accum_done in E. destruct (ti_cur s) as [cs|].
    + destruct (accum_chunk k x _ cs a) as [r [cs' b]] eqn:El. injection E as -> <- <-.
      destruct (accum_chunk_acct _ HU _ _ _ Hp El) as [H1 H2]. cbn. auto.
    + injection E as <- <- <-. cbn. destruct (accum_end HU _ Hp) as [H1 H2]. split; [auto|]. split; [auto|]. split; [auto|lia].
  - exact HE.
  - exact HC.
  - exact HN.
Qed.
End TIter.

Section CharIterStream.
Context {TT A ET : Type} (x : text_ops TT posstrish A) (ao : alloc_ops A TT ET).
Context (used : A -> Z) (tc ac : TT -> Z) (tok aok : TT -> Prop).
Context (HF : forall c, aok (tx_from x c) /\ 0 <= ac (tx_from x c)).
Context (HE : tok (tx_empty x) /\ 0 <= tc (tx_empty x)).
Context (HC : forall t u a t' a', tok t -> aok u -> tx_concat x t u a = (Ok t', a') ->
    tok t' /\ used a' + tc t + ac u <= used a + tc t').
Context (HN : forall d a d' a', a_new_datum ao d a = (Ok d', a') -> d' = d /\ used a' = used a).

Lemma chariter_amortized : amortized (chariter_stream x) (text_concat_ops x) ao used tc ac tok aok
  (fun _ => 0) (fun _ => True).
Proof.
  split; auto; try (intros; split; auto; lia).
  - intros s a v s' a' _ E. cbn in E. unfold chariter_next_accum in E. destruct (pk_next (ch_iter s)) as [[it|] p];
      injection E as _ _ <-; split; auto; lia.
  - intros s a t s' a' _ E. cbn in E. unfold chariter_accum_done in E. injection E as <- _ <-.
    destruct (HF (match ch_accum s with Some (t, pos) => posstrish_new t pos | None => posstrish_empty end)).
    split; [auto|]. split; [auto|]. split; [auto|lia].
Qed.

End CharIterStream.

Section StrishIterStream.
Context {TT A ET : Type} (x : text_ops TT posstrish A) (ao : alloc_ops A TT ET).
Context (used : A -> Z) (tc ac : TT -> Z) (tok aok : TT -> Prop).
Context (HU : accumulates x used ac aok).
Context (HE : tok (tx_empty x) /\ 0 <= tc (tx_empty x)).
Context (HC : forall t u a t' a', tok t -> aok u -> tx_concat x t u a = (Ok t', a') ->
    tok t' /\ used a' + tc t + ac u <= used a + tc t').
Context (HN : forall d a d' a', a_new_datum ao d a = (Ok d', a') -> d' = d /\ used a' = used a).

Lemma strishiter_loop_acct : forall f s a o s' a', accum_ok aok (si_accum s) ->
  strishiter_next_accum_loop x f s a = (Ok o, (s', a')) ->
  accum_ok aok (si_accum s') /\ used a' + accum_cost ac (si_accum s) <= used a + accum_cost ac (si_accum s').
Proof.
  induction f as [|f IH]; intros s a o s' a' Hu E; cbn [strishiter_next_accum_loop] in E; [discriminate|].
  destruct (si_cur s) as [cs|]; [|injection E as _ <- <-; split; [exact Hu|lia]].
  destruct (posstrish_next_accum cs) as [[[it|]|[]| |] cs']; try discriminate.
  { injection E as _ <- <-. cbn. split; [exact Hu|lia]. }
  destruct (accum_chunk posstrish_ops x (si_accum s) cs' a) as [[t|e| |] [cs2 b]] eqn:Ec; try discriminate.
  destruct (accum_chunk_acct _ HU _ _ _ Hu Ec) as [H1 H2].
  destruct (next_posstrish cs2 (si_char s) (si_iter s) (si_peeked s)) as [[[cur it'] peeked]|[]| |]; try discriminate.
  apply IH in E; [|exact H1]. destruct E as [H3 H4]. cbn in H4. split; [exact H3|lia].
Qed.
Lemma strishiter_next_loop_accum : forall f (s : strishiter TT) v s', strishiter_next_loop f s = (Ok v, s') ->
  si_accum s = None -> si_accum s' = None.
Proof.
  induction f as [|f IH]; intros s v s' E Hn; cbn [strishiter_next_loop] in E; [discriminate|].
  destruct (si_cur s) as [cs|]; [|injection E as _ <-; exact Hn].
  destruct (posstrish_next cs) as [[[it|]|[]| |] cs']; try discriminate.
  { injection E as _ <-. exact Hn. }
  destruct (next_posstrish cs' (si_char s) (si_iter s) (si_peeked s)) as [[[cur it'] peeked]|[]| |]; try discriminate.
  exact (IH _ _ _ E Hn).
Qed.
Lemma strishiter_amortized : amortized (strishiter_stream x) (text_concat_ops x) ao used tc ac tok aok
  (fun s => accum_cost ac (si_accum s)) (fun s => accum_ok aok (si_accum s)).
Proof.
  split.
  - intros s v s' Hp E. assert (G : si_accum s' = si_accum s); [|rewrite G; auto].
    cbn in E. unfold strishiter_peek in E. destruct (si_cur s) as [cs|]; [|injection E as _ <-; auto].
    destruct (posstrish_peek cs) as [[[it|]|[]| |] cs'].
    + injection E as _ <-. reflexivity.
    + destruct (match si_peeked s with Some p => _ | None => _ end) as [[[p|]|[]| |] it'];
        [destruct (posstrish_peek p) as [r' p']| | |]; injection E as _ <-; reflexivity.
    + injection E as _ <-. reflexivity.
    + injection E as _ <-. reflexivity.
  - intros s v s' Hp E. apply strishiter_next_loop_accum in E; [|reflexivity]. rewrite E. cbn. auto.
  - intros s a v s' a' Hp E. exact (strishiter_loop_acct _ _ _ Hp E).
  - intros s a t s' a' Hp E. cbn in E. unfold strishiter_accum_done in E. destruct (si_cur s) as [cs|].
    + destruct (accum_chunk posstrish_ops x _ cs a) as [r [cs' b]] eqn:El. injection E as -> <- <-.
      destruct (accum_chunk_acct _ HU _ _ _ Hp El) as [H1 H2]. cbn. auto.
    + injection E as <- <- <-. cbn. destruct (accum_end HU _ Hp) as [H1 H2]. split; [auto|]. split; [auto|]. split; [auto|lia].
  - exact HE.
  - exact HC.
  - exact HN.
Qed.
End StrishIterStream.
