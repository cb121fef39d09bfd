(** What the texts of a parser are made of: the texts of all datums that are
    returned represent items, in the sense of the stream's contract. *)
From Coq Require Import List Arith NArith Bool Lia.
From Verif.Model Require Import Prelude Parser Iter Utf8 Chunk PosStr PosStrish CharIter Bindings.
From Verif.Spec Require Import Contract ChunkContract Slices Run History.
From Verif.Proofs Require Import Sim Refine StrFacts ChunkFacts TextFacts Instances RunFacts TwoRuns.
Import ListNotations.
Set Implicit Arguments.
Local Notation N_len r := (N.of_nat (length r)).

Lemma Forall2_left {X Y} (R : X -> Y -> Prop) l l' x : Forall2 R l l' -> In x l -> exists y, R x y.
Proof. intros H. induction H as [|a b l l' Hab _ IH]; [intros []|intros [->|Hx]; eauto]. Qed.

Section Diag.
Context {S A TT ET Pos CE W : Type} (umax : N) (cc : classifier).
Context (so : stream_ops S A TT Pos) (co : concat_ops A TT) (ao : alloc_ops A TT ET) (bnd : bindings A TT ET Pos CE).
Context (F : Prop) (view : A -> W).
Context (Rs : S -> list (item Pos) -> list (item Pos) -> Prop) (Rt : TT -> list (item Pos) -> Prop).
Definition made (t : TT) : Prop := exists l, Rt t l.
Definition Sd (s s' : S) : Prop := s = s' /\ exists r p, Rs s r p.
Definition Td (t t' : TT) : Prop := t = t' /\ made t.
Local Notation Rd := (datum_rel Td (@eq ET)).
Local Notation Ri := (pitem_rel Td (@eq ET) (@eq Pos) (@eq CE)).

Lemma diag_datum d d' : Rd d d' <-> d = d' /\ all_texts made d.
Proof.
  revert d'. induction d as [t|o IHo p IHp| |e IHe n IHn| |x]; intros [t'|o' p'| |e' n'| |x']; cbn;
    try (split; [tauto|intros [E _]; discriminate]); try (split; [intros; split; [reflexivity|exact I]|intros; exact I]).
  - unfold Td. split; intros [E H]; split; congruence.
  - rewrite IHo, IHp. split.
    + intros [[-> A1] [-> A2]]. auto.
    + intros [E [A1 A2]]. injection E as -> ->. auto.
  - rewrite IHe, IHn. split.
    + intros [[-> A1] [-> A2]]. auto.
    + intros [E [A1 A2]]. injection E as -> ->. auto.
  - split; [intros ->; auto|intros [E _]; congruence].
Qed.

Lemma diag_stream : stream_contract F view so Rs Rt -> stream_sim so so False Sd eq Td eq.
Proof.
  intros SC.
  assert (Oi : forall o : option (item Pos), option_rel (item_rel eq) o o) by (intros [i|]; [split; reflexivity|exact I]).
  split.
  - intros s s' [<- (r & p & H)]. destruct (sc_peek SC _ _ _ H) as (s1 & E & H1). rewrite E.
    unfold pres_rel. cbn. split; [apply Oi|]. split; eauto.
  - intros s s' [<- (r & p & H)]. destruct (sc_next SC _ _ _ H) as (s1 & E & H1). rewrite E.
    unfold pres_rel. cbn. split; [apply Oi|]. split; eauto.
  - intros s s' a a' [<- (r & p & H)] <-.
    destruct (sc_next_accum SC _ a _ _ H) as [(s1 & a1 & E & _ & H1)|(_ & s1 & a1 & E & _ & _ & H1)]; rewrite E;
      unfold ares_rel; cbn.
    + split; [apply Oi|]. split; cbn; auto. split; eauto.
    + right. split; cbn; auto. split; eauto.
  - intros s s' a a' [<- (r & p & H)] <-.
    destruct (sc_accum_done SC _ a _ _ H) as [(s1 & a1 & t & E & _ & Ht & H1)|(_ & s1 & a1 & E & _ & _ & H1)]; rewrite E;
      unfold ares_rel; cbn.
    + split; [split; [reflexivity|exists p; exact Ht]|]. split; cbn; auto. split; eauto.
    + right. split; cbn; auto. split; eauto.
Qed.

Lemma diag_concat : concat_contract F view co Rt -> concat_sim co co False eq Td.
Proof.
  intros TC. split.
  - split; [reflexivity|]. exists []. apply TC.
  - intros t1 t1' t2 t2' a a' [<- (l1 & H1)] [<- (l1' & H1')] <-.
    destruct (tc_concat TC _ _ _ _ a H1 H1') as [(t & a1 & E & _ & Ht)|(_ & a1 & E & _)]; rewrite E; unfold ares_rel; cbn.
    + split; [split; [reflexivity|]|]; eauto. exists (l1 ++ l1'). exact Ht.
    + right. reflexivity.
Qed.

Lemma diag_alloc : alloc_contract F view ao -> alloc_sim ao ao False eq Td eq.
Proof.
  intros AC. split.
  - intros d d' a a' Hd <-. apply diag_datum in Hd as [<- Hd].
    destruct (AC d a) as [(a1 & E & _)|(_ & a1 & E & _)]; rewrite E; unfold ares_rel; cbn; auto.
    split; auto. apply diag_datum. auto.
  - intros d d' a a' Hd <-. apply diag_datum in Hd as [<- Hd]. reflexivity.
Qed.

Lemma error_rel_refl (e : error Pos CE) : error_rel eq eq e e.
Proof. destruct e; cbn; auto. Qed.

Lemma diag_bindings : (forall d c, bnd d = Some c -> combiner_keeps made c) ->
  bindings_sim bnd bnd False eq Td eq eq eq.
Proof.
  intros K d d' Hd. apply diag_datum in Hd as [<- Hd]. destruct (bnd d) as [c|] eqn:Eb; cbn; auto.
  specialize (K _ _ Eb). destruct c as [f|f]; cbn in *.
  - intros d1 d2 t1 t2 a1 a2 H1 [<- Ht] <-. apply diag_datum in H1 as [<- H1].
    unfold cres_rel. destruct (f d1 t1 a1) as [[[x|]|e] a'] eqn:Ef; cbn [fst snd option_rel]; auto.
    { split; [|reflexivity]. apply diag_datum. split; [reflexivity|]. exact (K _ _ _ _ _ H1 Ht Ef). }
    left. split; auto. apply error_rel_refl.
  - intros d1 d2 t1 t2 a1 a2 H1 Ht <-. apply diag_datum in H1 as [<- H1]. apply diag_datum in Ht as [<- Ht].
    unfold cres_rel. destruct (f d1 t1 a1) as [[[x|]|e] a'] eqn:Ef; cbn [fst snd option_rel]; auto.
    { split; [|reflexivity]. apply diag_datum. split; [reflexivity|]. exact (K _ _ _ _ _ H1 Ht Ef). }
    left. split; auto. apply error_rel_refl.
Qed.

Lemma take_while_made n fuel ae st r p items st' :
  stream_contract F view so Rs Rt -> concat_contract F view co Rt -> alloc_contract F view ao ->
  (forall d c, bnd d = Some c -> combiner_keeps made c) ->
  Rs (ps_strm st) r p ->
  take_while_collect umax cc so co ao bnd n fuel ae st = (Ok items, st') ->
  forall d, In (inl d) items -> all_texts made d.
Proof.
  intros SC TC AC K Hs E d Hd.
  pose proof (sim_take_while umax cc (diag_stream SC) (diag_concat TC) (diag_alloc AC) (diag_bindings K) n fuel ae
     (st1:=st) (st2:=st)) as G.
  assert (R : st_rel Sd eq st st) by (repeat split; eauto).
  specialize (G R). unfold coll_rel in G. rewrite E in G. cbn [fst snd] in G. destruct G as [G _].
  destruct (Forall2_left _ G Hd) as ([d'|e] & Hx); cbn in Hx; [|contradiction]. apply diag_datum in Hx. tauto.
Qed.

Lemma called_made st rs st' :
  stream_contract F view so Rs Rt -> concat_contract F view co Rt -> alloc_contract F view ao ->
  (forall d c, bnd d = Some c -> combiner_keeps made c) ->
  called umax cc so co ao bnd st rs st' -> (exists r p, Rs (ps_strm st) r p) ->
  forall d, In (Some (inl d)) rs -> all_texts made d.
Proof.
  intros SC TC AC K HC. induction HC as [|st fuel r st1 rs st2 E _ IH]; intros Hs d Hd; [destruct Hd|].
  pose proof (sim_iter_next umax cc (diag_stream SC) (diag_concat TC) (diag_alloc AC) (diag_bindings K) fuel
     (st1:=st) (st2:=st)) as G.
  assert (R : st_rel Sd eq st st) by (repeat split; eauto).
  specialize (G R). unfold next_rel in G. rewrite E in G. cbn [fst snd] in G.
  destruct r as [x|].
  - destruct G as [[Hx (Hst & _ & _)]|[[] _]]. destruct Hd as [Ed|Hd].
    + injection Ed as ->. apply diag_datum in Hx. tauto.
    + apply IH; auto. destruct Hst as [_ H]. exact H.
  - destruct G as [[_ (Hst & _ & _)]|[[] _]]. destruct Hd as [Ed|Hd]; [discriminate|].
    apply IH; auto. destruct Hst as [_ H]. exact H.
Qed.
End Diag.

Lemma all_texts_mono {TT ET} (P Q : TT -> Prop) (d : datum TT ET) : (forall t, P t -> Q t) -> all_texts P d -> all_texts Q d.
Proof. intros H. induction d; cbn; intuition. Qed.

Lemma combiner_keeps_iff {A TT ET Pos CE} (P Q : TT -> Prop) (c : combiner A TT ET Pos CE) :
  (forall t, P t <-> Q t) -> combiner_keeps P c -> combiner_keeps Q c.
Proof.
  intros H. assert (D : forall d : datum TT ET, all_texts P d <-> all_texts Q d).
  { intros d. split; apply all_texts_mono; intros; apply H; auto. }
  destruct c as [f|f]; cbn; intros K d t a x a' H1 H2 E.
  - apply D. apply D in H1. apply H in H2. eauto.
  - apply D. apply D in H1. apply D in H2. eauto.
Qed.

(** ** Slices *)
Lemma prefix_byte_len : forall src a b, byte_len (firstn a src) = byte_len (firstn b src) ->
  a <= length src -> b <= length src -> a = b.
Proof.
  induction src as [|c src IH]; intros [|a] [|b]; cbn; intros E Ha Hb; try lia.
  - pose proof (len_utf8_pos c). lia.
  - pose proof (len_utf8_pos c). lia.
  - f_equal. apply IH; lia.
Qed.

Lemma posstr_rep_slice src c : (exists l, posstr_rep src c l) <-> ps_val c = [] \/ slice_of src c.
Proof.
  split.
  - intros (l & [[E _]|(pre & v & post & -> & -> & _)]); auto. right. unfold slice_of. cbn.
    split; [reflexivity|]. split; [apply str_slice_mid|]. split.
    + rewrite Nat2N.id, firstn_app, firstn_all, Nat.sub_diag. cbn. rewrite app_nil_r. reflexivity.
    + rewrite !app_length. lia.
  - intros [E|(Es & Ev & Eb & El)].
    + exists []. left. auto.
    + destruct c as [v [s b n]]. cbn in *. subst s.
      apply str_slice_inv in Ev as (p & q & E & Hp & Hv & _).
      assert (En : n = N_len p).
      { assert (N.to_nat n = length p); [|lia].
        apply prefix_byte_len with src.
        - rewrite <- Eb, <- Hp, E, firstn_app, firstn_all, Nat.sub_diag. cbn. rewrite app_nil_r. reflexivity.
        - lia.
        - rewrite E, app_length. lia. }
      exists (str_items src p v). right. exists p, v, q. subst n b. auto.
Qed.

(** Slicing a slice. *)
Lemma drop_bytes_add p a s : drop_bytes (byte_len p + a) (p ++ s) = drop_bytes a s.
Proof.
  induction p as [|c p IH]; cbn [byte_len app]; [reflexivity|]. pose proof (len_utf8_pos c). cbn [drop_bytes].
  destruct (N.eqb_spec (len_utf8 c + byte_len p + a) 0); [lia|].
  destruct (N.ltb_spec (len_utf8 c + byte_len p + a) (len_utf8 c)); [lia|].
  rewrite <- IH. f_equal. lia.
Qed.
Lemma drop_bytes_within s q : forall a, (a <= byte_len s)%N -> drop_bytes a (s ++ q) = option_map (fun t => t ++ q) (drop_bytes a s).
Proof.
  induction s as [|c s IH]; intros a Ha; cbn [byte_len app] in *.
  - replace a with 0%N by lia. destruct q; reflexivity.
  - cbn [drop_bytes]. destruct (N.eqb_spec a 0); [reflexivity|]. destruct (N.ltb_spec a (len_utf8 c)); [reflexivity|].
    apply IH. lia.
Qed.
Lemma take_bytes_within s q : forall a, (a <= byte_len s)%N -> take_bytes a (s ++ q) = take_bytes a s.
Proof.
  induction s as [|c s IH]; intros a Ha; cbn [byte_len app] in *.
  - replace a with 0%N by lia. destruct q; reflexivity.
  - cbn [take_bytes]. destruct (N.eqb_spec a 0); [reflexivity|]. destruct (N.ltb_spec a (len_utf8 c)); [reflexivity|].
    f_equal. apply IH. lia.
Qed.
Lemma rc_slice_like v s a b : rc_as_str v = Ok s ->
  match rc_slice v a b with
  | Ok v' => (a <= b <= byte_len s)%N /\ rs_str v' = rs_str v /\
      (rs_start v <= rs_start v' <= rs_end v' /\ rs_end v' <= rs_end v)%N /\ rc_as_str v' = str_slice s a b
  | Panic => (b < a \/ byte_len s < b)%N
  | _ => False
  end.
Proof.
  intros E. unfold rc_as_str in E. apply str_slice_inv in E as (p & q & E & Hp & Hs & Hle). unfold rc_slice.
  rewrite <- Hs. destruct (N.leb_spec a b), (N.leb_spec (rs_start v) (rs_end v)), (N.leb_spec b (byte_len s)); cbn; try lia.
  split; [lia|]. split; [reflexivity|]. split; [lia|].
  unfold rc_as_str, str_slice. cbn [rs_str rs_start rs_end].
  destruct (N.leb_spec (rs_start v + a) (rs_start v + b)); [|lia]. destruct (N.leb_spec a b); [|lia].
  rewrite E, <- Hp, drop_bytes_add, drop_bytes_within by lia.
  destruct (drop_bytes a s) as [t|] eqn:Et; cbn; [|reflexivity]. apply drop_bytes_inv in Et as (x & -> & Hx).
  rewrite byte_len_app in *. replace (byte_len p + b - (byte_len p + a))%N with (b - a)%N by lia.
  rewrite take_bytes_within by lia. reflexivity.
Qed.

Lemma str_slice_pre p v : str_slice (p ++ v) 0 (byte_len p) = Ok p.
Proof. exact (str_slice_mid [] p v). Qed.
Lemma str_slice_post p v : str_slice (p ++ v) (byte_len p) (byte_len (p ++ v)) = Ok v.
Proof. rewrite byte_len_app. pose proof (str_slice_mid p v []) as H. rewrite app_nil_r in H. exact H. Qed.

Lemma same_prefix : forall (p p' u u' : str), p ++ u = p' ++ u' -> byte_len p = byte_len p' -> p = p' /\ u = u'.
Proof.
  induction p as [|c p IH]; intros [|c' p'] u u' E H; cbn in *.
  - auto.
  - pose proof (len_utf8_pos c'). lia.
  - pose proof (len_utf8_pos c). lia.
  - injection E as -> E. destruct (IH p' u u' E); [lia|]. subst. auto.
Qed.

Lemma posstrish_rep_range held c :
  (exists l, posstrish_rep held c l) <-> rc_as_str (px_val c) = Ok [] \/ range_of held c.
Proof.
  split.
  - intros (l & pre & v & post & Ev & _ & [->|(base & Hb & Ep)]).
    + left. unfold rc_as_str. rewrite Ev. cbn [rs_str rs_start rs_end]. apply str_slice_mid.
    + right. unfold range_of, rc_as_str. rewrite Ev. cbn [rs_str rs_start rs_end].
      exists base, pre, v, post. split; [exact Hb|]. split; [apply str_slice_pre|]. split; [apply str_slice_mid|].
      split; [|exact Ep]. rewrite <- byte_len_app, app_assoc. apply str_slice_post.
  - destruct c as [[s a b] pos]. unfold range_of, rc_as_str. cbn [px_val px_pos rs_str rs_start rs_end].
    intros [E|(base & p & u & q & Hb & E1 & E & E2 & Ep)].
    + apply str_slice_inv in E as (p & q & -> & Hp & Hb & Hle). cbn in Hb.
      exists (enumerate pos []), p, [], q. cbn. rewrite Hp. replace (a + 0)%N with b by lia. auto.
    + apply str_slice_inv in E as (p' & q' & Es' & Hp & Hv & Hle).
      apply str_slice_inv in E1 as (z & q1 & Es1 & Hz & Hp1 & _). apply byte_len_0 in Hz. subst z. cbn in Es1.
      assert (p = p'). { rewrite Es1 in Es'. apply same_prefix in Es'; [tauto|lia]. } subst p'.
      exists (enumerate pos u), p, u, q'. cbn. rewrite Hp, <- Es'. replace (a + byte_len u)%N with b by lia.
      split; [reflexivity|]. split; [reflexivity|]. right. exists base. auto.
Qed.

(** Texts over such chunks. *)
Lemma made_chunks {TT C A Pos} (x : text_ops TT C A) (Rc : C -> list (item Pos) -> Prop) (ok : C -> Prop) t :
  (forall c, (exists l, Rc c l) <-> ok c) -> made (text_items x Rc) t <-> chunks_all x ok t.
Proof.
  intros H. split.
  - intros (l & cs & ls & E & HF & _). exists cs. split; [exact E|].
    clear E. induction HF as [|c l' cs ls Hc _ IH]; constructor; auto. apply H. eauto.
  - intros (cs & E & HF). assert (G : exists ls, Forall2 Rc cs ls).
    { clear E. induction HF as [|c cs Hc _ [ls IH]]; [exists []; constructor|]. apply H in Hc as [l Hl]. exists (l :: ls). auto. }
    destruct G as [ls G]. exists (List.concat ls), cs, ls. auto.
Qed.

Definition posstr_in (P : str -> Prop) (c : posstr) (l : list (item strpos)) : Prop :=
  exists i : {s | P s}, posstr_rep (proj1_sig i) c l.
Definition posstr_in_state (P : str -> Prop) (s : posstr_iter) (r p : list (item strpos)) : Prop :=
  exists i : {s | P s}, posstr_state (proj1_sig i) s r p.
Lemma posstr_in_contract (P : str -> Prop) src : P src -> chunk_contract posstr_ops (posstr_in P) (posstr_in_state P).
Proof.
  intros H. apply (chunk_contract_any (I:={s | P s}) (fun i => posstr_rep (proj1_sig i)) (fun i => posstr_state (proj1_sig i)) (exist P src H)).
  intros i. apply posstr_contract.
Qed.

Lemma made_sliced {TT A} (x : text_ops TT posstr A) (P : str -> Prop) src t : P src ->
  made (text_items x (posstr_in P)) t <-> sliced x P t.
Proof.
  intros HP. apply made_chunks. intros c. split.
  - intros (l & (s & Hs) & H). cbn in H. destruct (proj1 (posstr_rep_slice s c)) as [E|E]; eauto.
  - intros [E|(s & Hs & H)].
    + exists [], (exist P src HP). left. auto.
    + destruct (proj2 (posstr_rep_slice s c)) as [l Hl]; auto. exists l, (exist P s Hs). exact Hl.
Qed.

Lemma made_ranged {TT A} (x : text_ops TT posstrish A) held t :
  made (text_items x (posstrish_rep held)) t <-> ranged x held t.
Proof. apply made_chunks. intros c. apply posstrish_rep_range. Qed.

(** Restricting a contract to the items of a source. *)
Section Restrict.
Context {S A TT Pos W : Type} (F : Prop) (view : A -> W) (src : list (item Pos)).
Context (so : stream_ops S A TT Pos) (co : concat_ops A TT).
Context (Rs : S -> list (item Pos) -> list (item Pos) -> Prop) (Rt : TT -> list (item Pos) -> Prop).
Local Notation of_src := (Forall (fun i => In i src)).
Definition Rs_of s r p : Prop := Rs s r p /\ of_src r /\ of_src p.
Definition Rt_of t l : Prop := Rt t l /\ of_src l.

Lemma restrict_stream : stream_contract F view so Rs Rt -> stream_contract F view so Rs_of Rt_of.
Proof.
  intros SC. split.
  - intros s r p (H & Hr & Hp). destruct (sc_peek SC _ _ _ H) as (s1 & E & H1). exists s1. repeat split; auto.
  - intros s r p (H & Hr & Hp). destruct (sc_next SC _ _ _ H) as (s1 & E & H1). exists s1. repeat split; auto.
    destruct Hr; cbn; auto.
  - intros s a r p (H & Hr & Hp). destruct (sc_next_accum SC _ a _ _ H) as [(s1 & a1 & E & V & H1)|(HF & s1 & a1 & E & V & Np & H1)].
    + left. exists s1, a1. repeat split; auto; destruct Hr; cbn; auto; apply Forall_app; auto.
    + right. split; auto. exists s1, a1. repeat split; auto.
  - intros s a r p (H & Hr & Hp). destruct (sc_accum_done SC _ a _ _ H) as [(s1 & a1 & t & E & V & Ht & H1)|(HF & s1 & a1 & E & V & Np & H1)].
    + left. exists s1, a1, t. repeat split; auto.
    + right. split; auto. exists s1, a1. repeat split; auto.
Qed.

Lemma restrict_concat : concat_contract F view co Rt -> concat_contract F view co Rt_of.
Proof.
  intros TC. split.
  - split; [apply TC|constructor].
  - intros t1 t2 l1 l2 a (H1 & G1) (H2 & G2).
    destruct (tc_concat TC _ _ _ _ a H1 H2) as [(t & a1 & E & V & Ht)|(HF & a1 & E & V & N1 & N2)].
    + left. exists t, a1. repeat split; auto. apply Forall_app; auto.
    + right. split; auto. exists a1. auto.
Qed.
End Restrict.

Lemma pitem_rel_mono {T1 T2 E1 E2 P1 P2 C1 C2} (R R' : T1 -> T2 -> Prop) (Q : E1 -> E2 -> Prop) (Rp : P1 -> P2 -> Prop)
    (Rc : C1 -> C2 -> Prop) x y :
  (forall t u, R t u -> R' t u) -> pitem_rel R Q Rp Rc x y -> pitem_rel R' Q Rp Rc x y.
Proof. intros H. destruct x, y; cbn; auto. apply RunFacts.datum_rel_mono; auto. Qed.

Lemma hm_lookup_in {K V} (keq : K -> K -> bool) kh hasher (m : list (K * V)) d v :
  hm_lookup keq kh hasher m d = Some v -> exists k, In (k, v) m.
Proof.
  induction m as [|[k v'] m IH]; cbn; [discriminate|]. destruct (same_key _ _ _ _ _).
  - intros E. injection E as ->. eauto.
  - intros E. destruct (IH E) as [k' H]. eauto.
Qed.
Lemma pair_lookup_in {K V} (keq : K -> K -> bool) (m : list (K * V)) d v :
  pair_lookup keq m d = Some v -> exists k, In (k, v) m.
Proof.
  induction m as [|[k v'] m IH]; cbn; [discriminate|]. destruct (keq _ _).
  - intros E. injection E as ->. eauto.
  - intros E. destruct (IH E) as [k' H]. eauto.
Qed.

Lemma made_from_source {TT C CS A Pos W} (k : chunk_ops C CS Pos) Rc Rcs (KC : chunk_contract k Rc Rcs)
    (F : Prop) (view : A -> W) (x : text_ops TT C A) (XC : text_contract F view x Rc) src t :
  made (Rt_of src (text_items x Rc)) t <-> from_source k x Rc src t.
Proof.
  split.
  - intros (l & Hl & Hi). exists l. split; [exact Hl|]. split; [exact (text_reads KC XC Hl)|].
    exact (proj1 (Forall_forall _ _) Hi).
  - intros (l & Hl & _ & Hi). exists l. split; [exact Hl|]. apply Forall_forall. exact Hi.
Qed.
