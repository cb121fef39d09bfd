(** Whole iterations of lawful configurations and of [parse_str_with], in terms
    of what can be observed. *)
From Coq Require Import List NArith Arith Bool Lia.
From Verif.Model Require Import Prelude Parser Iter Utf8 Chunk TextIter PosStr PosStrish
  TextVec TextDatumList CharIter StrishIter Alloc DefaultClassifier TextMethods DatumMethods Bindings Premade.
From Verif.Spec Require Import Contract ChunkContract Grammar Balance AbsStream Lawful Run.
From Verif.Proofs Require Import Wp Safety FuelMono Sim Refine StrFacts ChunkFacts TextFacts AllocFacts AbsParse AbsIter
  Compose Transfer Instances PremadeFacts Concrete.
Import ListNotations.
Set Implicit Arguments.
Local Notation N_len r := (N.of_nat (length r)).

(** Sources. *)
Lemma str_source_items src : forall v pre, src = pre ++ v ->
  str_items src pre v =
  map (fun i => Item (nth i src 0%N) (StrPos src (byte_len (firstn i src)) (N.of_nat i))) (seq (length pre) (length v)).
Proof.
  induction v as [|c v IH]; intros pre E; [reflexivity|].
  rewrite str_items_cons. cbn [length seq map]. f_equal.
  - f_equal.
    + rewrite E, app_nth2, Nat.sub_diag by lia. reflexivity.
    + f_equal. f_equal. rewrite E, firstn_app, Nat.sub_diag, firstn_all. cbn. rewrite app_nil_r. reflexivity.
  - rewrite (IH (pre ++ [c])); [|rewrite <- app_assoc; exact E]. rewrite app_length, Nat.add_1_r. reflexivity.
Qed.

Lemma str_source_eq s : str_source s = str_items s [] s.
Proof. symmetry. apply (str_source_items s [] eq_refl). Qed.

Lemma char_source_items src : forall v pre, src = pre ++ v ->
  enumerate (N_len pre) v = map (fun i => Item (nth i src 0%N) (N.of_nat i)) (seq (length pre) (length v)).
Proof.
  induction v as [|c v IH]; intros pre E; [reflexivity|]. cbn [enumerate length seq map]. f_equal.
  - f_equal. rewrite E, app_nth2, Nat.sub_diag by lia. reflexivity.
  - replace (N_len pre + 1)%N with (N_len (pre ++ [c])) by (rewrite app_length; cbn; lia).
    rewrite (IH (pre ++ [c])); [|rewrite <- app_assoc; exact E]. rewrite app_length, Nat.add_1_r. reflexivity.
Qed.

Lemma char_source_eq s : char_source s = enumerate 0 s.
Proof. symmetry. apply (char_source_items s [] eq_refl). Qed.

Lemma str_source_ch s : map it_ch (str_source s) = s.
Proof. rewrite str_source_eq. apply str_items_ch. Qed.
Lemma char_source_ch s : map it_ch (char_source s) = s.
Proof. rewrite char_source_eq. apply enumerate_ch. Qed.
Lemma str_source_length s : length (str_source s) = length s.
Proof. unfold str_source. rewrite map_length, seq_length. reflexivity. Qed.
Lemma char_source_length s : length (char_source s) = length s.
Proof. unfold char_source. rewrite map_length, seq_length. reflexivity. Qed.

(** Reading a text that consists of known items. *)
Lemma text_reads {TT C CS A Pos W} (k : chunk_ops C CS Pos) Rc Rcs (KC : chunk_contract k Rc Rcs)
  (F : Prop) (view : A -> W) (x : text_ops TT C A) (XC : text_contract F view x Rc) t l :
  text_items x Rc t l -> reads k x t l.
Proof.
  intros H. destruct (titer_new_rep (A:=A) (Rcs:=Rcs) KC H) as (s & E & Hs).
  exists (S (length l)), s. split; [exact E|]. exact (titer_collect_rep KC XC Hs (le_n _)).
Qed.

Lemma titer_collect_det {TT C CS Pos} (k : chunk_ops C CS Pos) : forall n m (s : titer (TT:=TT) (C:=C) (CS:=CS) (Pos:=Pos)) l l',
  titer_collect k n s = Ok l -> titer_collect k m s = Ok l' -> l = l'.
Proof.
  induction n as [|n IH]; intros [|m] s l l'; cbn [titer_collect]; try discriminate.
  destruct (titer_next k s) as [[[it|]|e| |] s']; try discriminate; [|congruence].
  destruct (titer_collect k n s') as [a|e| |] eqn:E1; try discriminate.
  destruct (titer_collect k m s') as [b|e| |] eqn:E2; try discriminate.
  cbn. intros H1 H2. injection H1 as <-. injection H2 as <-. f_equal. eauto.
Qed.

Lemma reads_det {TT C CS A Pos} (k : chunk_ops C CS Pos) (x : text_ops TT C A) t l l' :
  reads k x t l -> reads k x t l' -> l = l'.
Proof.
  intros (n & s & E & H) (m & s' & E' & H'). rewrite E in E'. injection E' as <-.
  eapply titer_collect_det; eauto.
Qed.

(** Relations between datums. *)
Lemma datum_rel_mono {T1 T2 E1 E2} (R R' : T1 -> T2 -> Prop) (Q Q' : E1 -> E2 -> Prop) :
  (forall t u, R t u -> R' t u) -> (forall t u, Q t u -> Q' t u) ->
  forall d1 d2, datum_rel R Q d1 d2 -> datum_rel R' Q' d1 d2.
Proof.
  intros HR HQ. induction d1; destruct d2; cbn; auto; intros [? ?]; auto.
Qed.

Lemma datum_rel_trans {T1 T2 T3 E1 E2 E3} (R : T1 -> T2 -> Prop) (R' : T2 -> T3 -> Prop) (R'' : T1 -> T3 -> Prop)
  (Q : E1 -> E2 -> Prop) (Q' : E2 -> E3 -> Prop) (Q'' : E1 -> E3 -> Prop) :
  (forall t u v, R t u -> R' u v -> R'' t v) -> (forall t u v, Q t u -> Q' u v -> Q'' t v) ->
  forall d1 d2 d3, datum_rel R Q d1 d2 -> datum_rel R' Q' d2 d3 -> datum_rel R'' Q'' d1 d3.
Proof.
  intros HR HQ. induction d1; destruct d2, d3; cbn; try contradiction; eauto; intros [? ?] [? ?]; eauto.
Qed.

Lemma Forall2_mono {X Y} (P Q : X -> Y -> Prop) : (forall x y, P x y -> Q x y) ->
  forall l l', Forall2 P l l' -> Forall2 Q l l'.
Proof. intros H l l'. induction 1; auto. Qed.

Lemma Forall2_trans {X Y Z} (P : X -> Y -> Prop) (Q : Y -> Z -> Prop) (R : X -> Z -> Prop) :
  (forall x y z, P x y -> Q y z -> R x z) ->
  forall a b c, Forall2 P a b -> Forall2 Q b c -> Forall2 R a c.
Proof.
  intros H a b c HP. revert c. induction HP; intros c HQ; inversion HQ; subst; eauto.
Qed.

(** Iterations. *)
Section Iterations.
Context {S A TT ET Pos CE : Type}.
Context (umax : N) (cc : classifier) (so : stream_ops S A TT Pos) (co : concat_ops A TT)
        (ao : alloc_ops A TT ET) (bnd : bindings A TT ET Pos CE).
Local Notation collect := (iter_collect umax cc so co ao bnd).
Local Notation iterates := (iterates umax cc so co ao bnd).
Local Notation take_while := (take_while_collect umax cc so co ao bnd).

Lemma collect_mono : forall n n' f f' st r st', n <= n' -> f <= f' ->
  collect n f st = (Ok r, st') -> collect n' f' st = (Ok r, st').
Proof.
  induction n as [|n IH]; intros n' f f' st r st' Hn Hf; cbn [iter_collect]; [discriminate|].
  destruct n' as [|n']; [lia|]. cbn [iter_collect].
  pose proof (iter_next_fuel umax cc so co ao bnd st Hf) as G.
  destruct (iter_next umax cc so co ao bnd f st) as [[[x|]|e| |] s1]; try discriminate.
  - rewrite G by discriminate. destruct (collect n f s1) as [[l|e| |] s2] eqn:E; try discriminate.
    intros H. injection H as <- <-. rewrite (IH n' f f' s1 l s2) by (auto; lia). reflexivity.
  - rewrite G by discriminate. auto.
Qed.

Lemma iterates_det st r1 st1 r2 st2 : iterates st r1 st1 -> iterates st r2 st2 -> r1 = r2 /\ st1 = st2.
Proof.
  intros (n & f & E) (n' & f' & E').
  apply (collect_mono (n':=n + n') (f':=f + f')) in E; try lia.
  apply (collect_mono (n':=n + n') (f':=f + f')) in E'; try lia.
  rewrite E in E'. injection E' as <- <-. auto.
Qed.

(** Without errors, [take_while] takes all items. *)
Lemma take_while_ok : forall n f ds st st',
  take_while n f false st = (Ok (map inl ds), st') <-> collect n f st = (Ok (map inl ds), st').
Proof.
  induction n as [|n IH]; intros f ds st st'; cbn [take_while_collect iter_collect]; [split; discriminate|].
  destruct (iter_next umax cc so co ao bnd f st) as [[[[d|e]|]|e| |] s1]; cbn [keep_until_err is_err]; try (split; discriminate).
  - destruct ds as [|d' ds].
    + destruct (take_while n f false s1) as [[l1| | |] ?], (collect n f s1) as [[l2| | |] ?]; split; discriminate.
    + specialize (IH f ds s1 st').
      destruct (take_while n f false s1) as [r1 t1], (collect n f s1) as [r2 t2]. cbn [map] in *. split.
      * destruct r1 as [l1| | |]; try discriminate. intros H. injection H as -> -> ->.
        destruct IH as [IH _]. specialize (IH eq_refl). injection IH as -> ->. reflexivity.
      * destruct r2 as [l2| | |]; try discriminate. intros H. injection H as -> -> ->.
        destruct IH as [_ IH]. specialize (IH eq_refl). injection IH as -> ->. reflexivity.
  - destruct (take_while n f true s1) as [[l1| | |] t1], (collect n f s1) as [[l2| | |] t2];
      destruct ds; split; discriminate.
  - split; auto.
Qed.
End Iterations.

Lemma error_of_app {D E} (ds : list D) (e : E) rest : error_of (map inl ds ++ inr e :: rest) = Some e.
Proof. induction ds; cbn; auto. Qed.
Lemma error_of_ok {D E} (ds : list D) : error_of (E:=E) (map inl ds) = None.
Proof. induction ds; cbn; auto. Qed.
Lemma error_of_none {D E} (l : list (D + E)) : error_of l = None -> exists ds, l = map inl ds.
Proof.
  induction l as [|[d|e] l IH]; cbn; [exists []; reflexivity| |discriminate].
  intros H. destruct (IH H) as [ds ->]. exists (d :: ds). reflexivity.
Qed.
Lemma error_of_first {ET Pos CE} (l : list (datum (list (item Pos)) ET + error Pos CE)) :
  @first_error ET Pos CE l = error_of l.
Proof. unfold first_error. induction l as [|[d|e] l IH]; cbn; auto. Qed.

(** Lawful configurations. *)
Section LawfulRun.
Context {S A TT ET Pos CE W AE AC : Type}.
Context (umax : N) (cc : classifier) (so : stream_ops S A TT Pos) (co : concat_ops A TT)
        (ao : alloc_ops A TT ET) (bnd : bindings A TT ET Pos CE).
Local Notation text := (list (item Pos)).
Context (view : A -> W) (abnd : bindings W text AE Pos AC).
Context (Rs : S -> text -> text -> Prop) (Rt : TT -> text -> Prop)
        (Rx : ET -> AE -> Prop) (Rc : CE -> AC -> Prop).
Local Notation Ri := (pitem_rel Rt Rx (@eq Pos) Rc).
Local Notation iterates := (iterates umax cc so co ao bnd).
Local Notation aiterates := (Run.iterates umax cc (@abs_stream W Pos) abs_concat abs_alloc abnd).
Context (LW : lawful False view so co ao bnd abnd Rs Rt Rx Rc).

Lemma iterates_abstract st s w items st' : starts_on Rs view st s w -> iterates st items st' ->
  exists aitems ast', aiterates (ast s [] 0 w) aitems ast' /\ Forall2 Ri items aitems /\
    st_rel (Rs_abs Rs) (Ra_view view) st' ast'.
Proof.
  intros H (n & f & E). pose proof (lw_coll umax cc LW n f H) as G. rewrite E in G. unfold coll_rel in G. cbn in G.
  destruct (iter_collect umax cc (@abs_stream W Pos) abs_concat abs_alloc abnd n f (ast s [] 0 w))
    as [[aitems|[]| |] ast'] eqn:Ea; try contradiction.
  exists aitems, ast'. split; [exists n, f; exact Ea|exact G].
Qed.

Lemma iterates_concrete st s w aitems ast' : starts_on Rs view st s w ->
  aiterates (ast s [] 0 w) aitems ast' ->
  exists items st', iterates st items st' /\ Forall2 Ri items aitems /\
    st_rel (Rs_abs Rs) (Ra_view view) st' ast'.
Proof.
  intros H (n & f & E). pose proof (lw_coll umax cc LW n f H) as G. rewrite E in G. unfold coll_rel in G. cbn in G.
  destruct (iter_collect umax cc so co ao bnd n f st) as [[items|[]| |] st'] eqn:Ea; try contradiction.
  exists items, st'. split; [exists n, f; exact Ea|exact G].
Qed.

Lemma iterates_total st s w : starts_on Rs view st s w -> (N_len s <= umax)%N ->
  exists items st', iterates st items st'.
Proof.
  intros H Hu. destruct (lw_total cc LW H Hu (n:=Datatypes.S (length s)) (fuel:=3 * length s + 3))
    as (items & st' & E & _); [lia|lia|].
  exists items, st'. do 2 eexists. exact E.
Qed.

Lemma iterates_sound st s w ds st' : disjoint_classes cc -> starts_on Rs view st s w ->
  iterates st (map inl ds) st' ->
  exists ads, input cc abnd w s ads (view (ps_alloc st')) /\ Forall2 (datum_rel Rt Rx) ds ads.
Proof. intros DC H (n & f & E). eapply lawful_sound; eauto. Qed.

Lemma iterates_complete st s w ads w' : disjoint_classes cc -> starts_on Rs view st s w ->
  (N_len s <= umax)%N -> input cc abnd w s ads w' ->
  exists ds st', iterates st (map inl ds) st' /\ Forall2 (datum_rel Rt Rx) ds ads /\ view (ps_alloc st') = w'.
Proof.
  intros DC H Hu Hin.
  destruct (lawful_complete LW (n:=Datatypes.S (length s)) (fuel:=3 * length s + 3) DC H Hu ltac:(lia) ltac:(lia) Hin)
    as (ds & st' & E & G).
  exists ds, st'. split; [do 2 eexists; exact E|exact G].
Qed.

Lemma error_of_rel items aitems : Forall2 Ri items aitems ->
  option_rel (error_rel eq Rc) (error_of items) (error_of aitems).
Proof.
  induction 1 as [|[d|e] [d'|e'] l l' H _ IH]; cbn in *; auto; contradiction.
Qed.

Lemma iterates_balance st s w items st' : disjoint_classes cc -> combiners_succeed abnd ->
  starts_on Rs view st s w -> iterates st items st' ->
  error_of items = match balance cc s with
                   | Balanced => None
                   | Unmatched p => Some (UnbalancedEndChar p)
                   | Unclosed => Some MissingEndChar
                   end.
Proof.
  intros DC NF H E. destruct (iterates_abstract H E) as (aitems & ast' & (n & f & Ea) & Hi & _).
  pose proof (first_error_balance umax DC n f s w NF Ea) as B. rewrite error_of_first in B.
  pose proof (error_of_rel Hi) as G. rewrite B in G.
  destruct (balance cc s), (error_of items) as [[]|]; cbn in G; try contradiction; congruence.
Qed.
End LawfulRun.

(** The grammar is unambiguous. *)
Lemma input_unique {W AE Pos AC} cc (abnd : bindings W (list (item Pos)) AE Pos AC) w s ds1 w1 ds2 w2 :
  disjoint_classes cc -> input cc abnd w s ds1 w1 -> input cc abnd w s ds2 w2 -> ds1 = ds2 /\ w1 = w2.
Proof.
  intros DC H1 H2.
  pose proof (input_parses (umax:=N_len s) DC (N.le_refl _) H1 (n:=S (length s)) (f:=3 * length s + 3) ltac:(lia) ltac:(lia)) as E1.
  pose proof (input_parses (umax:=N_len s) DC (N.le_refl _) H2 (n:=S (length s)) (f:=3 * length s + 3) ltac:(lia) ltac:(lia)) as E2.
  rewrite E1 in E2. injection E2 as E2 ->. split; [|reflexivity].
  clear - E2. revert ds2 E2. induction ds1 as [|d ds IH]; intros [|d' ds'] E; cbn in E; try discriminate; auto.
  injection E as -> E. f_equal. auto.
Qed.

(** ** [parse_str_with] *)
Section ParseStr.
Context {W ET CE : Type} (ET_eq : ET -> ET -> bool) (ET_hash : ET -> list hash_word)
        (hasher : list hash_word -> N) (XH : forall a b, ET_eq a b = true -> ET_hash a = ET_hash b).
Local Notation im_ops := (im_ops (W:=W)).
Local Notation im_iterates m := (iterates usize_max default_classifier (im_stream (W:=W)) (text_concat_ops im_ops) box_alloc
  (im_lookup ET_eq ET_hash hasher m)).
Local Notation text := (list (item strpos)).

(** [am] are the bindings [m] as functions of the characters of texts with their
    positions. *)
Definition str_bindings (m : im_bindings (W:=W) (ET:=ET) (CE:=CE))
  (am : list (datum text ET * combiner W text ET strpos CE)) : Prop := im_related eq eq posstr_any m am.

Section Rep.
Context (Rk : posstr -> text -> Prop) (Rks : posstr_iter -> text -> text -> Prop)
        (KC : chunk_contract posstr_ops Rk Rks) (Hsize : forall c l, Rk c l -> length l <= posstr_size c).
Local Notation Rt := (text_items im_ops Rk).

Lemma im_text_reads t l : Rt t l -> reads posstr_ops im_ops t l.
Proof. apply (text_reads KC (tvec_contract KC False (fun w : W => w))). Qed.

Lemma im_datum_reads {AE} (Rx : ET -> AE -> Prop) d ad :
  datum_rel Rt Rx d ad -> datum_rel (reads posstr_ops im_ops) Rx d ad.
Proof. apply datum_rel_mono; auto. apply im_text_reads. Qed.

Lemma im_starts input (w : W) : Rk (posstr_from input) (str_source input) ->
  exists s, titer_new posstr_ops im_ops (tx_from im_ops (posstr_from input)) = Ok s /\
    starts_on (titer_rep Rk Rks im_ops) (fun w : W => w) (parse_iter_new s w) (str_source input) w.
Proof.
  intros H. pose proof (tvec_contract KC False (fun w : W => w)) as XC.
  destruct (titer_new_rep KC (xc_from XC _ _ H)) as (s & Es & Hs).
  exists s. split; [exact Es|]. split; [reflexivity|]. split; [exact Hs|reflexivity].
Qed.
End Rep.

Lemma str_lawful m am : str_bindings m am ->
  lawful False (fun w : W => w) im_stream (text_concat_ops im_ops) box_alloc (im_lookup ET_eq ET_hash hasher m)
    (abs_lookup ET_eq am) (titer_rep posstr_any posstr_any_state im_ops) (text_items im_ops posstr_any) eq eq.
Proof.
  intros H. apply im_lawful; auto using posstr_any_contract, posstr_size_ok. intros; subst; reflexivity.
Qed.

Lemma posstr_from_any input : posstr_any (posstr_from input) (str_source input).
Proof. exists input. rewrite str_source_eq. apply posstr_from_rep. Qed.

Lemma str_starts input (w : W) :
  exists s, titer_new posstr_ops im_ops (tx_from im_ops (posstr_from input)) = Ok s /\
    starts_on (titer_rep posstr_any posstr_any_state im_ops) (fun w : W => w) (parse_iter_new s w) (str_source input) w.
Proof. apply im_starts; [apply posstr_any_contract|apply posstr_from_any]. Qed.

(** The items of [parse_str_with] are those of the iteration up to its first
    error; if there is none the states agree too. *)
Lemma parse_str_iterates input (m : im_bindings (W:=W) (ET:=ET) (CE:=CE)) w s : (N_len input <= usize_max)%N ->
  titer_new posstr_ops im_ops (tx_from im_ops (posstr_from input)) = Ok s ->
  (exists all st', im_iterates m (parse_iter_new s w) all st' /\
     exists st, parse_str_with ET_eq ET_hash hasher input m w = (Ok (upto_err all), Some st)) /\
  (forall ds st, parse_str_with ET_eq ET_hash hasher input m w = (Ok (map inl ds), Some st) ->
     im_iterates m (parse_iter_new s w) (map inl ds) st) /\
  (forall ds st, im_iterates m (parse_iter_new s w) (map inl ds) st ->
     parse_str_with ET_eq ET_hash hasher input m w = (Ok (map inl ds), Some st)).
Proof.
  intros Hu Es.
  destruct (parse_str_with_safe ET_eq ET_hash hasher input m w Hu) as (s' & all & st & st' & Es' & Ec & Ep & _).
  rewrite Es in Es'. injection Es' as <-.
  assert (Hone : forall ds st0, parse_str_with ET_eq ET_hash hasher input m w = (Ok (map inl ds), Some st0) <->
    iter_collect usize_max default_classifier (im_stream (W:=W)) (text_concat_ops im_ops) box_alloc
      (im_lookup ET_eq ET_hash hasher m) (parse_calls (length input)) (parse_fuel (length input))
      (parse_iter_new s w) = (Ok (map inl ds), st0)).
  { intros ds st0. rewrite <- take_while_ok. unfold parse_str_with. rewrite Es. unfold collect_up_to_first_err.
    destruct (take_while_collect _ _ _ _ _ _ _ _ _ _) as [r t]. split; intros H.
    - injection H as -> ->. reflexivity.
    - injection H as -> ->. reflexivity. }
  split; [|split].
  - exists all, st'. split; [do 2 eexists; exact Ec|]. exists st. exact Ep.
  - intros ds st0 H. apply Hone in H. do 2 eexists. exact H.
  - intros ds st0 H. apply Hone.
    destruct (iterates_det (ex_intro _ _ (ex_intro _ _ Ec)) H) as [-> ->]. exact Ec.
Qed.

Lemma parse_str_sound input m am w ds st : str_bindings m am -> disjoint_classes default_classifier ->
  (N_len input <= usize_max)%N ->
  parse_str_with ET_eq ET_hash hasher input m w = (Ok (map inl ds), Some st) ->
  exists ads, Grammar.input default_classifier (abs_lookup ET_eq am) w (str_source input) ads (ps_alloc st) /\
    Forall2 (datum_rel (reads posstr_ops im_ops) eq) ds ads.
Proof.
  intros HB DC Hu E. destruct (str_starts input w) as (s & Es & Hs).
  destruct (parse_str_iterates m w Hu Es) as (_ & G & _). apply G in E.
  destruct (iterates_sound (str_lawful HB) _ DC Hs E) as (ads & H1 & H2).
  exists ads. split; [exact H1|]. eapply Forall2_mono; [|exact H2]. intros x y. apply (im_datum_reads posstr_any_contract).
Qed.

Lemma parse_str_complete input m am w ads w' : str_bindings m am -> disjoint_classes default_classifier ->
  (N_len input <= usize_max)%N ->
  Grammar.input default_classifier (abs_lookup ET_eq am) w (str_source input) ads w' ->
  exists ds st, parse_str_with ET_eq ET_hash hasher input m w = (Ok (map inl ds), Some st) /\
    Forall2 (datum_rel (reads posstr_ops im_ops) eq) ds ads /\ ps_alloc st = w'.
Proof.
  intros HB DC Hu E. destruct (str_starts input w) as (s & Es & Hs).
  destruct (parse_str_iterates m w Hu Es) as (_ & _ & G).
  rewrite <- str_source_length in Hu.
  destruct (iterates_complete (str_lawful HB) DC Hs Hu E) as (ds & st & H1 & H2 & H3).
  exists ds, st. split; [apply G; exact H1|]. split; [|exact H3].
  eapply Forall2_mono; [|exact H2]. intros x y. apply (im_datum_reads posstr_any_contract).
Qed.

Lemma parse_str_balance input m am w : str_bindings m am -> disjoint_classes default_classifier ->
  combiners_succeed (abs_lookup ET_eq am) -> (N_len input <= usize_max)%N ->
  exists items st, parse_str_with ET_eq ET_hash hasher input m w = (Ok items, Some st) /\
    error_of items = match balance default_classifier (str_source input) with
                     | Balanced => None
                     | Unmatched p => Some (UnbalancedEndChar p)
                     | Unclosed => Some MissingEndChar
                     end.
Proof.
  intros HB DC CS Hu. destruct (str_starts input w) as (s & Es & Hs).
  destruct (parse_str_iterates m w Hu Es) as ((all & st' & E & st & Ep) & _).
  exists (upto_err all), st. split; [exact Ep|].
  rewrite <- (iterates_balance (str_lawful HB) DC CS Hs E). clear.
  induction all as [|[d|e] l IH]; cbn; auto.
Qed.
End ParseStr.
