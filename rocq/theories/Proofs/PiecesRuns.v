(** Chunks of texts are parts of the source: text types and streams. *)
From Coq Require Import List Arith NArith ZArith Bool Lia FinFun.
From Verif.Model Require Import Prelude Parser Iter Utf8 Chunk TextIter PosStr TextVec TextDatumList CharIter PosStrish Alloc
  DefaultClassifier DatumMethods Bindings Premade.
From Verif.Spec Require Import Contract ChunkContract Run TextWork Pieces.
From Verif.Proofs Require Import ChunkFacts TextFacts Instances Transfer RunFacts Amortize PiecesFacts TextWorkFacts.
Import ListNotations.
Set Implicit Arguments.

Lemma tvec_shaped {C CS Pos A} (k : chunk_ops C CS Pos) : shaped k (tvec_ops (A:=A) k).
Proof.
  intros t u a t' a' cs cu H1 H2 E. cbn in *. unfold tvec_concat, tvec_is_empty in E. rewrite H1, H2 in E.
  destruct (all_empty k (seq_of cs)) as [[|]|[]| |]; cbn in E; try discriminate; [injection E as <- <-; auto|].
  destruct (all_empty k (seq_of cu)) as [[|]|[]| |]; cbn in E; try discriminate; [injection E as <- <-; auto|].
  right; right. split; [auto|]. split; [auto|].
  unfold tvec_chunks in *. apply seq_of_inj in H1, H2. subst cs cu.
  destruct t, u; injection E as <- <-; reflexivity.
Qed.

Section Shaped.
Context {TT C CS Pos A W : Type} (k : chunk_ops C CS Pos) (Rc : C -> list (item Pos) -> Prop)
        (Rcs : CS -> list (item Pos) -> list (item Pos) -> Prop) (KC : chunk_contract k Rc Rcs)
        (x : text_ops TT C A) (F : Prop) (view : A -> W) (XC : text_contract F view x Rc).
Context (SH : shaped k x) (FR : forall c, tx_chunks x (tx_from x c) = seq_of [c]).
Context (EM : exists cs, tx_chunks x (tx_empty x) = seq_of cs /\ length cs <= 1 /\ Forall (fun c => Rc c []) cs).

Lemma shaped_concat t u a t' a' cs ls cu lu : tx_chunks x t = seq_of cs -> Forall2 Rc cs ls ->
  tx_chunks x u = seq_of cu -> Forall2 Rc cu lu -> tx_concat x t u a = (Ok t', a') ->
  tx_chunks x t' = seq_of (if is_nil (List.concat ls) then cu else if is_nil (List.concat lu) then cs else cs ++ cu).
Proof.
  intros H1 H2 H3 H4 E. pose proof (SH _ _ _ _ _ H1 H3 E) as S. rewrite (all_empty_seq KC H2), (all_empty_seq KC H4) in S.
  destruct S as [(E1 & ->)|[(E1 & E2 & ->)|(E1 & E2 & E3)]].
  - injection E1 as ->. exact H3.
  - injection E1 as ->. injection E2 as ->. exact H1.
  - injection E1 as ->. injection E2 as ->. exact E3.
Qed.
Definition few (t : TT) : Prop := exists cu, tx_chunks x t = seq_of cu /\ length cu <= 1.
Lemma few_first c a t' a' : tx_concat x (tx_empty x) (tx_from x c) a = (Ok t', a') -> few t' /\ 0%Z = 0%Z.
Proof.
  intros E. split; [|reflexivity]. destruct EM as (cs & H1 & H2 & H3).
  assert (H4 : Forall2 Rc cs (map (fun _ => []) cs)) by (clear -H3; induction H3; cbn; constructor; auto).
  pose proof (SH _ _ _ _ _ H1 (FR c) E) as S. rewrite (all_empty_seq KC H4) in S.
  assert (Z : List.concat (map (fun _ : C => @nil (item Pos)) cs) = []) by (clear; induction cs; cbn; auto). rewrite Z in S.
  destruct S as [(_ & ->)|[(E1 & _)|(E1 & _)]]; try discriminate. exists [c]. split; [apply FR|cbn; lia].
Qed.
Lemma few_none : few (tx_empty x).
Proof. destruct EM as (cs & H1 & H2 & _). exists cs. auto. Qed.

Context {ET CE : Type} (umax : N) (cc : classifier) (ao : alloc_ops A TT ET) (bnd : bindings A TT ET Pos CE).
Context (H_new : forall d a d' a', a_new_datum ao d a = (Ok d', a') -> d' = d).
Lemma titer_pieces c src s a fuel n ds more st' : Rc c src -> NoDup src -> titer_new k x (tx_from x c) = Ok s ->
  keeps_texts (fun t => exists ls, chunks_are_pieces x Rc src t ls) bnd ->
  iter_collect umax cc (titer_stream k x) (text_concat_ops x) ao bnd n fuel (parse_iter_new s a) = (Ok (map inl ds ++ more), st') ->
  Forall (fun d => Forall (fun t => exists ls, chunks_are_pieces x Rc src t ls) (texts_in d)) ds.
Proof.
  intros Hc ND Es HB E.
  assert (P : one_chunk few s).
  { unfold titer_new in Es. rewrite FR in Es. cbn in Es. injection Es as <-. split; reflexivity. }
  assert (R : titer_rep Rc Rcs x s src []).
  { destruct (titer_new_rep KC (xc_from XC _ _ Hc)) as (s' & Es' & R).
    rewrite Es' in Es. injection Es as <-. exact R. }
  refine (@collect_pieces _ _ _ _ _ _ _ _ umax cc _ x ao bnd F view _ Rc (titer_contract KC XC) (one_chunk few) _ _ _ _ _ _ src ND H_new HB _ _ _ _ _ _ _ E).
  - intros s0 v s' H. apply one_peek. exact H.
  - intros s0 v s' H. apply one_next. exact H.
  - intros s0 b v s' b' H E0. exact (proj1 (@one_next_accum _ _ _ _ _ k x (fun _ => 0%Z) few few_first _ _ _ _ _ H E0)).
  - intros s0 b t s' b' H E0. destruct (@one_accum_done _ _ _ _ _ k x (fun _ => 0%Z) few few_first few_none _ _ _ _ _ H E0) as (? & ? & _). auto.
  - exact EM.
  - intros. eapply shaped_concat; eauto.
  - exists [], src. split; [reflexivity|]. cbn. auto.
Qed.
End Shaped.

Section Chars.
Context {TT A W : Type} (x : text_ops TT posstrish A) (F : Prop) (view : A -> W) (XC : text_contract F view x posstrish_any).
Context (SH : shaped posstrish_ops x) (FR : forall c, tx_chunks x (tx_from x c) = seq_of [c]).
Context (EM : exists cs, tx_chunks x (tx_empty x) = seq_of cs /\ length cs <= 1 /\ Forall (fun c => posstrish_any c []) cs).
Context {ET CE : Type} (umax : N) (cc : classifier) (ao : alloc_ops A TT ET) (bnd : bindings A TT ET charpos CE).
Context (H_new : forall d a d' a', a_new_datum ao d a = (Ok d', a') -> d' = d).
Lemma chariter_pieces input a fuel n ds more st' : NoDup (enumerate 0 input) ->
  keeps_texts (fun t => exists ls, chunks_are_pieces x posstrish_any (enumerate 0 input) t ls) bnd ->
  iter_collect umax cc (chariter_stream x) (text_concat_ops x) ao bnd n fuel (parse_iter_new (chariter_new input) a)
    = (Ok (map inl ds ++ more), st') ->
  Forall (fun d => Forall (fun t => exists ls, chunks_are_pieces x posstrish_any (enumerate 0 input) t ls) (texts_in d)) ds.
Proof.
  intros ND HB E.
  assert (SC : stream_contract F view (chariter_stream x) (chariter_rep input) (text_items x posstrish_any)).
  { apply chariter_contract; [exact XC|]. intros. exact I. }
  refine (@collect_pieces _ _ _ _ _ _ _ _ umax cc _ x ao bnd F view _ posstrish_any SC (fun _ => True) _ _ _ _ EM _ _ ND H_new HB _ _ _ _ _ _ _ E).
  - auto.
  - auto.
  - auto.
  - intros s b t s' b' _ E0. cbn in E0. unfold chariter_accum_done in E0. injection E0 as <- _ _. split; [exact I|].
    eexists [_]. split; [apply FR|cbn; lia].
  - intros. eapply (shaped_concat posstrish_any_contract SH); eauto.
  - exists [], (enumerate 0 input). split; [reflexivity|]. split; [apply chariter_new_rep|exact I].
Qed.
End Chars.

Lemma str_source_nodup s : NoDup (str_source s).
Proof.
  apply (NoDup_map_inv (fun i => sp_char (it_pos i))). unfold str_source. rewrite map_map. cbn.
  apply FinFun.Injective_map_NoDup; [|apply seq_NoDup]. intros a b E. lia.
Qed.
Lemma char_source_nodup s : NoDup (char_source s).
Proof.
  apply (NoDup_map_inv it_pos). unfold char_source. rewrite map_map. cbn.
  apply FinFun.Injective_map_NoDup; [|apply seq_NoDup]. intros a b E. lia.
Qed.
Lemma upto_err_prefix {TT ET Pos CE} : forall (l : list (datum TT ET + error Pos CE)) ds more, upto_err l = map inl ds ++ more -> exists rest, l = map inl ds ++ rest.
Proof.
  intros l ds. revert l. induction ds as [|d ds IH]; intros l more H; [exists l; reflexivity|].
  destruct l as [|[d'|e] l]; cbn in H; try discriminate. injection H as -> H. destruct (IH _ _ H) as [rest ->]. exists rest. reflexivity.
Qed.

Local Notation N_len r := (N.of_nat (length r)).
Lemma skipn_add {X} a : forall b (l : list X), skipn a (skipn b l) = skipn (b + a) l.
Proof. induction b as [|b IH]; intros l; [reflexivity|]. destruct l; cbn; [apply skipn_nil|apply IH]. Qed.
Lemma str_part src pre v post : src = pre ++ v ++ post -> part_of (str_source src) (str_items src pre v).
Proof.
  intros E. exists (str_items src [] pre), (str_items src (pre ++ v) post). rewrite str_source_eq.
  rewrite E at 2. rewrite str_items_app, str_items_app. reflexivity.
Qed.
Lemma good_slices_of input : forall cs ls, Forall2 (posstr_rep input) cs ls -> Forall (fun l => l <> []) ls ->
  pieces (str_source input) ls -> exists rs, cs = map (slice_at input) rs /\ good_slices input rs.
Proof.
  intros cs ls H Ne [_ P].
  assert (G : exists rs, cs = map (slice_at input) rs /\ Forall (fun r => fst r < snd r <= length input) rs /\
    ls = map (fun r => str_items input (firstn (fst r) input) (firstn (snd r - fst r) (skipn (fst r) input))) rs).
  { clear P. induction H as [|c l cs ls Hc _ IH]; [exists []; auto|]. inversion Ne as [|? ? Ne1 Ne2]; subst.
    destruct (IH Ne2) as (rs & -> & R1 & ->). destruct Hc as [[_ ->]|(pre & v & post & E & -> & ->)]; [congruence|].
    assert (F1 : firstn (length pre) input = pre) by (rewrite E, firstn_app, firstn_all, Nat.sub_diag, app_nil_r; reflexivity).
    assert (F2 : firstn (length pre + length v - length pre) (skipn (length pre) input) = v).
    { rewrite E, skipn_app, skipn_all, Nat.sub_diag. cbn [skipn app]. replace (length pre + length v - length pre) with (length v) by lia.
      rewrite firstn_app, firstn_all, Nat.sub_diag, app_nil_r. reflexivity. }
    exists ((length pre, length pre + length v) :: rs). cbn [map fst snd slice_at]. rewrite F1, F2. split; [reflexivity|]. split; [|reflexivity].
    constructor; [|exact R1]. cbn. rewrite E, !app_length. destruct v; [cbn in Ne1; congruence|cbn; lia]. }
  destruct G as (rs & -> & R1 & ->). exists rs. split; [reflexivity|]. split; [exact R1|].
  intros a [i1 j1] [i2 j2] b -> E. cbn in E. subst i2. rewrite map_app in P. apply (P _ _ _ _ eq_refl). cbn [fst snd].
  apply Forall_app in R1. destruct R1 as [_ R1]. inversion R1 as [|? ? K1 R2]; inversion R2 as [|? ? K2 _]; subst. cbn in K1, K2.
  assert (X : firstn j1 input = firstn i1 input ++ firstn (j1 - i1) (skipn i1 input)).
  { rewrite <- (firstn_skipn i1 (firstn j1 input)), firstn_firstn, firstn_skipn_comm. replace (Init.Nat.min i1 j1) with i1 by lia.
    replace (i1 + (j1 - i1)) with j1 by lia. reflexivity. }
  rewrite X, <- str_items_app. apply str_part with (post := skipn j2 input). rewrite <- app_assoc, app_assoc, <- X.
  rewrite <- (firstn_skipn j1 input) at 1. f_equal. rewrite <- (firstn_skipn (j2 - j1) (skipn j1 input)) at 1. f_equal.
  rewrite skipn_add. f_equal. lia.
Qed.
