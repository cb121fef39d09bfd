(** Texts in slots: [TextDatumList], and text iterators as sources. *)
From Coq Require Import List NArith Arith Bool Lia.
From Verif.Model Require Import Prelude Parser Chunk TextIter TextDatumList Alloc SlotHeap.
From Verif.Spec Require Import SlotHeap.
From Verif.Proofs Require Import SlotSim.
Import ListNotations.
Set Implicit Arguments.

Section Outcome.
Context {W T TT ET : Type}.
Local Notation A := (slots T ET W).
Local Notation B := (slice_state (datum TT ET) * W)%type.
Local Notation heap := (list (cell T ET)).

Lemma outcome_keep {E X Y} (Q : heap -> X -> Y -> list nat -> Prop) (a : A) f (r1 : res E X * A) (r2 : res E Y * B) fr (RR : heap -> Prop) :
  outcome a f Q r1 r2 -> owned a (f ++ fr) -> RR (mem a) -> local_at RR fr ->
  outcome a (f ++ fr) (fun h x y g => exists g', g = g' ++ fr /\ Q h x y g' /\ RR h) r1 r2.
Proof.
  intros H O R L. unfold outcome in *. destruct r1 as [v1 s1], r2 as [v2 s2]. destruct H as [H0 H]. split; [exact H0|].
  destruct v1, v2; try exact H.
  - destruct H as (fx & H2 & H3). exists (fx ++ fr). split; [|apply moves_frame; assumption].
    exists fx. split; [reflexivity|]. split; [exact H2|]. eapply L; [exact R|]. eapply moves_agree; [exact O|exact H3].
  - destruct H as (-> & H3). split; [reflexivity|]. eapply moves_fin; [exact H3|msub].
Qed.

Lemma outcome_imp {E X Y X' Y'} (Q : heap -> X -> Y -> list nat -> Prop) (Q' : heap -> X' -> Y' -> list nat -> Prop)
    (a : A) f f1 (r1 : res E X * A) (r2 : res E Y * B) (g1 : X -> X') (g2 : Y -> Y') :
  outcome a f Q r1 r2 -> msub f f1 -> (forall h x y g, Q h x y g -> exists g', msub g' g /\ Q' h (g1 x) (g2 y) g') ->
  outcome a f1 Q' (let (r, a') := r1 in (res_map g1 r, a')) (let (r, a') := r2 in (res_map g2 r, a')).
Proof.
  unfold outcome. destruct r1 as [v1 s1], r2 as [v2 s2]. intros [H0 H] M K. split; [exact H0|]. destruct v1, v2; cbn; try exact H.
  - destruct H as (fx & H2 & H3). destruct (K _ _ _ _ H2) as (g' & M' & H4). exists g'. split; [exact H4|].
    eapply moves_fin; [eapply moves_sub; eassumption|exact M].
  - destruct H as (-> & H3). split; [reflexivity|]. eapply moves_fin; eassumption.
Qed.
End Outcome.

(** ** [TextDatumList] *)
Section List.
Context {C CS Pos ET W : Type} (k : chunk_ops C CS Pos).
Local Notation T := (stdl C).
Local Notation TT := (tdl C ET).
Local Notation A := (slots T ET W).
Local Notation B := (slice_state (datum TT ET) * W)%type.
Local Notation heap := (list (cell T ET)).
Local Notation ao := (@slice_alloc W TT ET).

Lemma tdl_local : rt_local (@tdl_holds C ET).
Proof.
  intros h h' t u f H. induction H as [c|c i t u f Hi H IH]; intros G; [constructor|]. econstructor.
  - rewrite G; [exact Hi|cbn; auto].
  - apply IH. eapply agree_incl; [exact G|]. intros x Hx. cbn. auto.
Qed.

Lemma owned_length (a : A) f : owned a f -> brk a <= length (mem a) -> length f <= length (mem a).
Proof.
  intros [H1 H2] L. rewrite <- (seq_length (length (mem a)) 0). apply NoDup_incl_length; [exact H1|].
  intros i Hi. apply in_seq. specialize (H2 i Hi). lia.
Qed.

Lemma s_is_empty_eq (h : heap) t u f : tdl_holds h t u f -> forall fuel, length f < fuel ->
  s_is_empty k fuel h t = tdl_is_empty k u.
Proof.
  unfold tdl_is_empty. intros H. induction H as [c|c i t u f Hi H IH]; intros [|fuel] L; cbn [length] in L; try lia.
  - cbn. destruct (c_is_empty k c) as [[]| | |]; reflexivity.
  - cbn [s_is_empty tdl_chunks all_empty]. rewrite Hi, IH by lia. reflexivity.
Qed.

Lemma s_link_slot_eq : forall fuel (a : A) (b : B) i t u f other uo fo, same_room a b -> owned a ((i :: f) ++ fo) ->
  nth_error (mem a) i = Some (CText t) -> tdl_holds (mem a) t u f -> tdl_holds (mem a) other uo fo -> length f < fuel ->
  outcome a ((i :: f) ++ fo)
    (fun h _ u' g => exists t' f', nth_error h i = Some (CText t') /\ tdl_holds h t' u' f' /\ g = i :: f')
    (s_link_slot fuel i other a) (tdl_link ao u uo b).
Proof.
  induction fuel as [|fuel IH]; intros a b i t u f other uo fo R O Hi H Ho L; [lia|]. cbn [s_link_slot].
  change (sl_mem (fst a)) with (mem a). rewrite Hi. inversion H as [c|c j t' u' f' Hj H']; subst.
  - cbn [tdl_link]. assert (Oo : owned a fo) by (eapply owned_sub; [|exact O]; msub).
    destruct (new_slot (CText other) (DText uo) R) as [(a1 & b1 & E1 & E2 & R' & Hn & Hlt & Hm)|(e & a1 & b1 & E1 & E2 & R' & Hm)];
      unfold slice_alloc; cbn [a_new_datum]; rewrite E1, E2; cbn [res_map].
    + pose proof (Hm _ O) as M1. assert (O1 : owned (a1, snd a) (brk a :: [i] ++ fo)) by (eapply moves_owned; [exact O|exact M1]).
      assert (Ni : brk a <> i). { destruct O as [_ O]. specialize (O i ltac:(cbn; auto)). lia. }
      split; [exact (write_room i (CText (STDL c (Some (brk a)))) R')|]. exists (i :: brk a :: fo). split.
      * exists (STDL c (Some (brk a))), (brk a :: fo). split; [|split; [|reflexivity]].
        -- apply (@set_slot_same (cell T ET)). destruct R' as (_ & _ & _ & Hb). destruct O1 as [_ O1].
           specialize (O1 i ltac:(cbn; auto)). change (sl_mem a1) with (mem (a1, snd a)). lia.
        -- econstructor.
           ++ unfold mem. cbn [fst sl_mem]. rewrite set_slot_other by congruence. exact Hn.
           ++ eapply tdl_local; [exact Ho|]. intros j Hj. unfold mem. cbn [fst sl_mem]. rewrite set_slot_other.
              ** eapply moves_agree with (f:=[]) (fr:=fo) (a1:=(a1, snd a)); [exact Oo|apply Hm; split; [constructor|intros ? []]|exact Hj].
              ** intros <-. apply (owned_app ([i]) fo) in O as (O & _). apply (O i Hj). cbn. auto.
      * eapply moves_trans; [exact M1|]. eapply moves_sub with (f1:=brk a :: [i] ++ fo); [|msub].
        apply (@write_slot W T ET (a1, snd a) i); [cbn; auto|exact O1].
    + split; [exact R'|]. split; [reflexivity|]. eapply moves_sub; [apply Hm; exact O|msub].
  - cbn [tdl_link]. cbn [length] in L.
    assert (O' : owned a (((j :: f') ++ fo) ++ [i])) by (eapply owned_sub; [|exact O]; msub).
    assert (G : outcome a ((j :: f') ++ fo)
      (fun h _ u' g => exists t' f', nth_error h j = Some (CText t') /\ tdl_holds h t' u' f' /\ g = j :: f')
      (s_link_slot fuel j other a) (tdl_link ao u' uo b)).
    { eapply IH with (t:=t'); try eassumption; [|lia]. eapply owned_sub; [|exact O]; msub. }
    apply (@outcome_keep _ _ _ _ _ _ _ _ _ _ _ _ [i] (fun h : heap => nth_error h i = Some (CText (STDL c (Some j))))) in G;
      [|exact O'|exact Hi|apply slot_local].
    apply (outcome_imp _ (fun h (_ : unit) u' g => exists t' f', nth_error h i = Some (CText t') /\ tdl_holds h t' u' f' /\ g = i :: f') a (f1:=(i :: j :: f') ++ fo) _ _ (fun x => x) (fun t'' => TDL c (Some (DText t'')))) in G.
    + destruct (s_link_slot fuel j other a) as [v1 s1], (tdl_link ao u' uo b) as [v2 s2]. destruct v1; exact G.
    + msub.
    + intros h _ y g (g' & -> & (t2 & f2 & E2 & H2 & ->) & E1). exists (i :: j :: f2). split; [msub|].
      exists (STDL c (Some j)), (j :: f2). split; [exact E1|]. split; [econstructor; eassumption|reflexivity].
Qed.

Lemma stdl_concat_slots : concat_slots (@tdl_holds C ET) (text_concat_ops (stdl_ops (ET:=ET) (W:=W) k)) (text_concat_ops (tdl_ops k ao)).
Proof.
  split.
  - exact tdl_local.
  - intros h. constructor.
  - intros a b t1 u1 f1 t2 u2 f2 R O H1 H2. cbn [t_concat text_concat_ops tx_concat stdl_ops tdl_ops].
    unfold s_concat, tdl_concat. change (sl_mem (fst a)) with (mem a).
    pose proof (owned_length O ltac:(apply R)) as L. rewrite app_length in L.
    rewrite (s_is_empty_eq H1), (s_is_empty_eq H2) by lia.
    destruct (tdl_is_empty k u1) as [[]|[]| |].
    + split; [exact R|]. exists f2. split; [exact H2|]. eapply moves_sub; [apply moves_refl; exact O|msub].
    + destruct (tdl_is_empty k u2) as [[]|[]| |].
      * split; [exact R|]. exists f1. split; [exact H1|]. eapply moves_sub; [apply moves_refl; exact O|msub].
      * inversion H1 as [c|c i t u f Hi H]; subst; cbn [s_link tdl_link].
        -- cbn [app] in *.
           destruct (new_slot (CText t2) (DText u2) R) as [(a1 & b1 & E1 & E2 & R' & Hn & Hlt & Hm)|(e & a1 & b1 & E1 & E2 & R' & Hm)];
             unfold slice_alloc; cbn [a_new_datum]; rewrite E1, E2; cbn [res_map].
           ++ split; [exact R'|]. exists (brk a :: f2). split; [|apply Hm; exact O]. econstructor; [exact Hn|].
              eapply tdl_local; [exact H2|]. eapply moves_agree with (f:=[]) (fr:=f2) (a1:=(a1, snd a)); [exact O|apply Hm; split; [constructor|intros ? []]].
           ++ split; [exact R'|]. split; [reflexivity|]. eapply moves_sub; [apply Hm; exact O|msub].
        -- change (sl_mem (fst a)) with (mem a).
           pose proof (@s_link_slot_eq (length (mem a)) a b i t u f t2 u2 f2 R O Hi H H2 ltac:(cbn in L; lia)) as G.
           apply (outcome_imp _ (@tdl_holds C ET) a (f1:=(i :: f) ++ f2) _ _ (fun _ => STDL c (Some i)) (fun t'' => TDL c (Some (DText t'')))) in G.
           ++ exact G.
           ++ msub.
           ++ intros h _ y g (t' & f' & E & Hh & ->). exists (i :: f'). split; [msub|]. econstructor; eassumption.
      * split; [exact R|exact I].
      * split; [exact R|exact I].
    + split; [exact R|exact I].
    + split; [exact R|exact I].
Qed.
End List.

(** ** Text iterators *)
Section Iter.
Context {C CS Pos ET W T TT : Type} (k : chunk_ops C CS Pos).
Local Notation A := (slots T ET W).
Local Notation B := (slice_state (datum TT ET) * W)%type.
Local Notation heap := (list (cell T ET)).
Context (x1 : text_ops T C A) (x2 : text_ops TT C B) (rt : heap -> T -> TT -> list nat -> Prop).
Hypothesis HX : concat_slots rt (text_concat_ops x1) (text_concat_ops x2).
Hypothesis HF : forall h c, rt h (tx_from x1 c) (tx_from x2 c) [].
Local Notation I1 := (@titer T C CS Pos).
Local Notation I2 := (@titer TT C CS Pos).

Definition opt_rt (h : heap) (o : option T) (o' : option TT) (f : list nat) : Prop :=
  match o, o' with Some t, Some u => rt h t u f | None, None => f = [] | _, _ => False end.
Definition iter_rs (h : heap) (s1 : I1) (s2 : I2) (f : list nat) : Prop :=
  ti_cur s1 = ti_cur s2 /\ ti_next s1 = ti_next s2 /\ ti_peeked s1 = ti_peeked s2 /\ opt_rt h (ti_accum s1) (ti_accum s2) f.

Lemma moves_drop (a : A) f : owned a f -> moves a a f ([] ++ []).
Proof. intros O. eapply moves_sub; [apply moves_refl; exact O|msub]. Qed.
Lemma moves_same (a : A) f : owned a f -> moves a a f (f ++ []).
Proof. intros O. rewrite app_nil_r. apply moves_refl; exact O. Qed.

Lemma opt_rt_local h h' o o' f : opt_rt h o o' f -> agree h h' f -> opt_rt h' o o' f.
Proof. destruct o, o'; cbn; auto. intros H G. eapply (cs_local HX); eassumption. Qed.

Lemma accum_chunk_eq (a : A) (b : B) o1 o2 f cs : same_room a b -> owned a f -> opt_rt (mem a) o1 o2 f ->
  fst (snd (accum_chunk k x2 o2 cs b)) = fst (snd (accum_chunk k x1 o1 cs a)) /\
  outcome a f rt (fst (accum_chunk k x1 o1 cs a), snd (snd (accum_chunk k x1 o1 cs a)))
                 (fst (accum_chunk k x2 o2 cs b), snd (snd (accum_chunk k x2 o2 cs b))).
Proof.
  intros R O H. unfold accum_chunk. destruct (cs_accum_done k cs) as [[c|[]| |] cs'].
  - assert (G : outcome a (f ++ []) rt
      (tx_concat x1 (match o1 with Some t => t | None => tx_empty x1 end) (tx_from x1 c) a)
      (tx_concat x2 (match o2 with Some t => t | None => tx_empty x2 end) (tx_from x2 c) b)).
    { apply (@cs_concat _ _ _ _ _ _ _ HX a b); try assumption.
      - rewrite app_nil_r. exact O.
      - destruct o1, o2; cbn in H; try contradiction; [exact H|]. subst f. apply (cs_nil HX).
      - apply HF. }
    rewrite app_nil_r in G.
    destruct (tx_concat x1 _ _ a) as [r1 a'], (tx_concat x2 _ _ b) as [r2 b']. cbn. split; [reflexivity|exact G].
  - cbn. auto.
  - cbn. auto.
Qed.

Lemma next_accum_loop_eq : forall nexts cs (a : A) (b : B) o1 o2 f, same_room a b -> owned a f -> opt_rt (mem a) o1 o2 f ->
  s_outcome iter_rs a f same (titer_next_accum_loop k x1 nexts cs o1 a) (titer_next_accum_loop k x2 nexts cs o2 b).
Proof.
  induction nexts as [| |c rest IH]; intros cs a b o1 o2 f R O H; cbn [titer_next_accum_loop];
    (destruct (cs_next_accum k cs) as [[[it|]|[]| |] cs'];
     [split; [exact R|]; exists f, []; split; [repeat split; exact H|]; split; [split; reflexivity|]; apply moves_same; exact O| |split; [exact R|exact I]..]);
    (pose proof (@accum_chunk_eq a b o1 o2 f cs' R O H) as [Ec G];
     destruct (accum_chunk k x1 o1 cs' a) as [v1 [cs1 a1]], (accum_chunk k x2 o2 cs' b) as [v2 [cs2 b1]]; cbn in Ec; subst cs2; cbn in G;
     destruct G as [R' G]; destruct v1 as [t|e| |], v2 as [u|e'| |]; try contradiction).
  all: try (destruct G as (-> & G); split; [exact R'|]; split; [reflexivity|]; exists []; split; [repeat split|exact G]).
  all: try (split; [exact R'|exact I]).
  - destruct G as (fx & G1 & G2). split; [exact R'|]. exists fx, []. split; [repeat split; exact G1|]. split; [split; reflexivity|].
    rewrite app_nil_r. exact G2.
  - destruct G as (fx & G1 & G2). pose proof (moves_owned O G2) as O'.
    pose proof (IH (c_src_strm k c) a1 b1 (Some t) (Some u) fx R' O' G1) as K.
    unfold s_outcome in *. destruct (titer_next_accum_loop k x1 rest (c_src_strm k c) (Some t) a1) as [w1 [z1 y1]],
      (titer_next_accum_loop k x2 rest (c_src_strm k c) (Some u) b1) as [w2 [z2 y2]]. destruct K as [K0 K]. split; [exact K0|].
    destruct w1, w2; try exact K.
    + destruct K as (g1 & g2 & K1 & K2 & K3). exists g1, g2. eauto using moves_trans.
    + destruct K as (-> & g1 & K1 & K3). split; [reflexivity|]. exists g1. eauto using moves_trans.
Qed.

Lemma titer_slots : stream_slots rt iter_rs (titer_stream k x1) (titer_stream k x2).
Proof.
  split.
  - intros h h' s1 s2 f (E1 & E2 & E3 & H) G. repeat split; auto. eapply opt_rt_local; eassumption.
  - intros a b [c1 n1 o1 p1] [c2 n2 o2 p2] f R O (E1 & E2 & E3 & H). cbn in E1, E2, E3, H. subst c2 n2 p2.
    cbn [s_peek titer_stream]. unfold titer_peek. cbn [ti_peeked ti_cur ti_next ti_accum].
    destruct p1 as [it|]; [|destruct c1 as [cs|]].
    + split; [exact R|]. exists f, []. split; [repeat split; exact H|]. split; [split; reflexivity|]. apply moves_same. exact O.
    + destruct (cs_peek k cs) as [r cs']. cbn zeta. destruct (match r with Ok None => peek_ahead k n1 | _ => r end) as [o|[]| |].
      * split; [exact R|]. exists f, []. split; [repeat split; exact H|]. split; [split; reflexivity|]. apply moves_same. exact O.
      * split; [exact R|exact I].
      * split; [exact R|exact I].
    + split; [exact R|]. exists f, []. split; [repeat split; exact H|]. split; [split; reflexivity|]. apply moves_same. exact O.
  - intros a b [c1 n1 o1 p1] [c2 n2 o2 p2] f R O (E1 & E2 & E3 & H). cbn in E1, E2, E3, H. subst c2 n2 p2.
    cbn [s_next titer_stream]. unfold titer_next. cbn [ti_peeked ti_cur ti_next ti_accum].
    destruct c1 as [cs|].
    + destruct (titer_next_loop k n1 cs) as [r [cur nexts]]. destruct r as [o|[]| |].
      * split; [exact R|]. exists [], []. split; [repeat split|]. split; [split; reflexivity|]. apply moves_drop. exact O.
      * split; [exact R|exact I].
      * split; [exact R|exact I].
    + split; [exact R|]. exists [], []. split; [repeat split|]. split; [split; reflexivity|]. apply moves_drop. exact O.
  - intros a b [c1 n1 o1 p1] [c2 n2 o2 p2] f R O (E1 & E2 & E3 & H). cbn in E1, E2, E3, H. subst c2 n2 p2.
    cbn [s_next_accum titer_stream]. unfold titer_next_accum. cbn [ti_peeked ti_cur ti_next ti_accum].
    destruct c1 as [cs|]; [apply next_accum_loop_eq; assumption|].
    split; [exact R|]. exists f, []. split; [repeat split; exact H|]. split; [split; reflexivity|]. apply moves_same. exact O.
  - intros a b [c1 n1 o1 p1] [c2 n2 o2 p2] f R O (E1 & E2 & E3 & H). cbn in E1, E2, E3, H. subst c2 n2 p2.
    cbn [s_accum_done titer_stream]. unfold titer_accum_done. cbn [ti_peeked ti_cur ti_next ti_accum].
    destruct c1 as [cs|].
    + pose proof (@accum_chunk_eq a b o1 o2 f cs R O H) as [Ec G].
      destruct (accum_chunk k x1 o1 cs a) as [v1 [cs1 a1]], (accum_chunk k x2 o2 cs b) as [v2 [cs2 b1]]; cbn in Ec; subst cs2; cbn in G.
      destruct G as [R' G]. split; [exact R'|]. destruct v1 as [t|e| |], v2 as [u|e'| |]; try contradiction; try exact I.
      * destruct G as (fx & G1 & G2). exists [], fx. split; [repeat split|]. split; [exact G1|exact G2].
      * destruct G as (-> & G). split; [reflexivity|]. exists []. split; [repeat split|exact G].
    + split; [exact R|]. exists [], f. split; [repeat split|]. split; [|apply moves_refl; exact O].
      destruct o1, o2; cbn in H; try contradiction; [exact H|]. subst f. apply (cs_nil HX).
Qed.
End Iter.
