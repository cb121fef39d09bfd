(** Forms of sources that go on without end. *)
From Coq Require Import List NArith Bool Arith Lia.
From Verif.Model Require Import Prelude Parser Iter Utf8 Chunk PosStrish TextIter CharIter StrishIter UserIter.
From Verif.Spec Require Import Contract AbsStream Grammar Run Lawful Outcome ReadAhead UserIter.
From Verif.Proofs Require Import Sim Refine GrammarFacts AbsParse ClassifierFacts PrefixFacts NextFacts FormRuns TextFacts ChunkFacts
  ReadAheadFacts ReadAheadForms Depth.
Import ListNotations.
Set Implicit Arguments.
Local Notation N_len r := (N.of_nat (length r)).
Local Notation oks ds := (map (fun d => Some (inl d)) ds).

Section Abstract.
Context {W ET Pos CE : Type} (umax : N) (cc : classifier) (bnd : bindings W (list (item Pos)) ET Pos CE) (DC : disjoint_classes cc).
Local Notation anexts := (nexts umax cc (@abs_stream W Pos) abs_concat abs_alloc bnd).
Lemma forms_nest_nexts w u ds w1 b s ad w2 r : (N_len (u ++ s) <= umax)%N -> forms cc bnd false false w u ds w1 b ->
  nest cc bnd w1 s (inl (Some ad)) w2 -> anexts (ast (u ++ s ++ r) [] 0 w) (oks (ds ++ [ad])) (ast r [] 0 w2).
Proof.
  intros Hu Hf Hn. rewrite app_length in Hu. destruct (nest_cons Hn) as (z & s0 & Es & Hz).
  destruct (forms_prefix (umax:=umax) DC Hf 0%N (s ++ r)) as (_ & _ & G).
  - lia.
  - intros _. subst s. apply (starts_stop DC). exact Hz.
  - rewrite map_app. apply G; [reflexivity|]. apply (nest_nexts (umax:=umax) DC r (s:=s) (o:=inl (Some ad))); [lia|exact Hn].
Qed.
End Abstract.

Section Lawful.
Context {S A TT ET Pos CE W AE AC : Type}.
Context (umax : N) (cc : classifier) (so : stream_ops S A TT Pos) (co : concat_ops A TT)
        (ao : alloc_ops A TT ET) (bnd : bindings A TT ET Pos CE).
Local Notation text := (list (item Pos)).
Context (view : A -> W) (abnd : bindings W text AE Pos AC).
Context (Rs : S -> text -> text -> Prop) (Rt : TT -> text -> Prop)
        (Rx : ET -> AE -> Prop) (Rc : CE -> AC -> Prop).
Context (LW : lawful False view so co ao bnd abnd Rs Rt Rx Rc) (DC : disjoint_classes cc).
Lemma options_datums ads : forall os, Forall2 (option_rel (pitem_rel Rt Rx (@eq Pos) Rc)) os (oks ads) ->
  exists ds, os = oks ds /\ Forall2 (datum_rel Rt Rx) ds ads.
Proof.
  induction ads as [|d ds IH]; cbn; intros aos H.
  - inversion H; subst. exists []. auto.
  - inversion H as [|o ? os ? Ho Hos]; subst. destruct o as [[ad|e]|]; cbn in Ho; try contradiction.
    destruct (IH _ Hos) as (ads & -> & Hd). exists (ad :: ads). auto.
Qed.
Lemma forms_nest_run st w u ads w1 b s ad w2 rest : starts_on Rs view st (u ++ s ++ rest) w -> (N_len (u ++ s) <= umax)%N ->
  forms cc abnd false false w u ads w1 b -> nest cc abnd w1 s (inl (Some ad)) w2 ->
  exists ds st', nexts umax cc so co ao bnd st (oks ds) st' /\ Forall2 (datum_rel Rt Rx) ds (ads ++ [ad]) /\ starts_on Rs view st' rest w2.
Proof.
  intros H Hl Hf Hn. apply strel_starts in H.
  destruct (nexts_concrete LW (forms_nest_nexts DC rest Hl Hf Hn) H) as (os & st' & E & Ho & Hs).
  destruct (options_datums _ Ho) as (ds & -> & Hd). exists ds, st'. rewrite <- strel_starts. auto.
Qed.
End Lawful.

(** The end of iteration: the last call to the stream was a [peek] that returned
    [None]. *)
Section Ended.
Context {S A TT ET Pos CE : Type}.
Context (umax : N) (cc : classifier) (so : stream_ops S A TT Pos) (co : concat_ops A TT)
        (ao : alloc_ops A TT ET) (bnd : bindings A TT ET Pos CE).
Lemma base_step f st : parse_next umax cc so co ao bnd (Datatypes.S f) Base st =
  bind (peek so) (fun o => match o with
    | None => bind get_depth (fun d => if (d =? 0)%N then ret None else raise MissingEndChar)
    | Some it =>
        if is_nest_start cc (it_ch it) then
          bind (incr_depth umax) (fun _ => bind (finally (parse_nested umax cc so co ao bnd f) decr_depth) (fun r =>
            match r with None => parse_next umax cc so co ao bnd f Base | Some d => ret (Some d) end))
        else if is_nest_end cc (it_ch it) then bind get_depth (fun d => bind (check_end_char cc so d) (fun _ => ret None))
        else bind (parse_text umax cc so co f Base) (fun t => ret (Some (DText t)))
    end) st.
Proof. reflexivity. Qed.
Lemma next_none fuel : forall st st', ps_depth st = 0%N -> parse_next umax cc so co ao bnd fuel Base st = (Ok None, st') ->
  exists s, s_peek so s = (Ok None, ps_strm st').
Proof.
  induction fuel as [|f IH]; intros st st' D E; [discriminate|].
  rewrite base_step in E. unfold bind at 1, peek in E. destruct (s_peek so (ps_strm st)) as [[[it|]|e| |] s1] eqn:EP; cbn [no_err] in E; try discriminate.
  - destruct (is_nest_start cc (it_ch it)).
    + pose proof (kd_enter umax (proj1 (proj2 (kd_parse umax cc so co ao bnd f))) (PState s1 (ps_depth st) (ps_alloc st))) as K.
      unfold bind at 1 in E. unfold bind in K. destruct (incr_depth umax (PState s1 (ps_depth st) (ps_alloc st))) as [[[]|e| |] st1]; try discriminate.
      unfold bind in E. destruct (finally (parse_nested umax cc so co ao bnd f) decr_depth st1) as [[[d|]|e| |] st2]; try discriminate.
      cbn in K. apply (IH st2); [rewrite K; exact D|exact E].
    + destruct (is_nest_end cc (it_ch it)).
      * unfold bind at 1, get_depth in E. cbn [ps_depth] in E. rewrite D in E. unfold check_end_char in E. cbn [N.ltb N.compare] in E.
        exfalso. unfold bind in E. destruct (peek so (PState s1 0%N (ps_alloc st))) as [[o|e| |] st1]; try discriminate.
        destruct (assert _ st1) as [[[]|e| |] st2]; try discriminate. destruct (next so st2) as [[[n|]|e| |] st3]; discriminate.
      * exfalso. unfold bind in E. destruct (parse_text umax cc so co f Base _) as [[t|e| |] st1]; discriminate.
  - unfold bind, get_depth in E. cbn [ps_depth] in E. rewrite D in E. cbn in E. injection E as <-. eauto.
  - destruct e.
Qed.

Lemma nexts_depth st os st' : ps_depth st = 0%N -> nexts umax cc so co ao bnd st os st' -> ps_depth st' = 0%N.
Proof.
  intros D N. induction N as [|fuel st o st1 os st2 E _ IH]; [exact D|]. apply IH. unfold iter_next, do_next in E.
  pose proof (proj1 (kd_parse umax cc so co ao bnd fuel) Base st) as K.
  destruct (parse_next umax cc so co ao bnd fuel Base st) as [[[d|]|e| |] s']; cbn in K; inversion E; subst; congruence.
Qed.
Lemma nexts_end st os st' : ps_depth st = 0%N -> nexts umax cc so co ao bnd st (os ++ [None]) st' ->
  ps_depth st' = 0%N /\ exists s, s_peek so s = (Ok None, ps_strm st').
Proof.
  intros D N. split; [eapply nexts_depth; eauto|]. destruct (nexts_app_inv _ _ N) as (st1 & N1 & N2). pose proof (nexts_depth D N1) as D1.
  inversion N2 as [|fuel ? o st2 ? ? E N3]; subst. inversion N3; subst. unfold iter_next, do_next in E.
  destruct (parse_next umax cc so co ao bnd fuel Base st1) as [[[d|]|e| |] s'] eqn:EN; try discriminate. inversion E; subst. exact (next_none _ _ D1 EN).
Qed.
(** If [peek] then returns [None] again there is nothing more. *)
Lemma end_again st fuel : ps_depth st = 0%N -> s_peek so (ps_strm st) = (Ok None, ps_strm st) ->
  iter_next umax cc so co ao bnd (Datatypes.S fuel) st = (Ok None, st).
Proof.
  intros D E. unfold iter_next, do_next. rewrite base_step. unfold bind at 1, peek. rewrite E. cbn. destruct st as [s d a]. cbn in *. subst d. reflexivity.
Qed.
End Ended.
