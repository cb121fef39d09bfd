(** [ManyPieces] for any calls, also after errors. *)
From Coq Require Import List Arith NArith Bool Lia.
From Verif.Model Require Import Prelude Parser Iter Chunk.
From Verif.Spec Require Import Contract ChunkContract Run TextWork Pieces.
From Verif.Proofs Require Import Wp Safety FuelMono Amortize TextFacts PiecesFacts ManyPieces.
Import ListNotations.
Set Implicit Arguments.
Local Notation N_len r := (N.of_nat (length r)).

Section Calls.
Context {S A TT C ET Pos CE W : Type} (umax : N) (cc : classifier) (so : stream_ops S A TT Pos) (x : text_ops TT C A)
        (ao : alloc_ops A TT ET) (bnd : bindings A TT ET Pos CE).
Local Notation co := (text_concat_ops x).
Local Notation text := (list (item Pos)).
Context (F : Prop) (view : A -> W) (Rs : S -> text -> text -> Prop) (Rc : C -> text -> Prop) (srcs : list text).
Context (SC : stream_contract F view so Rs (pieced x Rc srcs)) (XC : text_contract F view x Rc) (AC : alloc_contract F view ao).
Context (EM : empty_few x Rc) (JO : joins x Rc) (ND : NoDup (List.concat srcs)).
Context (H_bnd : keeps_texts (many_good x Rc srcs) bnd).
Context (Hu : (N_len (List.concat srcs) <= umax)%N).

Lemma loose_contract : stream_contract F view so Rs (text_items x Rc).
Proof.
  split; [exact (sc_peek SC)|exact (sc_next SC)|exact (sc_next_accum SC)|].
  intros s a rest pend H. destruct (sc_accum_done SC s a _ _ H) as [(s' & a' & t & E & V & (cs & ls & K1 & K2 & _ & ->) & H')|K]; [left|right; exact K].
  exists s', a', t. repeat split; auto. exists cs, ls. auto.
Qed.
Lemma alloc_same d a d' a' : a_new_datum ao d a = (Ok d', a') -> d' = d.
Proof. intros K. destruct (AC d a) as [(b2 & K2 & _)|(_ & b2 & K2 & _)]; rewrite K in K2; [injection K2 as -> _; reflexivity|discriminate]. Qed.

(** Between calls: nothing is accumulated, or all was read. *)
Definition settled (s : S) : Prop := many_started Rs srcs s \/ exists pend, Rs s [] pend.
Definition item_good (o : option (datum TT ET + error Pos CE)) : Prop :=
  match o with Some (inl d) => dok (many_good x Rc srcs) d | _ => True end.

Lemma call_started fuel st o st' : ps_depth st = 0%N -> many_started Rs srcs (ps_strm st) ->
  iter_next umax cc so co ao bnd fuel st = (Ok o, st') ->
  item_good o /\ ps_depth st' = 0%N /\ settled (ps_strm st') /\ (match o with Some (inr _) => True | _ => many_started Rs srcs (ps_strm st') end).
Proof.
  intros D (pre & r & Er & HR) E. set (big := Nat.max fuel (3 * length r + 3)).
  assert (E' : iter_next umax cc so co ao bnd big st = (Ok o, st')).
  { rewrite <- E. apply iter_next_fuel; [unfold big; lia|]. rewrite E. discriminate. }
  assert (Hr : (N_len r <= umax)%N) by (rewrite Er, app_length in Hu; cbn [app] in Hu; lia).
  assert (Hbig : 3 * length r + 3 <= big) by (unfold big; lia).
  assert (K : wp (do_next umax cc so co ao bnd big) (next_post (CE:=CE) cc Rs Base r 0%N) st) by (eapply do_next_safe; [exact loose_contract|exact (xc_concat XC)|exact AC|exact Hbig|exact D|exact Hr|exact HR]).
  unfold wp in K.
  assert (OKC : (match o with Some (inr _) => False | _ => True end) -> item_good o /\ many_started Rs srcs (ps_strm st')).
  { intros Q. assert (N : nexts umax cc so co ao bnd st [o] st') by (econstructor; [exact E|constructor]).
    destruct o as [[d|e]|]; [|destruct Q|].
    - assert (M0 : many_started Rs srcs (ps_strm st)) by (exists pre, r; auto).
      destruct (many_nexts SC EM JO ND alloc_same H_bnd [Some d] M0 N) as [G M]. inversion G. auto.
    - assert (M0 : many_started Rs srcs (ps_strm st)) by (exists pre, r; auto).
      destruct (many_nexts SC EM JO ND alloc_same H_bnd [None] M0 N) as [G M]. split; [exact I|exact M]. }
  unfold iter_next in E'. destruct (do_next umax cc so co ao bnd big st) as [[[d|]|e| |] s1]; try discriminate; injection E' as <- <-; cbn [fst snd] in K.
  - destruct OKC as [G M]; [exact I|]. destruct K as [D' _]. split; [exact G|]. split; [exact D'|]. split; [left|]; exact M.
  - destruct OKC as [G M]; [exact I|]. destruct K as [D' _]. split; [exact G|]. split; [exact D'|]. split; [left|]; exact M.
  - destruct K as (D' & r' & p' & HR' & (u & Eu) & P & _). split; [exact I|]. split; [exact D'|]. split; [|exact I].
    destruct P as [-> | ->]; [left|right; eauto]. exists (pre ++ u), r'. cbn [app] in *. split; [|exact HR']. rewrite Er, Eu, app_assoc. reflexivity.
Qed.
Lemma call_ended fuel st o st' pend : ps_depth st = 0%N -> Rs (ps_strm st) [] pend ->
  iter_next umax cc so co ao bnd fuel st = (Ok o, st') -> o = None /\ ps_depth st' = 0%N /\ Rs (ps_strm st') [] pend.
Proof.
  intros D HR E. unfold iter_next, do_next in E. destruct fuel as [|f]; [discriminate|].
  cbn [parse_next is_operator_mode] in E. unfold bind at 1, ret at 1 in E. unfold bind at 1, peek in E.
  destruct (sc_peek SC _ _ _ HR) as (s' & Es & HR'). rewrite Es in E. cbn [hd_error] in E. unfold bind, get_depth in E. cbn [ps_depth] in E.
  rewrite D in E. cbn in E. injection E as <- <-. auto.
Qed.
Lemma many_calls st os st' : nexts umax cc so co ao bnd st os st' -> ps_depth st = 0%N -> settled (ps_strm st) ->
  Forall item_good os /\ ps_depth st' = 0%N /\ settled (ps_strm st').
Proof.
  induction 1 as [st|fuel st o st1 os st2 E _ IH]; intros D H; [auto|]. destruct H as [H|[pend H]].
  - destruct (call_started _ _ D H E) as (G & D' & H' & _). destruct (IH D' H') as (G2 & D2 & H2). auto.
  - destruct (call_ended _ _ D H E) as (-> & D' & H'). destruct (IH D') as (G2 & D2 & H2); [right; eauto|].
    split; [constructor; [exact I|exact G2]|auto].
Qed.
End Calls.
