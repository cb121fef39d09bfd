(** C21-C23: comparing, hashing, concatenating and encoding texts. *)
From Coq Require Import List NArith Arith Bool Lia.
From Verif.Model Require Import Prelude Parser Utf8 Chunk TextIter PosStr PosStrish
  TextVec TextDatumList Alloc TextMethods Premade.
From Verif.Spec Require Import Contract ChunkContract Lex Run.
From Verif.Proofs Require Import ChunkFacts TextFacts MethodFacts Utf8Facts AllocFacts Instances RunFacts.
From Verif.Tests Require Import Str Cases.
Import ListNotations.
Local Notation chars := (map (@it_ch _)).

(** ** Any texts over any chunks, possibly of three different types *)
Section Three.
Context {T1 C1 S1 A1 P1 W1 T2 C2 S2 A2 P2 W2 T3 C3 S3 A3 P3 W3 : Type}.
Context (k1 : chunk_ops C1 S1 P1) (Rc1 : C1 -> list (item P1) -> Prop)
        (Rcs1 : S1 -> list (item P1) -> list (item P1) -> Prop) (KC1 : chunk_contract k1 Rc1 Rcs1)
        (F1 : Prop) (view1 : A1 -> W1) (x1 : text_ops T1 C1 A1) (XC1 : text_contract F1 view1 x1 Rc1).
Context (k2 : chunk_ops C2 S2 P2) (Rc2 : C2 -> list (item P2) -> Prop)
        (Rcs2 : S2 -> list (item P2) -> list (item P2) -> Prop) (KC2 : chunk_contract k2 Rc2 Rcs2)
        (F2 : Prop) (view2 : A2 -> W2) (x2 : text_ops T2 C2 A2) (XC2 : text_contract F2 view2 x2 Rc2).
Context (k3 : chunk_ops C3 S3 P3) (Rc3 : C3 -> list (item P3) -> Prop)
        (Rcs3 : S3 -> list (item P3) -> list (item P3) -> Prop) (KC3 : chunk_contract k3 Rc3 Rcs3)
        (F3 : Prop) (view3 : A3 -> W3) (x3 : text_ops T3 C3 A3) (XC3 : text_contract F3 view3 x3 Rc3).
Local Notation consists1 := (text_items x1 Rc1).
Local Notation consists2 := (text_items x2 Rc2).
Local Notation consists3 := (text_items x3 Rc3).
Local Notation eq12 := (text_eq k1 x1 k2 x2).
Local Notation cmp12 := (text_cmp k1 x1 k2 x2).
Local Notation cmp21 := (text_cmp k2 x2 k1 x1).
Local Notation cmp23 := (text_cmp k2 x2 k3 x3).
Local Notation cmp13 := (text_cmp k1 x1 k3 x3).

(** C21.  Texts are equal exactly if their characters are. *)
Theorem C21_eq n t1 t2 l1 l2 : consists1 t1 l1 -> consists2 t2 l2 -> length l1 < n ->
  (eq12 n t1 t2 = Ok true \/ eq12 n t1 t2 = Ok false) /\
  (eq12 n t1 t2 = Ok true <-> chars l1 = chars l2).
Proof.
  intros H1 H2 Hn. destruct (text_eq_spec KC1 XC1 KC2 XC2 H1 H2 Hn) as (b & -> & Hb).
  split; [destruct b; auto|]. rewrite <- Hb. split; intros E; [congruence|rewrite E; reflexivity].
Qed.

(** Their order is the lexicographic order of their characters. *)
Theorem C21_cmp n t1 t2 l1 l2 : consists1 t1 l1 -> consists2 t2 l2 -> length l1 < n ->
  (cmp12 n t1 t2 = Ok Eq <-> chars l1 = chars l2) /\
  (cmp12 n t1 t2 = Ok Lt <-> lex_lt (chars l1) (chars l2)) /\
  (cmp12 n t1 t2 = Ok Gt <-> lex_lt (chars l2) (chars l1)).
Proof.
  intros H1 H2 Hn. destruct (text_cmp_spec KC1 XC1 KC2 XC2 H1 H2 Hn) as (c & E & Hc).
  unfold MethodFacts.chars in Hc. rewrite E. clear E.
  assert (Irr := lex_lt_irrefl). assert (Tr := lex_lt_trans).
  destruct c; repeat split; intros G; try exact Hc; try reflexivity; try discriminate G; exfalso.
  - rewrite Hc in G. exact (Irr _ G).
  - rewrite Hc in G. exact (Irr _ G).
  - rewrite G in Hc. exact (Irr _ Hc).
  - exact (Irr _ (Tr _ _ _ Hc G)).
  - rewrite G in Hc. exact (Irr _ Hc).
  - exact (Irr _ (Tr _ _ _ Hc G)).
Qed.

(** It is total, antisymmetric, transitive and consistent with equality. *)
Theorem C21_total n t1 t2 l1 l2 : consists1 t1 l1 -> consists2 t2 l2 -> length l1 < n ->
  exists c, cmp12 n t1 t2 = Ok c.
Proof.
  intros H1 H2 Hn. destruct (text_cmp_spec KC1 XC1 KC2 XC2 H1 H2 Hn) as (c & E & _). eauto.
Qed.

Theorem C21_cmp_eq n t1 t2 l1 l2 : consists1 t1 l1 -> consists2 t2 l2 -> length l1 < n ->
  (cmp12 n t1 t2 = Ok Eq <-> eq12 n t1 t2 = Ok true).
Proof.
  intros H1 H2 Hn. rewrite (proj2 (C21_eq n _ _ _ _ H1 H2 Hn)). apply (C21_cmp n _ _ _ _ H1 H2 Hn).
Qed.

Theorem C21_order n t1 t2 t3 l1 l2 l3 : consists1 t1 l1 -> consists2 t2 l2 -> consists3 t3 l3 ->
  length l1 < n -> length l2 < n -> cmp12 n t1 t2 <> Ok Gt -> cmp23 n t2 t3 <> Ok Gt ->
  cmp13 n t1 t3 <> Ok Gt /\ (cmp13 n t1 t3 = Ok Eq -> cmp12 n t1 t2 = Ok Eq /\ cmp23 n t2 t3 = Ok Eq).
Proof.
  intros H1 H2 H3 Hn1 Hn2.
  destruct (text_cmp_spec KC1 XC1 KC2 XC2 H1 H2 Hn1) as (c12 & E12 & R12).
  destruct (text_cmp_spec KC2 XC2 KC3 XC3 H2 H3 Hn2) as (c23 & E23 & R23).
  destruct (text_cmp_spec KC1 XC1 KC3 XC3 H1 H3 Hn1) as (c13 & E13 & R13).
  rewrite E12, E23, E13. intros G1 G2. pose proof lex_lt_irrefl as Irr. pose proof lex_lt_trans as Tr.
  destruct c12; [| |congruence]; (destruct c23; [| |congruence]); destruct c13; split;
    try discriminate; auto; exfalso;
    repeat match goal with H : MethodFacts.chars _ = MethodFacts.chars _ |- _ => rewrite H in *; clear H end;
    repeat match goal with
      | H : lex_lt ?a ?a |- _ => exact (Irr _ H)
      | H : lex_lt ?a ?b, H' : lex_lt ?b ?c |- _ => pose proof (Tr _ _ _ H H'); clear H
      end.
Qed.
End Three.

Theorem C21_antisym {T1 C1 S1 A1 P1 W1 T2 C2 S2 A2 P2 W2}
    (k1 : chunk_ops C1 S1 P1) Rc1 Rcs1 (KC1 : chunk_contract k1 Rc1 Rcs1)
    (F1 : Prop) (view1 : A1 -> W1) (x1 : text_ops T1 C1 A1) (XC1 : text_contract F1 view1 x1 Rc1)
    (k2 : chunk_ops C2 S2 P2) Rc2 Rcs2 (KC2 : chunk_contract k2 Rc2 Rcs2)
    (F2 : Prop) (view2 : A2 -> W2) (x2 : text_ops T2 C2 A2) (XC2 : text_contract F2 view2 x2 Rc2)
    n t1 t2 l1 l2 c :
  text_items x1 Rc1 t1 l1 -> text_items x2 Rc2 t2 l2 -> length l1 < n -> length l2 < n ->
  text_cmp k1 x1 k2 x2 n t1 t2 = Ok c -> text_cmp k2 x2 k1 x1 n t2 t1 = Ok (CompOpp c).
Proof.
  intros H1 H2 Hn1 Hn2 E.
  destruct (C21_cmp k1 Rc1 Rcs1 KC1 F1 view1 x1 XC1 k2 Rc2 Rcs2 KC2 F2 view2 x2 XC2 n t1 t2 l1 l2 H1 H2 Hn1) as (A & B & C).
  destruct (C21_cmp k2 Rc2 Rcs2 KC2 F2 view2 x2 XC2 k1 Rc1 Rcs1 KC1 F1 view1 x1 XC1 n t2 t1 l2 l1 H2 H1 Hn2) as (A' & B' & C').
  destruct c; cbn [CompOpp].
  - apply A'. symmetry. apply A. exact E.
  - apply C'. apply B. exact E.
  - apply B'. apply C. exact E.
Qed.

(** Equal texts feed the same words to a hasher (and different texts
    different words, on their own). *)
Theorem C21_hash {T1 C1 S1 A1 P1 W1 T2 C2 S2 A2 P2 W2}
    (k1 : chunk_ops C1 S1 P1) Rc1 Rcs1 (KC1 : chunk_contract k1 Rc1 Rcs1)
    (F1 : Prop) (view1 : A1 -> W1) (x1 : text_ops T1 C1 A1) (XC1 : text_contract F1 view1 x1 Rc1)
    (k2 : chunk_ops C2 S2 P2) Rc2 Rcs2 (KC2 : chunk_contract k2 Rc2 Rcs2)
    (F2 : Prop) (view2 : A2 -> W2) (x2 : text_ops T2 C2 A2) (XC2 : text_contract F2 view2 x2 Rc2)
    n t1 t2 l1 l2 :
  text_items x1 Rc1 t1 l1 -> text_items x2 Rc2 t2 l2 -> length l1 < n -> length l2 < n ->
  exists h1 h2, text_hash k1 x1 n t1 = Ok h1 /\ text_hash k2 x2 n t2 = Ok h2 /\
    (text_eq k1 x1 k2 x2 n t1 t2 = Ok true <-> h1 = h2).
Proof.
  intros H1 H2 Hn1 Hn2. do 2 eexists. split; [apply (text_hash_spec KC1 XC1 H1 Hn1)|].
  split; [apply (text_hash_spec KC2 XC2 H2 Hn2)|].
  destruct (text_eq_spec KC1 XC1 KC2 XC2 H1 H2 Hn1) as (b & -> & Hb). split.
  - intros E. f_equal. apply Hb. congruence.
  - intros E. f_equal. apply Hb. revert E. generalize (MethodFacts.chars l1) (MethodFacts.chars l2).
    induction l as [|c l IH]; intros [|c' l'] E; cbn in E; try discriminate; [reflexivity|].
    injection E as -> E. f_equal. auto.
Qed.

(** ** Concatenation *)
Section Concat.
Context {C CS Pos : Type} (k : chunk_ops C CS Pos) (Rc : C -> list (item Pos) -> Prop)
        (Rcs : CS -> list (item Pos) -> list (item Pos) -> Prop) (KC : chunk_contract k Rc Rcs).

(** C22, any texts: if [concat] succeeds then iterating over the result gives
    the items of the first and then those of the second; if it does not then
    it reports exhausted memory, both texts are nonempty and allocations may
    fail. *)
Theorem C22_concat {TT A W} (F : Prop) (view : A -> W) (x : text_ops TT C A) (XC : text_contract F view x Rc)
    t1 t2 l1 l2 a : text_items x Rc t1 l1 -> text_items x Rc t2 l2 ->
  (exists t a', tx_concat x t1 t2 a = (Ok t, a') /\ view a' = view a /\ text_items x Rc t (l1 ++ l2) /\
     reads k x t (l1 ++ l2)) \/
  (F /\ exists a', tx_concat x t1 t2 a = (Err AllocExhausted, a') /\ view a' = view a /\ l1 <> [] /\ l2 <> []).
Proof.
  intros H1 H2. destruct (tc_concat (xc_concat XC) _ _ _ _ a H1 H2) as [(t & a' & E & Ev & Ht)|H]; [left|right; exact H].
  exists t, a'. repeat split; auto. apply (text_reads KC XC Ht).
Qed.

(** Vector texts: no failure and no effect. *)
Theorem C22_vector {A} t1 t2 l1 l2 (a : A) :
  text_items (tvec_ops (A:=A) k) Rc t1 l1 -> text_items (tvec_ops (A:=A) k) Rc t2 l2 ->
  exists t, tvec_concat k t1 t2 a = (Ok t, a) /\ text_items (tvec_ops (A:=A) k) Rc t (l1 ++ l2) /\
    tvec_is_empty k t = Ok (is_nil l1 && is_nil l2) /\
    (l1 = [] -> t = t2) /\ (l1 <> [] -> l2 = [] -> t = t1).
Proof.
  intros H1 H2. destruct (tvec_concat_spec KC a H1 H2) as (t & E & Ht). exists t. split; [exact E|].
  split; [exact Ht|]. split; [rewrite (tvec_is_empty_spec KC Ht), is_nil_app; reflexivity|].
  unfold tvec_concat in E.
  rewrite (tvec_is_empty_spec KC H1), (tvec_is_empty_spec KC H2) in E. cbn in E. split.
  - intros ->. cbn in E. congruence.
  - intros N ->. apply is_nil_false in N. rewrite N in E. cbn in E. congruence.
Qed.

(** Datum-list texts: with two nonempty texts exactly one datum is allocated,
    holding the second text, and the outcome is that of this allocation;
    otherwise nothing is allocated. *)
Theorem C22_datum_list {A ET W} (F : Prop) (view : A -> W) (ao : alloc_ops A (tdl C ET) ET)
    (AC : alloc_contract F view ao) t1 t2 l1 l2 a :
  text_items (tdl_ops k ao) Rc t1 l1 -> text_items (tdl_ops k ao) Rc t2 l2 ->
  (l1 = [] -> tdl_concat k ao t1 t2 a = (Ok t2, a)) /\
  (l1 <> [] -> l2 = [] -> tdl_concat k ao t1 t2 a = (Ok t1, a)) /\
  (l1 <> [] -> l2 <> [] -> forall r a', a_new_datum ao (DText t2) a = (r, a') ->
     (r = Err AllocExhausted /\ F /\ tdl_concat k ao t1 t2 a = (Err AllocExhausted, a')) \/
     (exists t, r = Ok (DText t2) /\ tdl_concat k ao t1 t2 a = (Ok t, a') /\
        text_items (tdl_ops k ao) Rc t (l1 ++ l2) /\ tdl_is_empty k t = Ok false)).
Proof.
  intros H1 H2. pose proof (tdl_concat_spec KC a H1 H2) as E. split; [|split].
  - intros ->. exact E.
  - intros N ->. apply is_nil_false in N. rewrite N in E. exact E.
  - intros N1 N2 r a' Ea. apply is_nil_false in N1. apply is_nil_false in N2. rewrite N1, N2, Ea in E.
    destruct (AC (DText t2) a) as [(a1 & Ea1 & _)|(HF & a1 & Ea1 & _)]; rewrite Ea in Ea1; injection Ea1 as -> ->.
    + right. destruct E as (t & E & Ht). exists t. split; [reflexivity|]. split; [exact E|].
      specialize (Ht eq_refl). split; [exact Ht|].
      rewrite (tdl_is_empty_spec KC Ht), is_nil_app, N1. reflexivity.
    + left. auto.
Qed.
End Concat.

(** ** Encoding *)

(** C23.  All that fits is written, and nothing else is changed.  The whole text
    is returned as [Ok] exactly if it fits; otherwise [Err] holds the longest
    part that does. *)
Theorem C23_encode {TT C CS A Pos W} (k : chunk_ops C CS Pos) Rc Rcs (KC : chunk_contract k Rc Rcs)
    (F : Prop) (view : A -> W) (x : text_ops TT C A) (XC : text_contract F view x Rc) n t l buf :
  text_items x Rc t l -> length l < n -> Forall (fun c => is_scalar c = true) (chars l) ->
  exists r buf', encode_utf8 k x n t buf = (Ok r, buf') /\
  exists u v len, chars l = u ++ v /\ fst r = (match v with [] => inl u | _ => inr u end) /\ snd r = len /\
    len = length (encode u) /\ firstn len buf' = encode u /\ skipn len buf' = skipn len buf /\
    length buf' = length buf /\ decode (firstn len buf') = Some u /\
    (v = [] <-> length (encode (chars l)) <= length buf) /\
    (forall u' v', chars l = u' ++ v' -> length (encode u') <= length buf <-> length u' <= length u).
Proof.
  intros H Hn Hs. destruct (encode_utf8_spec KC XC buf H Hn Hs) as (r & u & v & buf' & E & El & Hlen & Hfit & Hw & Hr & Hv).
  unfold MethodFacts.chars in El. exists (r, length (encode u)), buf'. split; [exact E|]. exists u, v, (length (encode u)).
  assert (Hmono : forall a b : list char, length (encode a) <= length (encode (a ++ b))).
  { intros a b. rewrite encode_app, app_length. lia. }
  repeat split; auto.
  - cbn. destruct v; [exact Hv|exact (proj1 Hv)].
  - rewrite Hw. apply decode_encode. rewrite El in Hs. apply Forall_app in Hs. apply Hs.
  - intros ->. rewrite El, app_nil_r. exact Hfit.
  - intros Hall. destruct v as [|c v]; [reflexivity|]. exfalso. destruct Hv as [_ Hv].
    rewrite El in Hall. change (c :: v) with ([c] ++ v) in Hall. rewrite app_assoc in Hall.
    pose proof (Hmono (u ++ [c]) v). lia.
  - intros Hu'. destruct (Nat.le_gt_cases (length u') (length u)) as [|G]; [assumption|exfalso].
    rewrite El in H0. destruct (app_eq_app _ _ _ _ H0) as (w & [[-> Ev]|[-> Ev]]); [rewrite app_length in G; lia|].
    destruct v as [|c v]; [symmetry in Ev; apply app_eq_nil in Ev; destruct Ev as [-> _]; rewrite app_nil_r in G; lia|].
    destruct w as [|c' w]; [rewrite app_nil_r in G; lia|]. injection Ev as <- _. destruct Hv as [_ Hv].
    change (c :: w) with ([c] ++ w) in Hu'. rewrite app_assoc in Hu'. pose proof (Hmono (u ++ [c]) w). lia.
  - intros Hu'. rewrite El in H0. destruct (app_eq_app _ _ _ _ H0) as (w & [[-> Ev]|[-> Ev]]).
    + pose proof (Hmono u' w). lia.
    + destruct w; [rewrite app_nil_r; exact Hfit|]. rewrite app_length in Hu'. cbn in Hu'. lia.
Qed.

(** C23.  What [str::from_utf8] is taken to accept, by which the bytes written
    become a [str]: exactly the bytes that [char::encode_utf8] writes for Unicode
    scalar values, and it gives back these. *)
Theorem C23_decode bs s :
  decode bs = Some s <-> Forall (fun c => is_scalar c = true) s /\ bs = encode s.
Proof.
  split; [apply decode_sound|]. intros [H ->]. apply decode_encode. exact H.
Qed.

Print Assumptions C21_eq.
Print Assumptions C21_cmp.
Print Assumptions C21_total.
Print Assumptions C21_cmp_eq.
Print Assumptions C21_order.
Print Assumptions C21_antisym.
Print Assumptions C21_hash.
Print Assumptions C22_concat.
Print Assumptions C22_vector.
Print Assumptions C22_datum_list.
Print Assumptions C23_encode.
Print Assumptions C23_decode.

(** ** Cases: "a€b" in three representations, cut differently; "a€c" *)
Local Notation im := (im_ops (W:=N)).
Local Notation st := (st_ops (W:=N)).
Local Notation nh := (nh_ops (W:=N) (ET:=N)).
Definition aeb : str := [97; 0x20AC; 98]%N.
Definition t_vec : im_text := Single (posstr_from aeb).
Definition t_strish : st_text :=
  Multi [posstrish_new [97%N] 5%N; posstrish_empty; PosStrish (RcSlice [120; 0x20AC; 98; 121]%N 1 5) 9%N].
Definition t_list : nh_text (ET:=N) :=
  TDL (PosStr [97%N] (StrPos aeb 0 0)) (Some (DText (TDL (PosStr [0x20AC; 98]%N (StrPos aeb 1 1)) None))).
Definition t_aec : im_text := Single (posstr_from [97; 0x20AC; 99]%N).

Lemma t_vec_consists : text_items im posstr_any t_vec (str_source aeb).
Proof. exists [posstr_from aeb], [str_source aeb]. split; [reflexivity|]. split; [|reflexivity].
  constructor; [apply posstr_from_any|constructor]. Qed.
Lemma t_aec_consists : text_items im posstr_any t_aec (str_source [97; 0x20AC; 99]%N).
Proof. eexists [_], [str_source [97; 0x20AC; 99]%N]. split; [reflexivity|]. split; [|reflexivity].
  constructor; [apply posstr_from_any|constructor]. Qed.
Lemma t_strish_consists : text_items st posstrish_any t_strish [Item 97%N 5%N; Item 0x20AC%N 9%N; Item 98%N 10%N].
Proof.
  eexists [_; _; _], [[Item 97%N 5%N]; []; [Item 0x20AC%N 9%N; Item 98%N 10%N]].
  split; [reflexivity|]. split; [|reflexivity]. repeat constructor.
  - exists [], [97%N], []. repeat split. right. exists 5%N. repeat split.
  - exists [], [], []. repeat split. left. reflexivity.
  - exists [120%N], [0x20AC; 98]%N, [121%N]. repeat split. right. exists 8%N. repeat split.
Qed.
Lemma t_list_consists : text_items nh posstr_any t_list (str_source aeb).
Proof.
  eexists [_; _], [[Item 97%N (StrPos aeb 0 0)]; [Item 0x20AC%N (StrPos aeb 1 1); Item 98%N (StrPos aeb 4 2)]].
  split; [reflexivity|]. split; [|reflexivity]. repeat constructor.
  - exists aeb. right. exists [], [97%N], [0x20AC; 98]%N. repeat split.
  - exists aeb. right. exists [97%N], [0x20AC; 98]%N, []. repeat split.
Qed.

Example C21_case :
  text_eq posstr_ops im posstrish_ops st 4 t_vec t_strish = Ok true /\
  text_eq posstrish_ops st posstr_ops nh 4 t_strish t_list = Ok true /\
  text_cmp posstr_ops nh posstr_ops im 4 t_list t_aec = Ok Lt /\
  text_cmp posstr_ops im posstr_ops nh 4 t_aec t_list = Ok Gt /\
  text_hash posstr_ops im 4 t_vec = Ok [HChar 97; HChar 0x20AC; HChar 98]%N /\
  text_hash posstrish_ops st 4 t_strish = Ok [HChar 97; HChar 0x20AC; HChar 98]%N.
Proof. vm_compute. repeat split. Qed.

Example C22_case :
  let slots (n : nat) : nh_alloc_state (W:=N) (ET:=N) := (slice_new (repeat DEmptyNest n), 0%N) in
  fst (tvec_concat posstr_ops t_vec t_aec tt) = Ok (Multi [posstr_from aeb; posstr_from [97; 0x20AC; 99]%N]) /\
  slice_unused (fst (snd (tx_concat nh t_list t_list (slots 2)))) = Some [DEmptyNest] /\
  tx_concat nh t_list t_list (slots 0) = (Err AllocExhausted, slots 0) /\
  tx_concat nh t_list (tx_empty nh) (slots 0) = (Ok t_list, slots 0).
Proof. vm_compute. repeat split. Qed.

Example C23_case :
  encode_utf8 posstr_ops nh 4 t_list (repeat 1%N 6) = (Ok (inl aeb, 5), [97; 0xE2; 0x82; 0xAC; 98; 1]%N) /\
  encode_utf8 posstr_ops nh 4 t_list (repeat 1%N 4) = (Ok (inr [97; 0x20AC]%N, 4), [97; 0xE2; 0x82; 0xAC]%N) /\
  encode_utf8 posstr_ops nh 4 t_list (repeat 1%N 3) = (Ok (inr [97]%N, 1), [97; 1; 1]%N).
Proof. vm_compute. repeat split. Qed.

(** The theorems apply to them. *)
Example C21_applies :
  text_eq posstrish_ops st posstr_ops nh 4 t_strish t_list = Ok true /\
  lex_lt aeb [97; 0x20AC; 99]%N.
Proof.
  pose proof posstr_any_contract as K. pose proof posstrish_any_contract as K'.
  pose proof (tvec_contract K False (fun w : N => w)) as X1.
  pose proof (tvec_contract K' False (fun w : N => w)) as X2.
  pose proof (tdl_contract K (@slice_alloc_contract N (nh_text (ET:=N)) N)) as X3.
  split.
  - apply (C21_eq _ _ _ K' _ _ _ X2 _ _ _ K _ _ _ X3 4 _ _ _ _ t_strish_consists t_list_consists); [cbn; lia|reflexivity].
  - apply (C21_cmp _ _ _ K _ _ _ X1 _ _ _ K _ _ _ X1 4 _ _ _ _ t_vec_consists t_aec_consists); [cbn; lia|reflexivity].
Qed.

(** Two characters of four and two bytes; an overlong form; a surrogate. *)
Example C23_case_decode :
  decode [0xF0; 0x9F; 0x98; 0x80; 0xC3; 0xA9]%N = Some [0x1F600; 0xE9]%N /\
  decode [0xF0; 0x80; 0x81; 0x81]%N = None /\ decode [0xED; 0xA0; 0x80]%N = None.
Proof. repeat split. Qed.
