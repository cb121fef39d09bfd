(** C47: the number of calls that the parser makes is linear in what it reads. *)
From Coq Require Import List NArith Arith Lia.
From Verif.Model Require Import Prelude Parser Iter Utf8 Chunk TextIter PosStr PosStrish
  TextVec TextDatumList CharIter StrishIter Alloc DefaultClassifier TextMethods DatumMethods Bindings Premade.
From Verif.Spec Require Import Contract ChunkContract History Run Lawful Cost.
From Verif.Proofs Require Import Refine TextFacts ChunkFacts HistoryFacts Instances PremadeFacts NextFacts CostFacts.
From Verif.Tests Require Import Str Cases AbsCases.
Import ListNotations.
Local Notation N_len r := (N.of_nat (length r)).

Section Generic.
Context {S A TT ET Pos CE W : Type}.
Context (umax : N) (cc : classifier) (so : stream_ops S A TT Pos) (co : concat_ops A TT)
        (ao : alloc_ops A TT ET) (bnd : bindings A TT ET Pos CE).
Context (Rs : S -> list (item Pos) -> list (item Pos) -> Prop)
        (Rt : TT -> list (item Pos) -> Prop).
Context (F : Prop) (view : A -> W).
Context (SC : stream_contract F view so Rs Rt).
Local Notation nexts := (nexts umax cc so co ao bnd).
Local Notation counted_nexts := (Run.nexts umax cc (tick_stream so) (tick_concat co) (tick_alloc ao) (tick_bindings bnd)).
Local Notation counted_iterates := (Run.iterates umax cc (tick_stream so) (tick_concat co) (tick_alloc ao) (tick_bindings bnd)).

(** Any calls of [next], from any state of a parser and with any results.  The parser
    that counts returns the same results and is left in the same state; and the
    number of calls of the stream, of [concat], of [new_datum] and of combiners is at most
    eleven for each item read and five for each call of [next]. *)
Theorem C47_linear st r p os st' : Rs (ps_strm st) r p -> nexts st os st' ->
  exists i j r' p', counted_nexts (counted st 0 0) os (counted st' i j) /\
    Rs (ps_strm st') r' p' /\ length r' <= length r /\
    i + j <= 11 * (length r - length r') + 5 * length os.
Proof.
  intros HR N. destruct (nexts_cost SC 0 0 _ _ HR N) as (i & j & r' & p' & HN & HR' & HL & HC).
  exists i, j, r', p'. repeat split; auto. lia.
Qed.

(** Of a whole source, until the end: sixteen for each character and five. *)
Context (TC : concat_contract F view co Rt) (AC : alloc_contract F view ao).
Theorem C47_whole st s items st' : ps_depth st = 0%N -> Rs (ps_strm st) s [] -> (N_len s <= umax)%N ->
  iterates umax cc so co ao bnd st items st' ->
  exists i j, counted_iterates (counted st 0 0) items (counted st' i j) /\ i + j <= 16 * length s + 5.
Proof.
  intros D HR Hu I. apply iterates_nexts in I. destruct (C47_linear _ _ _ _ _ HR I) as (i & j & r' & p' & HN & HR' & HL & HC).
  exists i, j. split; [apply iterates_nexts; exact HN|].
  assert (CL : forall st os st', nexts st os st' -> called umax cc so co ao bnd st os st') by (induction 1; econstructor; eauto).
  destruct (history_safe SC TC AC _ D HR Hu (CL _ _ _ I)) as (r & p & _ & _ & _ & _ & HI & _).
  assert (LI : forall l : list (parse_item (TT:=TT) (ET:=ET) (Pos:=Pos) (CE:=CE)), length (some_items (map Some l ++ [None])) = length l) by (induction l; cbn; auto).
  rewrite LI in HI. rewrite app_length, map_length in HC. cbn [length] in HC. unfold parse_item in *. lia.
Qed.
End Generic.
Print Assumptions C47_linear.
Print Assumptions C47_whole.

(** A case: seven calls of [next] on a source with texts, escapes, a nest form that is
    not a combiner's, combiners that succeed and fail, an unmatched end and a missing
    end.  Until the first [None] there are 89 calls of the stream and 19 others. *)
Example C47_case :
  let st := im_start "a\{b}{f x {y}}{q \}}{err }{b" 0%N in
  (exists os st', nexts usize_max default_classifier (im_stream (W:=N)) (text_concat_ops im_ops) box_alloc
     (im_lookup num_eq num_hash sum_hasher im_map) st os st' /\ length os = 7) /\
  stream_contract False (fun w : N => w) (im_stream (W:=N)) (titer_rep posstr_any posstr_any_state (im_ops (W:=N))) (text_items (im_ops (W:=N)) posstr_any) /\
  titer_rep posstr_any posstr_any_state (im_ops (W:=N)) (ps_strm st) (str_source (lit "a\{b}{f x {y}}{q \}}{err }{b")) [] /\
  let '(r, st') := iter_collect usize_max default_classifier (tick_stream (im_stream (W:=N))) (tick_concat (text_concat_ops im_ops)) (tick_alloc box_alloc)
     (tick_bindings (im_lookup num_eq num_hash sum_hasher im_map)) 60 60 (counted st 0 0) in
  res_map (@length _) r = Ok 5 /\ snd (ps_strm st') = 89 /\ snd (ps_alloc st') = 19.
Proof.
  intros st. split.
  { eexists [_; _; _; _; _; _; _], _. split; [|reflexivity]. do 7 (eapply nexts_cons with (fuel := 60); [vm_compute; reflexivity|]). constructor. }
  split; [exact (lw_stream im_map_lawful)|]. split; [apply im_start_on|]. vm_compute. auto.
Qed.
