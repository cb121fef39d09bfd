(** Streams of characters with any converter of strings: C68. *)
From Coq Require Import List NArith Bool.
From Verif.Model Require Import Prelude Parser Iter Utf8 Chunk PosStrish CharIter CharConvert TextVec Premade DefaultClassifier Alloc.
From Verif.Spec Require Import Contract ChunkContract Calls Convert Run TextWork.
From Verif.Proofs Require Import Sim Refine TextFacts Instances RunFacts ConvertFacts ConvertRuns AllocFacts.
From Verif.Tests Require Import Str.
Import ListNotations.

Section Parse.
Context {TT ET CE A K : Type} (x : text_ops TT posstrish A) (conv : str -> K -> str * K).
Context (umax : N) (cc : classifier) (ao : alloc_ops A TT ET).
Local Notation collect_converting conv := (iter_collect (CE:=CE) umax cc (converting_stream x conv) (text_concat_ops x) ao).
Local Notation collect_chars := (iter_collect (CE:=CE) umax cc (chariter_stream x) (text_concat_ops x) ao).

(** C68: with a converter that keeps the contents, whatever else it does, as all the provided ones,
    the outcome is the one of C16 to C20, with all bindings: the same items, and the same
    state of the source, depth and allocator. *)
Theorem C68_same (bnd : bindings A TT ET charpos CE) input k a n fuel : (forall s k, fst (conv s k) = s) ->
  let o1 := collect_converting conv bnd n fuel (parse_iter_new (converting_new input k) a) in
  let o2 := collect_chars bnd n fuel (parse_iter_new (chariter_new input) a) in
  fst o1 = fst o2 /\
  forall items, fst o1 = Ok items ->
    cv_chars (ps_strm (snd o1)) = ps_strm (snd o2) /\ ps_depth (snd o1) = ps_depth (snd o2) /\ ps_alloc (snd o1) = ps_alloc (snd o2).
Proof.
  intros HK o1 o2.
  pose proof (sim_iter_collect umax cc (converting_same x conv HK) (concat_eq (text_concat_ops x)) (alloc_eq ao) (bindings_eq bnd) (fun f => f) n fuel
    (st1:=parse_iter_new (converting_new input k) a) (st2:=parse_iter_new (chariter_new input) a) (conj eq_refl (conj eq_refl eq_refl))) as G.
  fold o1 o2 in G. destruct o1 as [[l1|[]| |] st1], o2 as [[l2|[]| |] st2]; cbn in *; try contradiction.
  - destruct G as [Hl Hs]. apply items_eq in Hl. subst. split; [reflexivity|]. intros. exact Hs.
  - split; [reflexivity|discriminate].
  - split; [reflexivity|discriminate].
Qed.

(** With any converter, when nothing is bound: the same items, in which the texts are those
    of the source with the parts converted. *)
Theorem C68_any {W} (view : A -> W) (XC : text_contract False view x posstrish_any) input k a n fuel :
  alloc_contract False view ao -> (forall d a, a_get_mut ao d a = true) ->
  let o1 := collect_converting conv (fun _ => None) n fuel (parse_iter_new (converting_new input k) a) in
  let o2 := collect_chars (fun _ => None) n fuel (parse_iter_new (chariter_new input) a) in
  match fst o1, fst o2 with
  | Ok items1, Ok items2 => Forall2 (pitem_rel (converted conv x posstrish_any) eq eq eq) items1 items2 /\
      cv_chars (ps_strm (snd o1)) = ps_strm (snd o2)
  | Panic, Panic | OutOfFuel, OutOfFuel => True
  | _, _ => False
  end.
Proof.
  intros AC GM o1 o2.
  assert (BS : bindings_sim (fun _ => None : option (combiner A TT ET charpos CE)) (fun _ => None : option (combiner A TT ET charpos CE)) False (fun a1 a2 : A => view a1 = view a2) (converted conv x posstrish_any) eq eq eq).
  { intros d1 d2 _. exact I. }
  pose proof (sim_iter_collect umax cc (converting_sim conv XC) (converting_concat conv XC) (converting_alloc x conv AC GM) BS (fun f => f) n fuel
    (st1:=parse_iter_new (converting_new input k) a) (st2:=parse_iter_new (chariter_new input) a) (conj eq_refl (conj eq_refl eq_refl))) as G.
  fold o1 o2 in G. destruct o1 as [[l1|[]| |] st1], o2 as [[l2|[]| |] st2]; cbn in *; try contradiction; auto.
  destruct G as [Hl [Hs _]]. auto.
Qed.

(** What the converter is given by the parser, with any bindings and errors: non-empty parts of the source, apart from each other, in order. *)
Theorem C68_given (bnd : bindings A TT ET charpos CE) input k a n fuel items st :
  collect_converting (noting conv) bnd n fuel (parse_iter_new (converting_new input (k, [])) a) = (Ok items, st) ->
  exists read rest, input = read ++ rest /\ parts_of (snd (cv_kept (ps_strm st))) read.
Proof.
  intros E.
  pose proof (sim_iter_collect umax cc (noted_sim x conv input) (concat_eq (text_concat_ops x)) (alloc_eq ao) (bindings_eq bnd) (fun f => f) n fuel
    (st1:=parse_iter_new (converting_new input (k, [])) a) (st2:=parse_iter_new (converting_new input (k, [])) a)
    (conj (conj eq_refl (noted_new input k)) (conj eq_refl eq_refl))) as G.
  rewrite E in G. destruct G as (_ & (_ & (pre & pv & rv & Ei & _ & _ & Hp)) & _). exists pre, (pv ++ rv). auto.
Qed.
End Parse.

(** For any sequence of calls: it is given exactly the accumulated strings, each once, and never an empty one. *)
Theorem C68_calls {TT A K W} (view : A -> W) (x : text_ops TT posstrish A) (conv : str -> K -> str * K)
    (XC : text_contract False view x posstrish_any) input calls k a :
  exists answers s' a',
    do_calls (converting_stream x (noting conv)) calls (converting_new input (k, [])) a = (Ok answers, (s', a')) /\
    snd (cv_kept s') = strings_of (documented calls (char_source input) []).
Proof.
  rewrite char_source_eq. refine (noted_calls conv XC calls a (s:=converting_new input (k, [])) (l:=[]) _).
  split; [apply chariter_new_rep|reflexivity].
Qed.

(** In a parse without errors of a source of which nothing is bound, it is called once for each
    non-empty chunk of the texts returned, in their order, and the chunks are all of the strings it returned. *)
Theorem C68_each {A K ET CE} umax cc (conv : str -> K -> str * K) (ao : alloc_ops A (tvec posstrish) ET) input k a n fuel ds st :
  (forall s k, fst (conv s k) = s) -> (forall d a d' a', a_new_datum ao d a = (Ok d', a') -> d' = d) ->
  iter_collect (CE:=CE) umax cc (converting_stream (tvec_ops posstrish_ops) (noting conv)) (text_concat_ops (tvec_ops posstrish_ops)) ao
    (fun _ => None) n fuel (parse_iter_new (converting_new input (k, [])) a) = (Ok (map inl ds), st) ->
  snd (cv_kept (ps_strm st)) = nonempty (map chunk_string (chunks_in ds)) /\
  snd (cv_kept (ps_strm st)) = nonempty (map chunk_chars (chunks_in ds)).
Proof.
  intros HK HN E. destruct (C68_given _ _ _ _ _ _ _ _ _ _ _ _ _ E) as (read & rest & _ & Hp). apply parts_full in Hp.
  assert (G : forall g, (forall s p, g (posstrish_new s p) = s) -> snd (cv_kept (ps_strm st)) = nonempty (map g (chunks_in ds))).
  { intros g Hg. rewrite <- Hp. rewrite (converting_gives umax cc conv g Hg HK ao fuel n input k a ds HN E). unfold nonempty, chunks_in. clear.
    induction ds as [|d ds IH]; [reflexivity|]. cbn [flat_map]. rewrite map_app, filter_app. f_equal; [|exact IH]. clear.
    induction (texts_in d) as [|t l IHl]; [reflexivity|]. cbn [flat_map]. rewrite map_app, filter_app. f_equal. exact IHl. }
  split; apply G; [reflexivity|]. intros s p. unfold chunk_chars. rewrite whole_chars. reflexivity.
Qed.

Print Assumptions C68_same.
Print Assumptions C68_any.
Print Assumptions C68_given.
Print Assumptions C68_calls.
Print Assumptions C68_each.

(** * Cases *)

(** A converter that makes letters capitals and counts its calls. *)
Definition shout (s : str) (k : nat) : str * nat := (map (fun c => if ((97 <=? c) && (c <=? 122))%N then (c - 32)%N else c) s, S k).
Definition shouted (input : str) := iter_collect (ET:=nat) (CE:=nat) usize_max default_classifier (converting_stream (tvec_ops (A:=nat) posstrish_ops) (noting shout))
  (text_concat_ops (tvec_ops posstrish_ops)) box_alloc (fun _ => None) 30 100 (parse_iter_new (converting_new input (0, [])) 0).
Definition shown (input : str) :=
  match shouted input with
  | (Ok items, st) => Some (map (fun i => match i with inl d => inl (map (fun t => map (fun c => (rs_str (px_val c), px_pos c)) (tvec_slice t)) (texts_in d)) | inr e => inr e end) items,
      cv_kept (ps_strm st))
  | _ => None
  end.
(** Texts with escapes, an empty nest, and a nest whose end is missing, the texts of which are converted too. *)
Example C68_case : shown (lit "ab\{c{f x}{}z{q y") = Some (
  [inl [[(lit "AB", 0%N); (lit "{C", 3%N)]]; inl [[(lit "F", 6%N)]; [(lit "X", 8%N)]]; inl []; inl [[(lit "Z", 12%N)]]; inr MissingEndChar],
  (7, [lit "ab"; lit "{c"; lit "f"; lit "x"; lit "z"; lit "q"; lit "y"])).
Proof. vm_compute. reflexivity. Qed.
(** The hypotheses of [C68_any] and [C68_calls] hold of [TextVec] and boxes, those of [C68_same] of the provided converters. *)
Example C68_case_vec : text_contract False (fun a : nat => a) (tvec_ops posstrish_ops) posstrish_any /\
  alloc_contract (TT:=tvec posstrish) (ET:=nat) False (fun a : nat => a) box_alloc /\ (forall d a, a_get_mut (box_alloc (W:=nat) (TT:=tvec posstrish) (ET:=nat)) d a = true).
Proof.
  split; [exact (tvec_contract posstrish_any_contract False (fun w => w))|]. split; [exact (@box_alloc_contract nat _ _)|reflexivity].
Qed.
Example C68_case_provided : forall s k, fst (to_refcnt s k) = s.
Proof. reflexivity. Qed.
Example C68_case_calls : snd (cv_kept (fst (snd (do_calls (converting_stream (tvec_ops (A:=nat) posstrish_ops) (noting shout))
    [CNextAccum; CPeek; CNextAccum; CAccumDone; CAccumDone; CNextAccum; CNext; CNextAccum; CAccumDone; CNextAccum] (converting_new (lit "abcdefg") (0, [])) 0)))) =
  [lit "ab"; lit "e"] /\
  strings_of (documented [CNextAccum; CPeek; CNextAccum; CAccumDone; CAccumDone; CNextAccum; CNext; CNextAccum; CAccumDone; CNextAccum] (char_source (lit "abcdefg")) []) = [lit "ab"; lit "e"].
Proof. split; vm_compute; reflexivity. Qed.

(** A parse without errors, with a converter that counts. *)
Definition counting (s : str) (k : nat) : str * nat := (s, S k).
Definition counted (input : str) := iter_collect (ET:=nat) (CE:=nat) usize_max default_classifier (converting_stream (tvec_ops (A:=nat) posstrish_ops) (noting counting))
  (text_concat_ops (tvec_ops posstrish_ops)) box_alloc (fun _ => None) 30 100 (parse_iter_new (converting_new input (0, [])) 0).
Definition counted_run := counted (lit "ab\{c{f  x {y}}{}\\z").
Definition counted_datums := match fst counted_run with Ok items => flat_map (fun i => match i with inl d => [d] | inr _ => [] end) items | _ => [] end.
Example C68_case_each : counted_run = (Ok (map inl counted_datums), snd counted_run) /\
  length counted_datums = 4 /\ length (chunks_in counted_datums) = 6 /\
  cv_kept (ps_strm (snd counted_run)) = (6, [lit "ab"; lit "{c"; lit "f"; lit " x "; lit "y"; lit "\z"]).
Proof. repeat split; vm_compute; reflexivity. Qed.
