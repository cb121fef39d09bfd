(** C03-C08, C11, C39: parsing and the notation's grammar. *)
From Coq Require Import List NArith Arith.
From Verif.Model Require Import Prelude Parser Iter Utf8 Chunk TextIter PosStr PosStrish
  TextVec TextDatumList CharIter StrishIter Alloc DefaultClassifier TextMethods DatumMethods Bindings Premade.
From Verif.Spec Require Import Contract ChunkContract Grammar Balance Lawful Run Canonical Render Kept.
From Verif.Proofs Require Import Sim Refine ChunkFacts TextFacts Instances RunFacts GrammarRuns ClassifierFacts.
From Verif.Tests Require Import AbsCases.
Import ListNotations.
Local Notation N_len r := (N.of_nat (length r)).

(** ** For every lawful configuration *)
Section Generic.
Context {S A TT ET Pos CE W AE AC : Type}.
Context (umax : N) (cc : classifier) (so : stream_ops S A TT Pos) (co : concat_ops A TT)
        (ao : alloc_ops A TT ET) (bnd : bindings A TT ET Pos CE).
Local Notation text := (list (item Pos)).
Context (view : A -> W) (abnd : bindings W text AE Pos AC).
Context (Rs : S -> text -> text -> Prop) (Rt : TT -> text -> Prop)
        (Rx : ET -> AE -> Prop) (Rc : CE -> AC -> Prop).
Local Notation iterates := (iterates umax cc so co ao bnd).
Context (LW : lawful False view so co ao bnd abnd Rs Rt Rx Rc) (DC : disjoint_classes cc).

(** C03.  If all items of an iteration are datums then the source is derivable in
    the grammar, with these datums, and with the state of the combiners that
    the parser ends in. *)
Theorem C03_sound st s w ds st' : starts_on Rs view st s w -> iterates st (map inl ds) st' ->
  exists ads, input cc abnd w s ads (view (ps_alloc st')) /\ Forall2 (datum_rel Rt Rx) ds ads.
Proof. exact (iterates_sound LW ds DC). Qed.

(** C04.  If the source is derivable then the items are the derived datums. *)
Theorem C04_complete st s w ads w' : starts_on Rs view st s w -> (N_len s <= umax)%N ->
  input cc abnd w s ads w' ->
  exists ds st', iterates st (map inl ds) st' /\ Forall2 (datum_rel Rt Rx) ds ads /\ view (ps_alloc st') = w'.
Proof. exact (iterates_complete LW DC). Qed.

(** C06.  Text with its special characters escaped is parsed to that text, with
    any bindings. *)
Theorem C06_escaped k st s w u : delimiters_of cc k -> starts_on Rs view st s w -> (N_len s <= umax)%N ->
  u <> [] -> map it_ch s = escape_text cc k u ->
  exists t l st', iterates st [inl (DText t)] st' /\ Rt t l /\ map it_ch l = u /\ view (ps_alloc st') = w.
Proof. intros DK H; exact (iterates_escaped LW DC DK H). Qed.

(** C07.  The first error is decided by counting unescaped delimiters. *)
Theorem C07_errors_iff_unbalanced st s w items st' : combiners_succeed abnd ->
  starts_on Rs view st s w -> iterates st items st' ->
  error_of items = match balance cc s with
                   | Balanced => None
                   | Unmatched p => Some (UnbalancedEndChar p)
                   | Unclosed => Some MissingEndChar
                   end.
Proof. exact (iterates_balance LW DC). Qed.

(** C08.  The position is that of an unescaped nest end before which all nests are
    balanced. *)
Theorem C08_position st s w items st' p : combiners_succeed abnd ->
  starts_on Rs view st s w -> iterates st items st' ->
  error_of items = Some (UnbalancedEndChar p) <->
  exists u x v, s = u ++ x :: v /\ p = it_pos x /\ ends cc x /\ esc_after cc false u = false /\
    balance cc u = Balanced.
Proof.
  intros CS H E. rewrite (iterates_balance LW DC CS H E), <- (balance_unmatched_iff DC).
  destruct (balance cc s) as [|q|]; split; intros G; try discriminate; congruence.
Qed.

Context (NB : forall d, abnd d = None).

(** C05.  Without bindings, what has been rendered is parsed to the datums it has been
    rendered from. *)
Theorem C05_round_trip k st s w ds : delimiters_of cc k -> starts_on Rs view st s w -> (N_len s <= umax)%N ->
  canon_seq false ds -> map it_ch s = render_all cc k ds ->
  exists ds' st', iterates st (map inl ds') st' /\
    Forall2 (datum_rel (fun t u => exists l, Rt t l /\ map it_ch l = u) Rx) ds' ds /\ view (ps_alloc st') = w.
Proof. intros DK H; exact (iterates_rendered LW DC NB DK H). Qed.

(** C11.  Without bindings, the items are canonical. *)
Theorem C11_canonical st s w items st' : starts_on Rs view st s w -> iterates st items st' ->
  exists aitems, Forall2 (pitem_rel Rt Rx eq Rc) items aitems /\ canon_items aitems.
Proof. intros H E; exact (iterates_canon LW DC NB H E). Qed.

(** C39.  Without bindings and errors, the characters of all texts, in order, are
    the ones of the source that a single pass keeps. *)
Theorem C39_kept st s w ds st' : starts_on Rs view st s w -> iterates st (map inl ds) st' ->
  exists ads, Forall2 (datum_rel Rt Rx) ds ads /\ flat_map (@texts_of _ _) ads = kept cc s.
Proof. intros H E; exact (iterates_kept LW DC NB _ H E). Qed.
End Generic.
Print Assumptions C03_sound.
Print Assumptions C04_complete.
Print Assumptions C05_round_trip.
Print Assumptions C06_escaped.
Print Assumptions C07_errors_iff_unbalanced.
Print Assumptions C08_position.
Print Assumptions C11_canonical.
Print Assumptions C39_kept.

(** The grammar assigns at most one result to an input. *)
Theorem C03_unambiguous {W AE Pos AC} cc (abnd : bindings W (list (item Pos)) AE Pos AC) w s ds1 w1 ds2 w2 :
  disjoint_classes cc -> input cc abnd w s ds1 w1 -> input cc abnd w s ds2 w2 -> ds1 = ds2 /\ w1 = w2.
Proof. exact (@input_unique W AE Pos AC cc abnd w s ds1 w1 ds2 w2). Qed.
Print Assumptions C03_unambiguous.

(** A lawful configuration with bindings, started on an input, and its items. *)
Example lawful_case :
  disjoint_classes default_classifier /\
  lawful False (fun w : N => w) im_stream (text_concat_ops (im_ops (W:=N))) box_alloc
    (im_lookup num_eq num_hash sum_hasher im_map) (abs_lookup num_eq abs_map)
    (titer_rep posstr_any posstr_any_state (im_ops (W:=N))) (text_items (im_ops (W:=N)) posstr_any) eq eq /\
  starts_on (titer_rep posstr_any posstr_any_state (im_ops (W:=N))) (fun w : N => w)
    (im_start "a{q {x}\}}{ b {n} c{l {n} d}}{rm x}e" 0%N) (str_source (lit "a{q {x}\}}{ b {n} c{l {n} d}}{rm x}e")) 0%N /\
  exists ds st', im_iterates im_map (im_start "a{q {x}\}}{ b {n} c{l {n} d}}{rm x}e" 0%N) (map inl ds) st' /\
    map im_datum_show ds =
      [DText (lit "a"); DText (lit "{x}}");
       DComb (DText (lit "b")) (DList (DExtra 0%N) (DList (DText (lit " c"))
         (DList (DList (DExtra 1%N) (DList (DText (lit " d")) DEmptyList)) DEmptyList)));
       DText (lit "e")].
Proof.
  split; [exact default_disjoint|]. split; [exact im_map_lawful|]. split; [apply im_start_on|].
  eexists [_; _; _; _], _. split.
  - exists 10, 200. vm_compute. reflexivity.
  - vm_compute. reflexivity.
Qed.

(** The same source is derivable (by C03), which C04 starts from. *)
Example derivable_case : exists ads w',
  input default_classifier (abs_lookup num_eq abs_map) 0%N
    (str_source (lit "a{q {x}\}}{ b {n} c{l {n} d}}{rm x}e")) ads w' /\ length ads = 4.
Proof.
  destruct lawful_case as (_ & LW & H & ds & st' & E & Hs).
  destruct (C03_sound _ _ _ _ _ _ _ _ _ _ _ _ LW default_disjoint _ _ _ _ _ H E) as (ads & Hi & Hd).
  exists ads. eexists. split; [exact Hi|]. apply (f_equal (@length _)) in Hs. rewrite map_length in Hs. transitivity (length ds); [|exact Hs]. clear - Hd. induction Hd as [|? ? ? ? _ _ IH]; [reflexivity|]. exact (f_equal S IH).
Qed.

(** Unbalanced inputs, with combiners that do not fail: an unmatched end after a
    quoting form, and an unclosed nest. *)
Example unbalanced_case :
  combiners_succeed (abs_lookup num_eq abs_safe) /\
  lawful False (fun w : N => w) im_stream (text_concat_ops (im_ops (W:=N))) box_alloc
    (im_lookup num_eq num_hash sum_hasher im_safe) (abs_lookup num_eq abs_safe)
    (titer_rep posstr_any posstr_any_state (im_ops (W:=N))) (text_items (im_ops (W:=N)) posstr_any) eq eq /\
  (exists items st', im_iterates im_safe (im_start "{q \{x}}y{" 0%N) items st' /\
     error_of items = Some (UnbalancedEndChar (StrPos (lit "{q \{x}}y{") 7 7))) /\
  (exists items st', im_iterates im_safe (im_start "{q {x}y" 0%N) items st' /\
     error_of items = Some MissingEndChar).
Proof.
  split; [exact abs_safe_succeed|]. split; [exact im_safe_lawful|]. split.
  - do 2 eexists. split; [exists 20, 100; vm_compute; reflexivity|vm_compute; reflexivity].
  - do 2 eexists. split; [exists 20, 100; vm_compute; reflexivity|vm_compute; reflexivity].
Qed.

(** ** For [parse_str_with] and [parse_str] *)
Section ParseStr.
Context {W ET CE : Type} (ET_eq : ET -> ET -> bool) (ET_hash : ET -> list hash_word)
        (hasher : list hash_word -> N) (XH : forall a b, ET_eq a b = true -> ET_hash a = ET_hash b).
Local Notation im_ops := (im_ops (W:=W)).
Local Notation run_with := (parse_str_with (CE:=CE) ET_eq ET_hash hasher).
Local Notation run := (parse_str (CE:=CE) ET_eq ET_hash hasher).
Local Notation reads := (reads posstr_ops im_ops).
Local Notation reads_chars := (reads_chars posstr_ops im_ops).

(** [str_bindings m am]: the bindings [m] depend on texts only through their
    characters and positions, as [am] says. *)
Theorem C03_parse_str input m am (w : W) ds st : str_bindings m am -> (N_len input <= usize_max)%N ->
  run_with input m w = (Ok (map inl ds), Some st) ->
  exists ads, Grammar.input default_classifier (abs_lookup ET_eq am) w (str_source input) ads (ps_alloc st) /\
    Forall2 (datum_rel reads eq) ds ads.
Proof. intros HB. exact (parse_str_sound ET_eq ET_hash hasher XH input w ds HB default_disjoint). Qed.

Theorem C04_parse_str input m am (w : W) ads w' : str_bindings m am -> (N_len input <= usize_max)%N ->
  Grammar.input default_classifier (abs_lookup ET_eq am) w (str_source input) ads w' ->
  exists ds st, run_with input m w = (Ok (map inl ds), Some st) /\
    Forall2 (datum_rel reads eq) ds ads /\ ps_alloc st = w'.
Proof. intros HB. exact (parse_str_complete ET_eq ET_hash hasher XH input HB default_disjoint). Qed.

Theorem C07_parse_str input m am (w : W) : str_bindings m am -> combiners_succeed (abs_lookup ET_eq am) ->
  (N_len input <= usize_max)%N ->
  exists items st, run_with input m w = (Ok items, Some st) /\
    error_of items = match balance default_classifier (str_source input) with
                     | Balanced => None
                     | Unmatched p => Some (UnbalancedEndChar p)
                     | Unclosed => Some MissingEndChar
                     end.
Proof. intros HB. exact (parse_str_balance ET_eq ET_hash hasher XH input w HB default_disjoint). Qed.

Theorem C05_parse_str ds (w : W) : canon_seq false ds ->
  (N_len (render_all default_classifier default_delimiters ds) <= usize_max)%N ->
  exists ds' st, run (render_all default_classifier default_delimiters ds) w = (Ok (map inl ds'), Some st) /\
    Forall2 (datum_rel reads_chars eq) ds' ds /\ ps_alloc st = w.
Proof. exact (parse_str_rendered ET_eq ET_hash hasher XH w (ds:=ds)). Qed.

Theorem C06_parse_str u (w : W) : u <> [] ->
  (N_len (escape_text default_classifier default_delimiters u) <= usize_max)%N ->
  exists t st, run (escape_text default_classifier default_delimiters u) w = (Ok [inl (DText t)], Some st) /\
    reads_chars t u /\ ps_alloc st = w.
Proof. exact (parse_str_escaped ET_eq ET_hash hasher XH w (u:=u)). Qed.

Theorem C11_parse_str input (w : W) : (N_len input <= usize_max)%N ->
  exists items st aitems, run input w = (Ok items, Some st) /\
    Forall2 (pitem_rel reads eq eq eq) items aitems /\ canon_items aitems.
Proof. exact (parse_str_canon ET_eq ET_hash hasher XH input w). Qed.

Theorem C39_parse_str input (w : W) ds st : (N_len input <= usize_max)%N -> run input w = (Ok (map inl ds), Some st) ->
  exists ads, Forall2 (datum_rel reads eq) ds ads /\
    flat_map (@texts_of _ _) ads = kept default_classifier (str_source input).
Proof. exact (parse_str_kept ET_eq ET_hash hasher XH input w ds (st:=st)). Qed.
End ParseStr.
Print Assumptions C03_parse_str.
Print Assumptions C04_parse_str.
Print Assumptions C05_parse_str.
Print Assumptions C06_parse_str.
Print Assumptions C07_parse_str.
Print Assumptions C11_parse_str.
Print Assumptions C39_parse_str.

(** [reads] is a function of the text: iterating it gives the same items every
    time. *)
Theorem C03_reads_functional {TT C CS A Pos} (k : chunk_ops C CS Pos) (x : text_ops TT C A) t l l' :
  reads k x t l -> reads k x t l' -> l = l'.
Proof. exact (@reads_det TT C CS A Pos k x t l l'). Qed.
Print Assumptions C03_reads_functional.

(** Cases. *)
Example C03_case : str_bindings im_map abs_map /\ (forall a b, num_eq a b = true -> num_hash a = num_hash b) /\
  let r := parse_str_with num_eq num_hash sum_hasher (lit "{a{}{l x}}{n}{n}") im_map 5%N in
  im_items_show (fst r) = Ok (map inl [DComb (DText (lit "a")) (DList DEmptyNest (DList (DList (DText (lit "x")) DEmptyList) DEmptyList));
      DExtra 5%N; DExtra 6%N]) /\ option_map (@ps_alloc _ _) (snd r) = Some 7%N.
Proof.
  split; [exact abs_map_related|]. split; [exact num_eq_hash|]. split; vm_compute; reflexivity.
Qed.

Definition round_trip_datums : list (datum (list char) N) :=
  [DText (lit "a{ \"); DComb (DComb (DText (lit "x y")) (DList DEmptyNest DEmptyList)) DEmptyList;
   DComb (DText (lit "op")) (DList (DText (lit " }")) (DList DEmptyNest (DList (DText (lit "z")) DEmptyList)));
   DText (lit "end")].
Example C05_case : canon_seq false round_trip_datums /\
  render_all default_classifier default_delimiters round_trip_datums = lit "a\{ \\{{x\ y {}} }{op  \}{}z}end" /\
  im_items_show (fst (parse_str num_eq num_hash sum_hasher (render_all default_classifier default_delimiters round_trip_datums) 0%N))
    = Ok (map inl round_trip_datums).
Proof.
  split; [|split; vm_compute; reflexivity]. unfold round_trip_datums.
  apply cs_text; [discriminate|]. apply cs_nest.
  { apply (cn_comb (ds:=[])); [|constructor]. apply co_nest. apply (cn_comb (ds:=[DEmptyNest])).
    - apply co_text. discriminate.
    - apply cs_nest; constructor. }
  apply cs_nest.
  { apply (cn_comb (ds:=[DText (lit " }"); DEmptyNest; DText (lit "z")])); [apply co_text; discriminate|].
    apply cs_text; [discriminate|]. apply cs_nest; [constructor|]. apply cs_text; [discriminate|constructor]. }
  apply cs_text; [discriminate|constructor].
Qed.

Example C06_case : escape_text default_classifier default_delimiters (lit "a{b}\ c") = lit "a\{b\}\\ c" /\
  im_items_show (fst (parse_str num_eq num_hash sum_hasher (lit "a\{b\}\\ c") 0%N)) = Ok [inl (DText (lit "a{b}\ c"))].
Proof. split; vm_compute; reflexivity. Qed.

Example C11_case :
  im_items_show (fst (parse_str num_eq num_hash sum_hasher (lit "a{ {} b{c}}\") 0%N)) =
    Ok [inl (DText (lit "a"));
        inl (DComb DEmptyNest (DList (DText (lit "b")) (DList (DComb (DText (lit "c")) DEmptyList) DEmptyList)));
        inl (DText [])] /\
  fst (parse_str (CE:=N) num_eq num_hash sum_hasher (lit "{}}x") 0%N) =
    Ok [inl DEmptyNest; inr (UnbalancedEndChar (StrPos (lit "{}}x") 2 2))].
Proof. split; vm_compute; reflexivity. Qed.

Example C39_case : map it_ch (kept default_classifier (str_source (lit " a\{{  op  x{y}} { {} z}\\"))) = lit " a{op xy z\".
Proof. vm_compute. reflexivity. Qed.
