(** The parser over the slice allocator with the slots made explicit: datums
    refer to each other by the index of the slot, and the operand lists and the
    chunk lists of texts are built by overwriting slots in place.  This is the
    same code as in Parser.v and TextDatumList.v, for
    [DR = DatumMutRef] (core/src/datum/premade/mutref.rs 19-20), without the
    simplification that a reference is the datum it refers to. *)
From Coq Require Import List NArith Bool.
From Verif.Model Require Import Prelude Parser Iter Chunk TextIter PosStr TextDatumList Alloc
  DefaultClassifier DatumMethods Bindings Premade.
Import ListNotations.
Set Implicit Arguments.

(** [Datum], core/src/datum.rs 17-46, with [DatumMutRef]s: the number of a slot
    of the slice given to [SliceDatumAllocator::new]. *)
Inductive cell (T ET : Type) : Type :=
| CText (t : T)
| CComb (operator operands : nat)
| CEmptyNest
| CList (elem next : nat)
| CEmptyList
| CExtra (x : ET).
Arguments CText {T ET} _.
Arguments CComb {T ET} _ _.
Arguments CEmptyNest {T ET}.
Arguments CList {T ET} _ _.
Arguments CEmptyList {T ET}.
Arguments CExtra {T ET} _.

(** The state of the slice allocator and of the combiners. *)
Definition slots (T ET W : Type) : Type := (slice_state (cell T ET) * W)%type.

(** [Combiner], core/src/combiner.rs 21-26; as in Parser.v. *)
Inductive slot_combiner (A T ET Pos CE : Type) : Type :=
| SOperative (f : cell T ET -> T -> A -> (option (cell T ET) + error Pos CE) * A)
| SApplicative (f : cell T ET -> cell T ET -> A -> (option (cell T ET) + error Pos CE) * A).
Arguments SOperative {A T ET Pos CE} _.
Arguments SApplicative {A T ET Pos CE} _.

Section SlotParser.
Context {S W T ET Pos CE : Type}.
Local Notation cell := (cell T ET).
Local Notation A := (slots T ET W).
Context (umax : N) (cc : classifier).
Context (so : stream_ops S A T Pos) (co : concat_ops A T).
(** [OperatorBindings::lookup], core/src/parser.rs 104-127: the operator is read
    through its references. *)
Context (bnd : list cell -> cell -> option (slot_combiner A T ET Pos CE)).
Local Notation M := (@M S A Pos CE).

Local Notation "x <- m ;; k" := (bind m (fun x => k)) (at level 61, m at next level, right associativity).
Local Notation "m ;;; k" := (bind m (fun _ => k)) (at level 61, right associativity).

(** [dalloc.new_datum(c)?], slice_alloc.rs 61-73. *)
Definition s_new_datum (c : cell) : M nat := fun st =>
  let (r, s) := slice_new_datum c (fst (ps_alloc st)) in
  (res_map_err FailedAlloc r, PState (ps_strm st) (ps_depth st) (s, snd (ps_alloc st))).

(** [*tail = c] for [tail] a [&mut] to slot [i]. *)
Definition s_write (i : nat) (c : cell) : M unit := fun st =>
  let s := fst (ps_alloc st) in
  (Ok tt, PState (ps_strm st) (ps_depth st) (SliceState (set_slot (sl_mem s) i c) (sl_free s), snd (ps_alloc st))).

(** [bindings.lookup(&operator)], core/src/lib.rs 482. *)
Definition s_lookup (c : cell) : M (option (slot_combiner A T ET Pos CE)) := fun st =>
  (Ok (bnd (sl_mem (fst (ps_alloc st))) c), st).

(** [parse_next] core/src/lib.rs 308-358, [parse_nested] 448-522,
    [parse_all] 524-557. *)
Fixpoint s_parse_next (fuel : nat) (m : mode) : M (option cell) :=
  match fuel with
  | O => @nofuel S A Pos CE _
  | Datatypes.S f =>
      (if is_operator_mode m
       then skip_whitespace cc so f else @ret S A Pos CE _ tt) ;;;
      o <- peek so ;;
      match o with
      | None =>
          d <- @get_depth S A Pos CE ;;
          if (d =? 0)%N then @ret S A Pos CE _ None else @raise S A Pos CE _ MissingEndChar
      | Some it =>
          let ch := it_ch it in
          if is_nest_start cc ch then
            incr_depth umax ;;;
            r <- finally (s_parse_nested f) (@decr_depth S A Pos CE) ;;
            match r with
            | None => s_parse_next f m (* continue *)
            | Some d => @ret S A Pos CE _ (Some d)
            end
          else if is_nest_end cc ch then
            d <- @get_depth S A Pos CE ;;
            check_end_char cc so d ;;;
            @ret S A Pos CE _ None
          else
            t <- parse_text umax cc so co f m ;;
            @ret S A Pos CE _ (Some (CText t))
      end
  end
with s_parse_nested (fuel : nat) : M (option cell) :=
  match fuel with
  | O => @nofuel S A Pos CE _
  | Datatypes.S f =>
      start <- next so ;;
      assert (match start with Some it => is_nest_start cc (it_ch it) | None => false end) ;;;
      operator <- s_parse_next f Operator ;;
      o <- peek so ;;
      (match o with
       | Some it => if is_whitespace cc (it_ch it) then next so ;;; @ret S A Pos CE _ tt else @ret S A Pos CE _ tt
       | None => @ret S A Pos CE _ tt
       end) ;;;
      match operator with
      | Some operator =>
          combiner <- s_lookup operator ;;
          match combiner with
          | Some (SOperative opr) =>
              operands <- parse_text umax cc so co f Operands ;;
              nest_end cc so ;;;
              call (opr operator operands)
          | Some (SApplicative apl) =>
              arguments <- s_parse_all f Base CEmptyList None ;;
              nest_end cc so ;;;
              call (apl operator arguments)
          | None =>
              operands <- s_parse_all f Base CEmptyList None ;;
              nest_end cc so ;;;
              r1 <- s_new_datum operator ;;
              r2 <- s_new_datum operands ;;
              @ret S A Pos CE _ (Some (CComb r1 r2))
          end
      | None =>
          nest_end cc so ;;;
          @ret S A Pos CE _ (Some CEmptyNest)
      end
  end
(** The loop, 536-555; called with [head = CEmptyList] and [tail = None].  [tail] is
    [None] when it points to the local variable [head], or the slot it points
    to.  [DatumMutRef::get_mut] (mutref.rs 40-42) always succeeds. *)
with s_parse_all (fuel : nat) (m : mode) (head : cell) (tail : option nat) : M cell :=
  match fuel with
  | O => @nofuel S A Pos CE _
  | Datatypes.S f =>
      it <- s_parse_next f m ;;
      match it with
      | Some next_it =>
          e <- s_new_datum next_it ;;
          n <- s_new_datum CEmptyList ;;
          match tail with
          | None => s_parse_all f m (CList e n) (Some n)
          | Some i => s_write i (CList e n) ;;; s_parse_all f m head (Some n)
          end
      | None => @ret S A Pos CE _ head
      end
  end.

(** [ParseIter::do_next], core/src/lib.rs 299-306. *)
Definition s_do_next (fuel : nat) : M (option cell) := s_parse_next fuel Base.
End SlotParser.

(** * [TextDatumList] in slots, core/src/text/premade/datum_list.rs *)

(** datum_list.rs 31-34: the link is the number of a slot. *)
Inductive stdl (C : Type) : Type := STDL (chunk : C) (next : option nat).
Arguments STDL {C} _ _.

Section SlotText.
Context {C CS Pos ET W : Type} (k : chunk_ops C CS Pos).
Local Notation cell := (cell (stdl C) ET).
Local Notation A := (slots (stdl C) ET W).

(** [is_empty], datum_list.rs 123-125, over [State::next] 99-110.  The link is
    followed before the chunk is looked at, as in [chunks::Iter::next],
    core/src/text/iter/chunks.rs 63-70.  [fuel] bounds the number of links. *)
Fixpoint s_is_empty (fuel : nat) (mem : list cell) (t : stdl C) : res Empty_set bool :=
  match fuel, t with
  | O, _ => OutOfFuel
  | S _, STDL c None => res_bind (c_is_empty k c) (fun e => Ok e)
  | S f, STDL c (Some i) =>
      match nth_error mem i with
      | Some (CText t') => res_bind (c_is_empty k c) (fun e => if e then s_is_empty f mem t' else Ok false)
      | _ => Panic
      end
  end.

(** The loop of [concat], datum_list.rs 163-179, from [cur] in slot [i] on:
    the slot of the end of the list is found and [other] linked from it. *)
Fixpoint s_link_slot (fuel : nat) (i : nat) (other : stdl C) (a : A) : res alloc_error unit * A :=
  match fuel with
  | O => (OutOfFuel, a)
  | S f =>
      match nth_error (sl_mem (fst a)) i with
      | Some (CText (STDL c (Some j))) => s_link_slot f j other a
      | Some (CText (STDL c None)) =>
          match slice_new_datum (CText other) (fst a) with
          | (Ok j, s) => (Ok tt, (SliceState (set_slot (sl_mem s) i (CText (STDL c (Some j)))) (sl_free s), snd a))
          | (Err e, s) => (Err e, (s, snd a))
          | (Panic, s) => (Panic, (s, snd a))
          | (OutOfFuel, s) => (OutOfFuel, (s, snd a))
          end
      | _ => (Panic, a)
      end
  end.

(** The same loop from [cur = &mut self] on. *)
Definition s_link (t other : stdl C) (a : A) : res alloc_error (stdl C) * A :=
  match t with
  | STDL c None =>
      let (r, s) := slice_new_datum (CText other) (fst a) in
      (res_map (fun j => STDL c (Some j)) r, (s, snd a))
  | STDL c (Some i) =>
      let (r, a') := s_link_slot (length (sl_mem (fst a))) i other a in
      (res_map (fun _ => t) r, a')
  end.

(** [concat], datum_list.rs 153-181. *)
Definition s_concat (t1 t2 : stdl C) (a : A) : res alloc_error (stdl C) * A :=
  let mem := sl_mem (fst a) in
  match s_is_empty (S (length mem)) mem t1 with
  | Ok true => (Ok t2, a)
  | Ok false =>
      match s_is_empty (S (length mem)) mem t2 with
      | Ok true => (Ok t1, a)
      | Ok false => s_link t1 t2 a
      | _ => (Panic, a)
      end
  | _ => (Panic, a)
  end.

(** [From], datum_list.rs 37-47; [empty] 119-121. *)
Definition stdl_ops : text_ops (stdl C) C A := {|
  tx_from := fun c => STDL c None;
  (* Iterating over the chunks needs the slots: [s_chunks].  Not used by [titer_stream]. *)
  tx_chunks := fun _ => SPanic;
  tx_empty := STDL (c_empty k) None;
  tx_concat := s_concat |}.

(** [iter_chunks], with the text in [mem]. *)
Fixpoint s_chunks (fuel : nat) (mem : list cell) (t : stdl C) : chunk_seq C :=
  match fuel, t with
  | O, _ => SPanic
  | S _, STDL c None => SCons c SEnd
  | S f, STDL c (Some i) =>
      match nth_error mem i with
      | Some (CText t') => SCons c (s_chunks f mem t')
      | _ => SPanic
      end
  end.
End SlotText.

(** * Reading and iterating *)

(** The tree that a text, and a datum, is when its references are followed ([None] if
    there are too many of them for [fuel], or one is out of range or, for a text, not to a text).
    [==] of [DatumMutRef] and [Deref] (mutref.rs 19-28) follow references so. *)
Section Read.
Context {C ET : Type}.
Fixpoint s_read_text (fuel : nat) (h : list (cell (stdl C) ET)) (t : stdl C) : option (tdl C ET) :=
  match fuel, t with
  | O, _ => None
  | S _, STDL c None => Some (TDL c None)
  | S f, STDL c (Some i) =>
      match nth_error h i with
      | Some (CText t') => option_map (fun u => TDL c (Some (DText u))) (s_read_text f h t')
      | _ => None
      end
  end.

Fixpoint s_read (fuel : nat) (h : list (cell (stdl C) ET)) (c : cell (stdl C) ET) : option (datum (tdl C ET) ET) :=
  match fuel with
  | O => None
  | S f =>
      let at_slot i := match nth_error h i with Some c' => s_read f h c' | None => None end in
      match c with
      | CText t => option_map DText (s_read_text fuel h t)
      | CComb i j => match at_slot i, at_slot j with Some d1, Some d2 => Some (DComb d1 d2) | _, _ => None end
      | CEmptyNest => Some DEmptyNest
      | CList i j => match at_slot i, at_slot j with Some d1, Some d2 => Some (DList d1 d2) | _, _ => None end
      | CEmptyList => Some DEmptyList
      | CExtra x => Some (DExtra x)
      end
  end.
End Read.

Section SlotIter.
Context {S W T ET Pos CE : Type}.
Local Notation A := (slots T ET W).
Context (umax : N) (cc : classifier) (so : stream_ops S A T Pos) (co : concat_ops A T)
        (bnd : list (cell T ET) -> cell T ET -> option (slot_combiner A T ET Pos CE)).

(** [ParseIterItem], core/src/lib.rs 262-271. *)
Definition slot_item : Type := (cell T ET + error Pos CE)%type.

(** [ParseIter::next], core/src/lib.rs 256-258. *)
Definition s_iter_next (fuel : nat) (st : pstate S A) : res Empty_set (option slot_item) * pstate S A :=
  match s_do_next umax cc so co bnd fuel st with
  | (Ok None, st') => (Ok None, st')
  | (Ok (Some c), st') => (Ok (Some (inl c)), st')
  | (Err e, st') => (Ok (Some (inr e)), st')
  | (Panic, st') => (Panic, st')
  | (OutOfFuel, st') => (OutOfFuel, st')
  end.

(** The [take_while] of [parse_text_with], core/src/premade/inmem.rs 265-275, as in Iter.v. *)
Fixpoint s_take_while (n fuel : nat) (already_errored : bool) (st : pstate S A)
  : res Empty_set (list slot_item) * pstate S A :=
  match n with
  | O => (OutOfFuel, st)
  | Datatypes.S n' =>
      match s_iter_next fuel st with
      | (Ok None, st') => (Ok [], st')
      | (Ok (Some x), st') =>
          if already_errored then (Ok [], st')
          else let (r, st'') := s_take_while n' fuel (match x with inl _ => false | inr _ => true end) st' in
               (res_map (cons x) r, st'')
      | (Err e, st') => (Err e, st')
      | (Panic, st') => (Panic, st')
      | (OutOfFuel, st') => (OutOfFuel, st')
      end
  end.
End SlotIter.

(** [parse_text_with], core/src/premade/inmem.rs 250-276, iterated to its end, over explicit slots.
    The input is given by its chunks, as it need not be in the parser's slots. *)
Section SlotPremade.
Context {W ET CE : Type}.
Local Notation T := (stdl posstr).
Local Notation A := (slots T ET W).
Definition s_nh_ops : text_ops T posstr A := stdl_ops posstr_ops.
Definition s_nh_stream : stream_ops titer A T strpos := titer_stream posstr_ops s_nh_ops.
Definition s_bindings : Type := list (cell T ET) -> cell T ET -> option (slot_combiner A T ET strpos CE).
Definition s_parse_chunks_with (input : chunk_seq posstr) (bnd : s_bindings) (a : A)
  : res Empty_set (list (slot_item (T:=T) (ET:=ET) (Pos:=strpos) (CE:=CE))) * option (pstate titer A) :=
  match next_chunk posstr_ops input with
  | Ok (cur, rest) =>
      let n := seq_size posstr_size input in
      let (r, st) := s_take_while usize_max default_classifier s_nh_stream (text_concat_ops s_nh_ops) bnd
        (parse_calls n) (parse_fuel n) false (parse_iter_new (TIter cur rest None None) a) in
      (r, Some st)
  | Err e => (Err e, None)
  | Panic => (Panic, None)
  | OutOfFuel => (OutOfFuel, None)
  end.

(** [PairOperatorBindings], core/src/parser/premade/pair_bindings.rs, as in Bindings.v and Premade.v;
    the operator is compared with the keys by following its references. *)
Definition s_pair_lookup (ET_eq : ET -> ET -> bool)
    (m : list (datum (tdl posstr ET) ET * slot_combiner A T ET strpos CE)) : s_bindings := fun h c =>
  match s_read (S (length h)) h c with
  | Some d => pair_lookup (nh_datum_eq (W:=W) ET_eq) m d
  | None => None
  end.
End SlotPremade.
