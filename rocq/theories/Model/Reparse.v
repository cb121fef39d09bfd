(** An operative that parses its operands text: "return the combiner function that
    ... further parses and processes it", [OperatorBindings::lookup],
    core/src/parser.rs 117-126.  It calls [Parser::parse] (core/src/lib.rs
    223-227) on [Text::iter] (core/src/text.rs 281-283) of the text that it is
    given. *)
From Coq Require Import List NArith.
From Verif.Model Require Import Prelude Parser Iter Chunk TextIter PosStr TextVec Alloc DefaultClassifier
  TextMethods DatumMethods Bindings Premade.
Import ListNotations.
Set Implicit Arguments.

Section Collect.
Context {S A TT ET Pos CE : Type}.
Context (umax : N) (cc : classifier) (so : stream_ops S A TT Pos) (co : concat_ops A TT)
        (ao : alloc_ops A TT ET) (bnd : bindings A TT ET Pos CE).

(** [collect::<Result<Vec<_>, _>>()] of a [ParseIter] (documented behaviour of the
    standard library: [next] is not called again after the first error).  [n]
    bounds the number of calls of [next]. *)
Fixpoint try_collect (n fuel : nat) (st : pstate S A)
  : res Empty_set (list (datum TT ET) + error Pos CE) * pstate S A :=
  match n with
  | O => (OutOfFuel, st)
  | Datatypes.S n' =>
      match iter_next umax cc so co ao bnd fuel st with
      | (Ok None, st') => (Ok (inl []), st')
      | (Ok (Some (inl d)), st') =>
          match try_collect n' fuel st' with
          | (Ok (inl ds), st'') => (Ok (inl (d :: ds)), st'')
          | o => o
          end
      | (Ok (Some (inr e)), st') => (Ok (inr e), st')
      | (Err e, st') => (Err e, st')
      | (Panic, st') => (Panic, st')
      | (OutOfFuel, st') => (OutOfFuel, st')
      end
  end.

(** The operative: a combination like that of an unbound operator (core/src/lib.rs
    506-516) out of the datums that it gets, or the first error.  [opens] gives a
    stream of the text, [size] the number of its characters (only to bound the
    loops).  Simplifications: the references for the combination are not taken
    from an allocator, as for boxes; and a panic would be [inl None] here (that
    there is none is part of what is proved). *)
Definition reparse (opens : TT -> res Empty_set S) (size : TT -> nat)
    (operator : datum TT ET) (operands : TT) (a : A) : (option (datum TT ET) + error Pos CE) * A :=
  match opens operands with
  | Ok s =>
      match try_collect (parse_calls (size operands)) (parse_fuel (size operands)) (parse_iter_new s a) with
      | (Ok (inl ds), st) => (inl (Some (DComb operator (fold_right DList DEmptyList ds))), ps_alloc st)
      | (Ok (inr e), st) => (inr e, ps_alloc st)
      | _ => (inl None, a)
      end
  | _ => (inl None, a)
  end.
End Collect.

(** The same with the types of src/common/inmem.rs, and a parser with the bindings
    [m]. *)
Section InMem.
Context {W ET CE : Type} (ET_eq : ET -> ET -> bool) (ET_hash : ET -> list hash_word)
        (hasher : list hash_word -> N).
Definition im_size (t : im_text) : nat :=
  match res_bind (titer_new posstr_ops (im_ops (W:=W)) t)
          (titer_collect posstr_ops (text_fuel (im_ops (W:=W)) posstr_size t)) with
  | Ok l => length l
  | _ => 0
  end.
Definition im_reparse (m : im_bindings (W:=W) (ET:=ET) (CE:=CE)) :=
  reparse usize_max default_classifier im_stream (text_concat_ops im_ops) box_alloc
    (im_lookup ET_eq ET_hash hasher m) (titer_new posstr_ops (im_ops (W:=W))) im_size.

(** Bindings made out of [m] by binding ([HashMap::insert]) operators that are not
    bound to such operatives, each of which parses with bindings made the same
    way: those of the parser that calls it if it is recursive, as far as the
    recursion goes.  [named k]: the key [k] is one that programs can make. *)
Inductive reparsing (named : datum im_text ET -> Prop) (m : im_bindings (W:=W) (ET:=ET) (CE:=CE))
  : im_bindings (W:=W) (ET:=ET) (CE:=CE) -> Prop :=
| rp_same : reparsing named m m
| rp_bind k m1 m2 : reparsing named m m1 -> reparsing named m m2 ->
    named k -> im_lookup ET_eq ET_hash hasher m1 k = None ->
    reparsing named m (hm_insert (im_datum_eq (W:=W) ET_eq) (im_datum_hash (W:=W) ET_hash) hasher k
      (Operative (im_reparse m2)) m1).
End InMem.
