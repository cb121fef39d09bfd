(** The work of concatenating texts: [TextConcat::concat] of
    core/src/text/premade/datum_list.rs and of src/text/vec.rs, with a count of the steps
    whose number depends on the texts. *)
From Coq Require Import List NArith Arith Bool.
From Verif.Model Require Import Prelude Parser Chunk TextVec TextDatumList.
Import ListNotations.
Set Implicit Arguments.

Section Work.
Context {C CS Pos A ET : Type} (k : chunk_ops C CS Pos).

(** How many chunks [self.iter_chunks().all(TextBase::is_empty)] asks
    (core/src/text/premade/datum_list.rs 123-125, src/text/vec.rs 86-88): it stops at the first
    that is not empty. *)
Fixpoint chunks_asked (s : chunk_seq C) : nat :=
  match s with
  | SCons c rest =>
      S (match c_is_empty k c with Ok true => chunks_asked rest | _ => 0 end)
  | _ => 0
  end.

(** An allocator of an allocator's state with a count beside it. *)
Definition work_alloc {TT} (ao : alloc_ops A TT ET) : alloc_ops (A * nat) TT ET := {|
  a_new_datum := fun d a => let (r, a') := a_new_datum ao d (fst a) in (r, (a', snd a));
  a_get_mut := fun d a => a_get_mut ao d (fst a) |}.

(** ** [TextDatumList] *)
Section List.
Context (ao : alloc_ops A (tdl C ET) ET).

(** The iterations of the loop of [concat], datum_list.rs 165-179: one for each
    [next] that is followed, and the last one that links. *)
Fixpoint tdl_iterations (t : tdl C ET) : nat :=
  match t with
  | TDL _ (Some (DText t')) => S (tdl_iterations t')
  | _ => 1
  end.

(** The work of [concat], datum_list.rs 153-181: the chunks asked beyond the
    first one of each text, and the iterations of the loop. *)
Definition tdl_work (t1 t2 : tdl C ET) : nat :=
  (chunks_asked (tdl_chunks t1) - 1) +
  match tdl_is_empty k t1 with
  | Ok false =>
      (chunks_asked (tdl_chunks t2) - 1) +
      match tdl_is_empty k t2 with Ok false => tdl_iterations t1 | _ => 0 end
  | _ => 0
  end.

(** The text type with that count. *)
Definition tdl_work_ops : text_ops (tdl C ET) C (A * nat) := {|
  tx_from := @tdl_from C ET;
  tx_chunks := @tdl_chunks C ET;
  tx_empty := tdl_empty k;
  tx_concat := fun t1 t2 a =>
    let (r, a') := tdl_concat k ao t1 t2 (fst a) in (r, (a', snd a + tdl_work t1 t2)) |}.
End List.

(** ** [TextVec] *)

(** A [Vec] with its capacity.  [grow cap need]: the new capacity that the
    standard library chooses when [need] elements do not fit in [cap]. *)
Context (grow : nat -> nat -> nat).

Record vec : Type := Vec { v_elems : list C; v_cap : nat }.

(** Making room for [n] more: the new capacity and how many elements are moved to
    new memory. *)
Definition vec_reserve (v : vec) (n : nat) : nat * nat :=
  let need := length (v_elems v) + n in
  if need <=? v_cap v then (v_cap v, 0) else (grow (v_cap v) need, length (v_elems v)).

(** [Vec::push], [Vec::append] and [Vec::insert] at index 0 (standard library): the
    vector, and how many elements are moved or written. *)
Definition vec_push (v : vec) (c : C) : vec * nat :=
  let (cap, moved) := vec_reserve v 1 in (Vec (v_elems v ++ [c]) cap, moved + 1).
Definition vec_append (v w : vec) : vec * nat :=
  let (cap, moved) := vec_reserve v (length (v_elems w)) in
  (Vec (v_elems v ++ v_elems w) cap, moved + length (v_elems w)).
Definition vec_insert0 (c : C) (v : vec) : vec * nat :=
  let (cap, moved) := vec_reserve v 1 in (Vec (c :: v_elems v) cap, moved + length (v_elems v) + 1).

(** [TextVec] and [Repr], src/text/vec.rs 20-26. *)
Inductive cvec : Type := CSingle (c : C) | CMulti (v : vec).
Definition cvec_forget (t : cvec) : tvec C :=
  match t with CSingle c => Single c | CMulti v => Multi (v_elems v) end.
Definition cvec_chunks (t : cvec) : chunk_seq C := tvec_chunks (cvec_forget t).
Definition cvec_is_empty (t : cvec) : res Empty_set bool := tvec_is_empty k (cvec_forget t).

(** The part of [concat] for two texts that are not empty, src/text/vec.rs 121-138.
    [vec!] of two elements has room for two. *)
Definition cvec_join (t1 t2 : cvec) : cvec * nat :=
  match t1, t2 with
  | CSingle c1, CSingle c2 => (CMulti (Vec [c1; c2] 2), 2)
  | CSingle c1, CMulti v2 => let (v, n) := vec_insert0 c1 v2 in (CMulti v, n)
  | CMulti v1, CSingle c2 => let (v, n) := vec_push v1 c2 in (CMulti v, n)
  | CMulti v1, CMulti v2 => let (v, n) := vec_append v1 v2 in (CMulti v, n)
  end.

(** [concat], src/text/vec.rs 113-140: the chunks asked beyond the first one of
    each text, and the elements moved or written. *)
Definition cvec_concat (t1 t2 : cvec) (a : A * nat) : res alloc_error cvec * (A * nat) :=
  let n1 := snd a + (chunks_asked (cvec_chunks t1) - 1) in
  match cvec_is_empty t1 with
  | Ok true => (Ok t2, (fst a, n1))
  | Ok false =>
      let n2 := n1 + (chunks_asked (cvec_chunks t2) - 1) in
      match cvec_is_empty t2 with
      | Ok true => (Ok t1, (fst a, n2))
      | Ok false => let (t, n) := cvec_join t1 t2 in (Ok t, (fst a, n2 + n))
      | OutOfFuel => (OutOfFuel, (fst a, n2))
      | _ => (Panic, (fst a, n2))
      end
  | OutOfFuel => (OutOfFuel, (fst a, n1))
  | _ => (Panic, (fst a, n1))
  end.

(** [empty], src/text/vec.rs 82-84: no capacity. *)
Definition cvec_ops : text_ops cvec C (A * nat) := {|
  tx_from := CSingle;
  tx_chunks := cvec_chunks;
  tx_empty := CMulti (Vec [] 0);
  tx_concat := cvec_concat |}.

(** A datum without the capacities of its texts, and an allocator of such datums used for
    datums with them. *)
Fixpoint cvec_datum (d : datum cvec ET) : datum (tvec C) ET :=
  match d with
  | DText t => DText (cvec_forget t)
  | DComb d1 d2 => DComb (cvec_datum d1) (cvec_datum d2)
  | DEmptyNest => DEmptyNest
  | DList d1 d2 => DList (cvec_datum d1) (cvec_datum d2)
  | DEmptyList => DEmptyList
  | DExtra y => DExtra y
  end.
Definition cvec_alloc (ao : alloc_ops A (tvec C) ET) : alloc_ops (A * nat) cvec ET := {|
  a_new_datum := fun d a =>
    let (r, a') := a_new_datum ao (cvec_datum d) (fst a) in (res_map (fun _ => d) r, (a', snd a));
  a_get_mut := fun d a => a_get_mut ao (cvec_datum d) (fst a) |}.
End Work.
Arguments vec : clear implicits.
Arguments cvec : clear implicits.
