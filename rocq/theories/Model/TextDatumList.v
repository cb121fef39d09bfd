(** [TextDatumList], core/src/text/premade/datum_list.rs: chunks linked
    through datums from the parser's allocator. *)
From Coq Require Import List NArith Bool.
From Verif.Model Require Import Prelude Parser Chunk.
Import ListNotations.
Set Implicit Arguments.

(** [TextDatumList], datum_list.rs 31-34.  The link is a [DatumMutRef], modelled
    by the datum referred to. *)
Inductive tdl (C ET : Type) : Type :=
| TDL (chunk : C) (next : option (datum (tdl C ET) ET)).
Arguments TDL {C ET} _ _.

Section TextDatumList.
Context {C CS Pos A ET : Type} (k : chunk_ops C CS Pos).
Local Notation tdl := (tdl C ET).
Context (ao : alloc_ops A tdl ET).

(** [From], datum_list.rs 37-47. *)
Definition tdl_from (c : C) : tdl := TDL c None.

(** [State::next], datum_list.rs 99-110, as part of [chunks::Iter::next],
    core/src/text/iter/chunks.rs 63-70: the chunk and the next state; [Panic] for the
    [unreachable!]. *)
Definition tdl_state_next (t : tdl) : res Empty_set (C * option tdl) :=
  match t with
  | TDL c None => Ok (c, None)
  | TDL c (Some (DText t')) => Ok (c, Some t')
  | TDL c (Some _) => Panic
  end.

(** [iter_chunks]: the chunks got by repeating [tdl_state_next].
    ([TextFacts.tdl_chunks_unfold] says so.)  A panic occurs already when the
    chunk with the bad link is asked for. *)
Fixpoint tdl_chunks (t : tdl) : chunk_seq C :=
  match t with
  | TDL c None => SCons c SEnd
  | TDL c (Some (DText t')) => SCons c (tdl_chunks t')
  | TDL c (Some _) => SPanic
  end.

(** [empty], datum_list.rs 119-121. *)
Definition tdl_empty : tdl := tdl_from (c_empty k).

(** [is_empty], datum_list.rs 123-125. *)
Definition tdl_is_empty (t : tdl) : res Empty_set bool := all_empty k (tdl_chunks t).

(** The loop of [concat], datum_list.rs 163-179: the end of the list is found
    and [other] linked from it. *)
Fixpoint tdl_link (t other : tdl) (a : A) : res alloc_error tdl * A :=
  match t with
  | TDL c None =>
      let (r, a') := a_new_datum ao (DText other) a in
      (res_map (fun d => TDL c (Some d)) r, a')
  | TDL c (Some (DText t')) =>
      let (r, a') := tdl_link t' other a in
      (res_map (fun t'' => TDL c (Some (DText t''))) r, a')
  | TDL c (Some _) => (Panic, a)
  end.

(** [concat], datum_list.rs 153-181.  On failure [self] (and what is linked to
    it) is dropped. *)
Definition tdl_concat (t1 t2 : tdl) (a : A) : res alloc_error tdl * A :=
  match tdl_is_empty t1 with
  | Ok true => (Ok t2, a)
  | Ok false =>
      match tdl_is_empty t2 with
      | Ok true => (Ok t1, a)
      | Ok false => tdl_link t1 t2 a
      | _ => (Panic, a)
      end
  | _ => (Panic, a)
  end.

Definition tdl_ops : text_ops tdl C A := {|
  tx_from := tdl_from;
  tx_chunks := tdl_chunks;
  tx_empty := tdl_empty;
  tx_concat := tdl_concat |}.
End TextDatumList.
