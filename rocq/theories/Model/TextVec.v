(** [TextVec], src/text/vec.rs. *)
From Coq Require Import List NArith Bool.
From Verif.Model Require Import Prelude Parser Chunk.
Import ListNotations.
Set Implicit Arguments.

Section TextVec.
Context {C CS Pos A : Type} (k : chunk_ops C CS Pos).

(** [TextVec] and [Repr], src/text/vec.rs 20-26.  A [Vec] is a list. *)
Inductive tvec : Type := Single (c : C) | Multi (l : list C).

(** [From], src/text/vec.rs 29-35. *)
Definition tvec_from (c : C) : tvec := Single c.

(** [iter_chunks_state], src/text/vec.rs 98-103: the slice of chunks. *)
Definition tvec_slice (t : tvec) : list C :=
  match t with Single c => [c] | Multi l => l end.

(** [State::next] for slices, core/src/text/iter/chunks.rs 90-101: the first
    chunk and the rest if not empty. *)
Definition slice_state_next (l : list C) : option (C * option (list C)) :=
  match l with
  | [] => None
  | c :: l' => Some (c, match l' with [] => None | _ => Some l' end)
  end.

(** [chunks::Iter] over a slice, core/src/text/iter/chunks.rs 63-70. *)
Definition tvec_chunks (t : tvec) : chunk_seq C := seq_of (tvec_slice t).

(** [empty], src/text/vec.rs 82-84. *)
Definition tvec_empty : tvec := Multi [].

(** [is_empty], src/text/vec.rs 86-88. *)
Definition tvec_is_empty (t : tvec) : res Empty_set bool := all_empty k (tvec_chunks t).

(** [concat], src/text/vec.rs 113-140. *)
Definition tvec_concat (t1 t2 : tvec) (a : A) : res alloc_error tvec * A :=
  (res_bind (no_err (tvec_is_empty t1)) (fun e1 =>
   if e1 then Ok t2
   else res_bind (no_err (tvec_is_empty t2)) (fun e2 =>
   if e2 then Ok t1
   else Ok match t1 with
        | Single chunk =>
            match t2 with
            | Single other_chunk => Multi [chunk; other_chunk]
            | Multi other_chunks => Multi (chunk :: other_chunks)
            end
        | Multi chunks =>
            match t2 with
            | Single other_chunk => Multi (chunks ++ [other_chunk])
            | Multi other_chunks => Multi (chunks ++ other_chunks)
            end
        end)), a).

Definition tvec_ops : text_ops tvec C A := {|
  tx_from := tvec_from;
  tx_chunks := tvec_chunks;
  tx_empty := tvec_empty;
  tx_concat := tvec_concat |}.
End TextVec.
Arguments tvec : clear implicits.
