(** [PosStr], core/src/text/chunk/premade/pos_str.rs: borrowed string slices
    with their position. *)
From Coq Require Import List NArith Bool.
From Verif.Model Require Import Prelude Parser Utf8 Chunk.
Import ListNotations.
Set Implicit Arguments.
Local Open Scope N_scope.

(** [StrPos], pos_str.rs 16-25. *)
Record strpos : Type := StrPos { sp_src : str; sp_byte : N; sp_char : N }.

(** [StrPos::empty], pos_str.rs 28-34. *)
Definition strpos_empty : strpos := StrPos [] 0 0.

(** [PosStr], pos_str.rs 45-50.  A [&str] is modelled by its characters. *)
Record posstr : Type := PosStr { ps_val : str; ps_pos : strpos }.

(** [PosStr::empty], pos_str.rs 53-58. *)
Definition posstr_empty : posstr := PosStr [] strpos_empty.

(** [From<&str>], pos_str.rs 66-75. *)
Definition posstr_from (s : str) : posstr := PosStr s (StrPos s 0 0).

(** [is_empty], pos_str.rs 86-88. *)
Definition posstr_is_empty (p : posstr) : res Empty_set bool := Ok (byte_len (ps_val p) =? 0).

(** [posstr.val.char_indices().enumerate()] with [map_fn] applied,
    pos_str.rs 121-131; [ci], [bi]: index and byte offset of the next
    character.  Simplification: [usize] additions do not overflow (positions lie
    inside a string in memory). *)
Fixpoint indexed (pos : strpos) (ci bi : N) (s : str) : list (item strpos) :=
  match s with
  | [] => []
  | c :: s' =>
      Item c (StrPos (sp_src pos) (sp_byte pos + bi) (sp_char pos + ci)) ::
      indexed pos (ci + 1) (bi + len_utf8 c) s'
  end.

(** [PosStrIter], pos_str.rs 105-108.  The [Peekable] iterator adapter is the
    list of items it still yields. *)
Record posstr_iter : Type := PosStrIter {
  pi_iter : list (item strpos);
  pi_accum : option posstr }.

(** [PosStrIter::new], pos_str.rs 120-134. *)
Definition posstr_src_strm (p : posstr) : posstr_iter :=
  PosStrIter (indexed (ps_pos p) 0 0 (ps_val p)) None.

(** [next], pos_str.rs 146-149. *)
Definition posstr_next (s : posstr_iter) : res Empty_set (option (item strpos)) * posstr_iter :=
  (Ok (hd_error (pi_iter s)), PosStrIter (tl (pi_iter s)) None).

(** [peek], pos_str.rs 160-162. *)
Definition posstr_peek (s : posstr_iter) : res Empty_set (option (item strpos)) * posstr_iter :=
  (Ok (hd_error (pi_iter s)), s).

(** [next_accum], pos_str.rs 164-180. *)
Definition posstr_next_accum (s : posstr_iter)
  : res Empty_set (option (item strpos)) * posstr_iter :=
  match pi_iter s with
  | [] => (Ok None, s)
  | next :: rest =>
      let end_ := sp_byte (it_pos next) + len_utf8 (it_ch next) in
      match pi_accum s with
      | Some accum =>
          match str_slice (sp_src (ps_pos accum)) (sp_byte (ps_pos accum)) end_ with
          | Ok v => (Ok (Some next), PosStrIter rest (Some (PosStr v (ps_pos accum))))
          | _ => (Panic, PosStrIter rest (Some accum))
          end
      | None =>
          match str_slice (sp_src (it_pos next)) (sp_byte (it_pos next)) end_ with
          | Ok v => (Ok (Some next), PosStrIter rest (Some (PosStr v (it_pos next))))
          | _ => (Panic, PosStrIter rest None)
          end
      end
  end.

(** [accum_done], pos_str.rs 182-184. *)
Definition posstr_accum_done (s : posstr_iter) : res Empty_set posstr * posstr_iter :=
  (Ok (match pi_accum s with Some p => p | None => posstr_empty end),
   PosStrIter (pi_iter s) None).

Definition posstr_ops : chunk_ops posstr posstr_iter strpos := {|
  c_empty := posstr_empty;
  c_is_empty := posstr_is_empty;
  c_src_strm := posstr_src_strm;
  cs_peek := posstr_peek;
  cs_next := posstr_next;
  cs_next_accum := posstr_next_accum;
  cs_accum_done := posstr_accum_done |}.
