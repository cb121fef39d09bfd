(** [PosStrish], src/text/chunk/pos_strish.rs: sub-ranges of reference-counted
    strings. *)
From Coq Require Import List NArith Bool.
From Verif.Model Require Import Prelude Parser Utf8 Chunk.
Import ListNotations.
Set Implicit Arguments.
Local Open Scope N_scope.

(** [CharPos], pos_strish.rs 17. *)
Definition charpos := N.

(** [RefCntSlice], pos_strish.rs 110-115.  A reference-counted string
    ([RefCntStrish]: [Rc<String>], [Arc<str>], ...) is immutable here and
    modelled by its contents. *)
Record rcslice : Type := RcSlice { rs_str : str; rs_start : N; rs_end : N }.

(** [RefCntSlice::slice], pos_strish.rs 124-137, with its [debug_assert!]s (the
    subtraction [self.range.end - start] is checked as well). *)
Definition rc_slice (v : rcslice) (a b : N) : res Empty_set rcslice :=
  if (a <=? b) && (rs_start v <=? rs_end v) && (b <=? rs_end v - rs_start v)
  then Ok (RcSlice (rs_str v) (rs_start v + a) (rs_start v + b))
  else Panic.

(** [as_str], pos_strish.rs 146-148. *)
Definition rc_as_str (v : rcslice) : res Empty_set str :=
  str_slice (rs_str v) (rs_start v) (rs_end v).

(** [PosStrish], pos_strish.rs 192-199. *)
Record posstrish : Type := PosStrish { px_val : rcslice; px_pos : charpos }.

(** [PosStrish::new], pos_strish.rs 207-213. *)
Definition posstrish_new (s : str) (pos : charpos) : posstrish :=
  PosStrish (RcSlice s 0 (byte_len s)) pos.

(** [From<&str>], pos_strish.rs 220-222. *)
Definition posstrish_from (s : str) : posstrish := posstrish_new s 0.

(** [empty], pos_strish.rs 233. *)
Definition posstrish_empty : posstrish := posstrish_new [] 0.

(** [is_empty], pos_strish.rs 235. *)
Definition posstrish_is_empty (p : posstrish) : res Empty_set bool :=
  res_map (fun s => byte_len s =? 0) (rc_as_str (px_val p)).

(** [PosStrishIter], pos_strish.rs 256-262. *)
Record posstrish_iter : Type := PosStrishIter {
  xi_chunk : posstrish;
  xi_byte : N;
  xi_char : N;
  xi_peeked : option (item charpos);
  xi_accum : option ((N * N) * charpos) }.

(** [PosStrishIter::new], pos_strish.rs 267-275. *)
Definition posstrish_src_strm (p : posstrish) : posstrish_iter :=
  PosStrishIter p 0 0 None None.

(** [do_next_no_peeked], pos_strish.rs 277-285.  Simplification: [usize]
    additions on positions do not overflow. *)
Definition do_next_no_peeked (s : posstrish_iter)
  : res Empty_set (option (item charpos)) * posstrish_iter :=
  match res_bind (rc_as_str (px_val (xi_chunk s))) (fun v => str_from v (xi_byte s)) with
  | Ok [] => (Ok None, s)
  | Ok (ch :: _) =>
      (Ok (Some (Item ch (px_pos (xi_chunk s) + xi_char s))),
       PosStrishIter (xi_chunk s) (xi_byte s + len_utf8 ch) (xi_char s + 1)
                     (xi_peeked s) (xi_accum s))
  | _ => (Panic, s)
  end.

(** [do_next], pos_strish.rs 287-293. *)
Definition do_next_strish (s : posstrish_iter)
  : res Empty_set (option (item charpos)) * posstrish_iter :=
  match xi_peeked s with
  | Some it => (Ok (Some it),
                PosStrishIter (xi_chunk s) (xi_byte s) (xi_char s) None (xi_accum s))
  | None => do_next_no_peeked s
  end.

(** [next], pos_strish.rs 306-309. *)
Definition posstrish_next (s : posstrish_iter)
  : res Empty_set (option (item charpos)) * posstrish_iter :=
  do_next_strish (PosStrishIter (xi_chunk s) (xi_byte s) (xi_char s) (xi_peeked s) None).

(** [peek], pos_strish.rs 322-329. *)
Definition posstrish_peek (s : posstrish_iter)
  : res Empty_set (option (item charpos)) * posstrish_iter :=
  match xi_peeked s with
  | Some it => (Ok (Some it), s)
  | None =>
      let (r, s') := do_next_no_peeked s in
      match r with
      | Ok o => (Ok o, PosStrishIter (xi_chunk s') (xi_byte s') (xi_char s') o (xi_accum s'))
      | _ => (r, s')
      end
  end.

(** [next_accum], pos_strish.rs 331-344 (the subtractions are checked). *)
Definition posstrish_next_accum (s : posstrish_iter)
  : res Empty_set (option (item charpos)) * posstrish_iter :=
  let (r, s') := do_next_strish s in
  match r with
  | Ok (Some it) =>
      match xi_accum s' with
      | Some ((b, _), p) =>
          (Ok (Some it), PosStrishIter (xi_chunk s') (xi_byte s') (xi_char s') (xi_peeked s')
                                       (Some ((b, xi_byte s'), p)))
      | None =>
          if (len_utf8 (it_ch it) <=? xi_byte s') && (1 <=? xi_char s') then
            (Ok (Some it),
             PosStrishIter (xi_chunk s') (xi_byte s') (xi_char s') (xi_peeked s')
               (Some ((xi_byte s' - len_utf8 (it_ch it), xi_byte s'),
                      px_pos (xi_chunk s') + (xi_char s' - 1))))
          else (Panic, s')
      end
  | _ => (r, s')
  end.

(** [accum_done], pos_strish.rs 346-353. *)
Definition posstrish_accum_done (s : posstrish_iter) : res Empty_set posstrish * posstrish_iter :=
  let s' := PosStrishIter (xi_chunk s) (xi_byte s) (xi_char s) (xi_peeked s) None in
  (match xi_accum s with
   | None => Ok posstrish_empty
   | Some ((a, b), p) => res_map (fun v => PosStrish v p) (rc_slice (px_val (xi_chunk s)) a b)
   end, s').

Definition posstrish_ops : chunk_ops posstrish posstrish_iter charpos := {|
  c_empty := posstrish_empty;
  c_is_empty := posstrish_is_empty;
  c_src_strm := posstrish_src_strm;
  cs_peek := posstrish_peek;
  cs_next := posstrish_next;
  cs_next_accum := posstrish_next_accum;
  cs_accum_done := posstrish_accum_done |}.
