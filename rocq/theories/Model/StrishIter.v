(** [StrishIterSourceStream], src/source_stream/strish_iter_src_strm.rs. *)
From Coq Require Import List NArith Bool.
From Verif.Model Require Import Prelude Parser Utf8 Chunk PosStrish TextIter.
Import ListNotations.
Set Implicit Arguments.
Local Open Scope N_scope.

Section StrishIter.
Context {TT A : Type} (x : text_ops TT posstrish A).

(** [StrishIterSourceStream], strish_iter_src_strm.rs 28-38.  The user's
    [Iterator] of strings is the (finite) list of strings it still yields. *)
Record strishiter : Type := StrishIter {
  si_cur : option posstrish_iter;
  si_char : N;
  si_iter : list str;
  si_peeked : option posstrish_iter;
  si_accum : option TT }.

(** [next_posstrish_of], strish_iter_src_strm.rs 66-75: the stream of the next
    nonempty string, and the strings left. *)
Fixpoint next_posstrish_of (it : list str) (char_idx : N)
  : res Empty_set (option posstrish_iter) * list str :=
  match it with
  | [] => (Ok None, [])
  | s :: it' =>
      let ps := posstrish_new s char_idx in
      match rc_as_str (px_val ps) with
      | Ok v => if 0 <? byte_len v then (Ok (Some (posstrish_src_strm ps)), it')
                else next_posstrish_of it' char_idx
      | _ => (Panic, it')
      end
  end.

(** [new], strish_iter_src_strm.rs 48-61. *)
Definition strishiter_new (it : list str) : res Empty_set strishiter :=
  let (r, it') := next_posstrish_of it 0 in
  res_map (fun cur => StrishIter cur 0 it' None None) r.

(** [next_posstrish], strish_iter_src_strm.rs 80-88, called with current
    stream [cs]: result, and the new current stream, strings left and peeked
    stream.  The [debug_assert_eq!] peeks [cs]. *)
Definition next_posstrish (cs : posstrish_iter) (char_idx : N) (it : list str)
    (peeked : option posstrish_iter)
  : res Empty_set (option posstrish_iter * list str * option posstrish_iter) :=
  match fst (posstrish_peek cs) with
  | Ok None =>
      match peeked with
      | Some p => Ok (Some p, it, None)
      | None =>
          let (r, it') := next_posstrish_of it char_idx in
          res_map (fun cur => (cur, it', None)) r
      end
  | _ => Panic
  end.

(** The loop of [next], strish_iter_src_strm.rs 105-116.  [fuel] bounds the
    number of iterations. *)
Fixpoint strishiter_next_loop (fuel : nat) (s : strishiter)
  : res Empty_set (option (item charpos)) * strishiter :=
  match fuel with
  | O => (OutOfFuel, s)
  | Datatypes.S f =>
      match si_cur s with
      | None => (Ok None, s)
      | Some cs =>
          match posstrish_next cs with
          | (Ok (Some it), cs') =>
              (Ok (Some it), StrishIter (Some cs') (si_char s + 1) (si_iter s) (si_peeked s) (si_accum s))
          | (Ok None, cs') =>
              match next_posstrish cs' (si_char s) (si_iter s) (si_peeked s) with
              | Ok (cur, it', peeked) =>
                  strishiter_next_loop f (StrishIter cur (si_char s) it' peeked (si_accum s))
              | _ => (Panic, s)
              end
          | (r, cs') => (r, s)
          end
      end
  end.

(** Each iteration of the loops uses up a string or the peeked one. *)
Definition strishiter_fuel (s : strishiter) : nat := 3 + length (si_iter s).

(** [next], strish_iter_src_strm.rs 103-117. *)
Definition strishiter_next (s : strishiter) : res Empty_set (option (item charpos)) * strishiter :=
  strishiter_next_loop (strishiter_fuel s)
    (StrishIter (si_cur s) (si_char s) (si_iter s) (si_peeked s) None).

(** [peek], strish_iter_src_strm.rs 130-147. *)
Definition strishiter_peek (s : strishiter) : res Empty_set (option (item charpos)) * strishiter :=
  match si_cur s with
  | None => (Ok None, s)
  | Some cs =>
      let (r, cs') := posstrish_peek cs in
      match r with
      | Ok None =>
          match (match si_peeked s with
                 | Some p => (Ok (Some p), si_iter s)
                 | None => next_posstrish_of (si_iter s) (si_char s)
                 end) with
          | (Ok (Some p), it') =>
              let (r', p') := posstrish_peek p in
              (r', StrishIter (Some cs') (si_char s) it' (Some p') (si_accum s))
          | (Ok None, it') => (Ok None, StrishIter (Some cs') (si_char s) it' None (si_accum s))
          | (_, it') => (Panic, StrishIter (Some cs') (si_char s) it' None (si_accum s))
          end
      | _ => (r, StrishIter (Some cs') (si_char s) (si_iter s) (si_peeked s) (si_accum s))
      end
  end.

(** The loop of [next_accum], strish_iter_src_strm.rs 153-167. *)
Fixpoint strishiter_next_accum_loop (fuel : nat) (s : strishiter) (a : A)
  : res alloc_error (option (item charpos)) * (strishiter * A) :=
  match fuel with
  | O => (OutOfFuel, (s, a))
  | Datatypes.S f =>
      match si_cur s with
      | None => (Ok None, (s, a))
      | Some cs =>
          match posstrish_next_accum cs with
          | (Ok (Some it), cs') =>
              (Ok (Some it),
               (StrishIter (Some cs') (si_char s + 1) (si_iter s) (si_peeked s) (si_accum s), a))
          | (Ok None, cs') =>
              match accum_chunk posstrish_ops x (si_accum s) cs' a with
              | (Ok t, (cs'', a')) =>
                  match next_posstrish cs'' (si_char s) (si_iter s) (si_peeked s) with
                  | Ok (cur, it', peeked) =>
                      strishiter_next_accum_loop f (StrishIter cur (si_char s) it' peeked (Some t)) a'
                  | _ => (Panic, (s, a'))
                  end
              | (Err e, (cs'', a')) =>
                  (Err e, (StrishIter (Some cs'') (si_char s) (si_iter s) (si_peeked s) None, a'))
              | (_, (cs'', a')) => (Panic, (s, a'))
              end
          | (_, cs') => (Panic, (s, a))
          end
      end
  end.

(** [next_accum], strish_iter_src_strm.rs 149-168. *)
Definition strishiter_next_accum (s : strishiter) (a : A)
  : res alloc_error (option (item charpos)) * (strishiter * A) :=
  strishiter_next_accum_loop (strishiter_fuel s) s a.

(** [accum_done], strish_iter_src_strm.rs 170-177. *)
Definition strishiter_accum_done (s : strishiter) (a : A) : res alloc_error TT * (strishiter * A) :=
  match si_cur s with
  | None => (Ok (match si_accum s with Some t => t | None => tx_empty x end),
             (StrishIter None (si_char s) (si_iter s) (si_peeked s) None, a))
  | Some cs =>
      let '(r, (cs', a')) := accum_chunk posstrish_ops x (si_accum s) cs a in
      (r, (StrishIter (Some cs') (si_char s) (si_iter s) (si_peeked s) None, a'))
  end.

Definition strishiter_stream : stream_ops strishiter A TT charpos := {|
  s_peek := strishiter_peek;
  s_next := strishiter_next;
  s_next_accum := strishiter_next_accum;
  s_accum_done := strishiter_accum_done |}.
End StrishIter.
Arguments strishiter : clear implicits.
