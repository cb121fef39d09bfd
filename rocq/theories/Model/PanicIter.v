(** The two iterator-backed streams over an iterator of the user that can panic, where the
    caller catches the panic and goes on. *)
From Coq Require Import List NArith Bool.
From Verif.Model Require Import Prelude Parser Utf8 Chunk PosStrish TextIter.
Import ListNotations.
Set Implicit Arguments.
Local Open Scope N_scope.

(** What the calls of the user's [Iterator::next] do, in order: [Some c] is returning
    [Some(c)], [None] is panicking; when there are no more, returning [None].  On a [Panic] the
    state that is returned is what unwinding leaves behind. *)

(** ** [CharIterSourceStream], src/source_stream/char_iter_src_strm.rs *)
Section Chars.
Context {TT A : Type} (x : text_ops TT posstrish A).

(** [CharIterSourceStream], char_iter_src_strm.rs 110-120: the iterator, the count of
    [Enumerate], the peeked item of [Peekable] (123), and the accumulation. *)
Record pchars : Type := PChars {
  pc_iter : list (option char);
  pc_index : N;
  pc_peeked : option (option (item charpos));
  pc_accum : option (str * charpos) }.

(** [new], char_iter_src_strm.rs 141-153. *)
Definition pchars_new (evs : list (option char)) : pchars := PChars evs 0 None None.

(** [iter.enumerate().map(map_fn)], char_iter_src_strm.rs 144-147: [Enumerate::next] counts
    after the iterator has returned. *)
Definition penum_next (evs : list (option char)) (i : N)
  : res Empty_set (option (item charpos)) * (list (option char) * N) :=
  match evs with
  | [] => (Ok None, ([], i))
  | None :: r => (Panic, (r, i))
  | Some c :: r => (Ok (Some (Item c i)), (r, i + 1))
  end.

(** [Peekable::next], with [accum] as the accumulation: takes what was peeked, if
    anything. *)
Definition pchars_pull (s : pchars) (accum : option (str * charpos))
  : res Empty_set (option (item charpos)) * pchars :=
  match pc_peeked s with
  | Some o => (Ok o, PChars (pc_iter s) (pc_index s) None accum)
  | None => let '(r, (evs, i)) := penum_next (pc_iter s) (pc_index s) in (r, PChars evs i None accum)
  end.

(** [next], char_iter_src_strm.rs 169-172. *)
Definition pchars_next (s : pchars) : res Empty_set (option (item charpos)) * pchars :=
  pchars_pull s None.

(** [peek], char_iter_src_strm.rs 186-188: [Peekable::peek]. *)
Definition pchars_peek (s : pchars) : res Empty_set (option (item charpos)) * pchars :=
  match pc_peeked s with
  | Some o => (Ok o, s)
  | None =>
      match penum_next (pc_iter s) (pc_index s) with
      | (Ok o, (evs, i)) => (Ok o, PChars evs i (Some o) (pc_accum s))
      | (r, (evs, i)) => (r, PChars evs i None (pc_accum s))
      end
  end.

(** [next_accum], char_iter_src_strm.rs 190-206. *)
Definition pchars_next_accum (s : pchars) (a : A)
  : res alloc_error (option (item charpos)) * (pchars * A) :=
  match pchars_pull s (pc_accum s) with
  | (Ok (Some next), s') =>
      (Ok (Some next),
       (PChars (pc_iter s') (pc_index s') (pc_peeked s')
          (Some match pc_accum s with
                | Some (t, pos) => (t ++ [it_ch next], pos)
                | None => ([it_ch next], it_pos next)
                end), a))
  | (r, s') => (no_err r, (s', a))
  end.

(** [accum_done], char_iter_src_strm.rs 208-218. *)
Definition pchars_accum_done (s : pchars) (a : A) : res alloc_error TT * (pchars * A) :=
  (Ok (tx_from x match pc_accum s with
                 | Some (t, pos) => posstrish_new t pos
                 | None => posstrish_empty
                 end), (PChars (pc_iter s) (pc_index s) (pc_peeked s) None, a)).

Definition pchars_stream : stream_ops pchars A TT charpos := {|
  s_peek := pchars_peek;
  s_next := pchars_next;
  s_next_accum := pchars_next_accum;
  s_accum_done := pchars_accum_done |}.
End Chars.

(** ** [StrishIterSourceStream], src/source_stream/strish_iter_src_strm.rs *)
Section Strings.
Context {TT A : Type} (x : text_ops TT posstrish A).

(** [StrishIterSourceStream], strish_iter_src_strm.rs 28-38. *)
Record pstrs : Type := PStrs {
  pt_cur : option posstrish_iter;
  pt_char : N;
  pt_iter : list (option str);
  pt_peeked : option posstrish_iter;
  pt_accum : option TT }.

(** [next_posstrish_of], strish_iter_src_strm.rs 66-75. *)
Fixpoint pnext_posstrish_of (it : list (option str)) (char_idx : N)
  : res Empty_set (option posstrish_iter) * list (option str) :=
  match it with
  | [] => (Ok None, [])
  | None :: it' => (Panic, it')
  | Some s :: it' =>
      let ps := posstrish_new s char_idx in
      match rc_as_str (px_val ps) with
      | Ok v => if 0 <? byte_len v then (Ok (Some (posstrish_src_strm ps)), it')
                else pnext_posstrish_of it' char_idx
      | _ => (Panic, it')
      end
  end.

(** [new], strish_iter_src_strm.rs 48-61.  (When it panics there is no stream.) *)
Definition pstrs_new (it : list (option str)) : res Empty_set pstrs :=
  let (r, it') := pnext_posstrish_of it 0 in
  res_map (fun cur => PStrs cur 0 it' None None) r.

(** [next_posstrish], strish_iter_src_strm.rs 80-88, called with current stream [cs] and
    accumulation [accum]: the stream afterwards.  On a panic the current stream and [accum] stay.
    The [debug_assert_eq!] peeks [cs]. *)
Definition pnext_posstrish (cs : posstrish_iter) (char_idx : N) (it : list (option str))
    (peeked : option posstrish_iter) (accum : option TT) : res Empty_set unit * pstrs :=
  match posstrish_peek cs with
  | (Ok None, cs') =>
      match peeked with
      | Some p => (Ok tt, PStrs (Some p) char_idx it None accum)
      | None =>
          match pnext_posstrish_of it char_idx with
          | (Ok cur, it') => (Ok tt, PStrs cur char_idx it' None accum)
          | (r, it') => (res_map (fun _ => tt) r, PStrs (Some cs') char_idx it' None accum)
          end
      end
  | (_, cs') => (Panic, PStrs (Some cs') char_idx it peeked accum)
  end.

(** The loop of [next], strish_iter_src_strm.rs 105-116. *)
Fixpoint pstrs_next_loop (fuel : nat) (s : pstrs) : res Empty_set (option (item charpos)) * pstrs :=
  match fuel with
  | O => (OutOfFuel, s)
  | Datatypes.S f =>
      match pt_cur s with
      | None => (Ok None, s)
      | Some cs =>
          match posstrish_next cs with
          | (Ok (Some it), cs') =>
              (Ok (Some it), PStrs (Some cs') (pt_char s + 1) (pt_iter s) (pt_peeked s) (pt_accum s))
          | (Ok None, cs') =>
              match pnext_posstrish cs' (pt_char s) (pt_iter s) (pt_peeked s) (pt_accum s) with
              | (Ok _, s') => pstrs_next_loop f s'
              | (_, s') => (Panic, s')
              end
          | (r, cs') => (r, s)
          end
      end
  end.

(** Each iteration of the loops uses up a string or the peeked one. *)
Definition pstrs_fuel (s : pstrs) : nat := 3 + length (pt_iter s).

(** [next], strish_iter_src_strm.rs 103-117. *)
Definition pstrs_next (s : pstrs) : res Empty_set (option (item charpos)) * pstrs :=
  pstrs_next_loop (pstrs_fuel s) (PStrs (pt_cur s) (pt_char s) (pt_iter s) (pt_peeked s) None).

(** [peek], strish_iter_src_strm.rs 130-147. *)
Definition pstrs_peek (s : pstrs) : res Empty_set (option (item charpos)) * pstrs :=
  match pt_cur s with
  | None => (Ok None, s)
  | Some cs =>
      let (r, cs') := posstrish_peek cs in
      match r with
      | Ok None =>
          match (match pt_peeked s with
                 | Some p => (Ok (Some p), pt_iter s)
                 | None => pnext_posstrish_of (pt_iter s) (pt_char s)
                 end) with
          | (Ok (Some p), it') =>
              let (r', p') := posstrish_peek p in
              (r', PStrs (Some cs') (pt_char s) it' (Some p') (pt_accum s))
          | (Ok None, it') => (Ok None, PStrs (Some cs') (pt_char s) it' None (pt_accum s))
          | (_, it') => (Panic, PStrs (Some cs') (pt_char s) it' None (pt_accum s))
          end
      | _ => (r, PStrs (Some cs') (pt_char s) (pt_iter s) (pt_peeked s) (pt_accum s))
      end
  end.

(** The loop of [next_accum], strish_iter_src_strm.rs 153-167. *)
Fixpoint pstrs_next_accum_loop (fuel : nat) (s : pstrs) (a : A)
  : res alloc_error (option (item charpos)) * (pstrs * A) :=
  match fuel with
  | O => (OutOfFuel, (s, a))
  | Datatypes.S f =>
      match pt_cur s with
      | None => (Ok None, (s, a))
      | Some cs =>
          match posstrish_next_accum cs with
          | (Ok (Some it), cs') =>
              (Ok (Some it),
               (PStrs (Some cs') (pt_char s + 1) (pt_iter s) (pt_peeked s) (pt_accum s), a))
          | (Ok None, cs') =>
              match accum_chunk posstrish_ops x (pt_accum s) cs' a with
              | (Ok t, (cs'', a')) =>
                  match pnext_posstrish cs'' (pt_char s) (pt_iter s) (pt_peeked s) (Some t) with
                  | (Ok _, s') => pstrs_next_accum_loop f s' a'
                  | (_, s') => (Panic, (s', a'))
                  end
              | (Err e, (cs'', a')) =>
                  (Err e, (PStrs (Some cs'') (pt_char s) (pt_iter s) (pt_peeked s) None, a'))
              | (_, (cs'', a')) => (Panic, (s, a'))
              end
          | (_, cs') => (Panic, (s, a))
          end
      end
  end.

(** [next_accum], strish_iter_src_strm.rs 149-168. *)
Definition pstrs_next_accum (s : pstrs) (a : A)
  : res alloc_error (option (item charpos)) * (pstrs * A) :=
  pstrs_next_accum_loop (pstrs_fuel s) s a.

(** [accum_done], strish_iter_src_strm.rs 170-177. *)
Definition pstrs_accum_done (s : pstrs) (a : A) : res alloc_error TT * (pstrs * A) :=
  match pt_cur s with
  | None => (Ok (match pt_accum s with Some t => t | None => tx_empty x end),
             (PStrs None (pt_char s) (pt_iter s) (pt_peeked s) None, a))
  | Some cs =>
      let '(r, (cs', a')) := accum_chunk posstrish_ops x (pt_accum s) cs a in
      (r, (PStrs (Some cs') (pt_char s) (pt_iter s) (pt_peeked s) None, a'))
  end.

Definition pstrs_stream : stream_ops pstrs A TT charpos := {|
  s_peek := pstrs_peek;
  s_next := pstrs_next;
  s_next_accum := pstrs_next_accum;
  s_accum_done := pstrs_accum_done |}.
End Strings.
Arguments pstrs : clear implicits.
