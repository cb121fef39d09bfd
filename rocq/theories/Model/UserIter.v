(** The two iterator-backed streams over an arbitrary iterator of the user, which can be
    endless, or return more items after a [None]. *)
From Coq Require Import List NArith Bool.
From Verif.Model Require Import Prelude Parser Utf8 Chunk PosStrish TextIter.
Import ListNotations.
Set Implicit Arguments.
Local Open Scope N_scope.

Section Peekable.
(** [Iterator::next] of the underlying iterator with states [I]. *)
Context {I X : Type} (step : I -> option X * I).

(** [Peekable] (standard library), as in [CharIter.v]. *)
Record upeekable : Type := UPeekable { uk_iter : I; uk_peeked : option (option X) }.
Definition uk_next (p : upeekable) : option X * upeekable :=
  match uk_peeked p with
  | Some o => (o, UPeekable (uk_iter p) None)
  | None => let (o, i) := step (uk_iter p) in (o, UPeekable i None)
  end.
Definition uk_peek (p : upeekable) : option X * upeekable :=
  match uk_peeked p with
  | Some o => (o, p)
  | None => let (o, i) := step (uk_iter p) in (o, UPeekable i (Some o))
  end.
End Peekable.
Arguments UPeekable {I X} _ _.
Arguments upeekable : clear implicits.

(** ** [CharIterSourceStream], src/source_stream/char_iter_src_strm.rs *)
Section Chars.
Context {TT A I : Type} (x : text_ops TT posstrish A) (step : I -> option char * I).

(** [iter.enumerate().map(map_fn)], char_iter_src_strm.rs 144-147: the user's iterator
    and the index of the next character. *)
Definition uenum_next (s : I * N) : option (item charpos) * (I * N) :=
  match step (fst s) with
  | (Some c, i) => (Some (Item c (snd s)), (i, snd s + 1))
  | (None, i) => (None, (i, snd s))
  end.

(** [CharIterSourceStream], char_iter_src_strm.rs 110-120. *)
Record uchars : Type := UChars {
  uc_iter : upeekable (I * N) (item charpos);
  uc_accum : option (str * charpos) }.

(** [new], char_iter_src_strm.rs 141-153. *)
Definition uchars_new (i : I) : uchars := UChars (UPeekable (i, 0) None) None.

(** [next], char_iter_src_strm.rs 169-172. *)
Definition uchars_next (s : uchars) : res Empty_set (option (item charpos)) * uchars :=
  let (o, it) := uk_next uenum_next (uc_iter s) in (Ok o, UChars it None).

(** [peek], char_iter_src_strm.rs 186-188. *)
Definition uchars_peek (s : uchars) : res Empty_set (option (item charpos)) * uchars :=
  let (o, it) := uk_peek uenum_next (uc_iter s) in (Ok o, UChars it (uc_accum s)).

(** [next_accum], char_iter_src_strm.rs 190-206. *)
Definition uchars_next_accum (s : uchars) (a : A)
  : res alloc_error (option (item charpos)) * (uchars * A) :=
  let (o, it) := uk_next uenum_next (uc_iter s) in
  match o with
  | None => (Ok None, (UChars it (uc_accum s), a))
  | Some next =>
      (Ok (Some next),
       (UChars it (Some match uc_accum s with
                        | Some (t, pos) => (t ++ [it_ch next], pos)
                        | None => ([it_ch next], it_pos next)
                        end), a))
  end.

(** [accum_done], char_iter_src_strm.rs 208-218. *)
Definition uchars_accum_done (s : uchars) (a : A) : res alloc_error TT * (uchars * A) :=
  (Ok (tx_from x match uc_accum s with
                 | Some (t, pos) => posstrish_new t pos
                 | None => posstrish_empty
                 end), (UChars (uc_iter s) None, a)).

Definition uchars_stream : stream_ops uchars A TT charpos := {|
  s_peek := uchars_peek;
  s_next := uchars_next;
  s_next_accum := uchars_next_accum;
  s_accum_done := uchars_accum_done |}.
End Chars.
Arguments uchars : clear implicits.

(** ** [StrishIterSourceStream], src/source_stream/strish_iter_src_strm.rs *)
Section Strings.
Context {TT A I : Type} (x : text_ops TT posstrish A) (step : I -> option str * I).
(** The bound of all loops: with endless empty strings they do not end. *)
Context (lf : nat).

(** [StrishIterSourceStream], strish_iter_src_strm.rs 28-38. *)
Record ustrs : Type := UStrs {
  us_cur : option posstrish_iter;
  us_char : N;
  us_iter : I;
  us_peeked : option posstrish_iter;
  us_accum : option TT }.

(** [next_posstrish_of], strish_iter_src_strm.rs 66-75. *)
Fixpoint unext_posstrish_of (fuel : nat) (it : I) (char_idx : N)
  : res Empty_set (option posstrish_iter) * I :=
  match fuel with
  | O => (OutOfFuel, it)
  | Datatypes.S f =>
      match step it with
      | (None, it') => (Ok None, it')
      | (Some s, it') =>
          let ps := posstrish_new s char_idx in
          match rc_as_str (px_val ps) with
          | Ok v => if 0 <? byte_len v then (Ok (Some (posstrish_src_strm ps)), it')
                    else unext_posstrish_of f it' char_idx
          | _ => (Panic, it')
          end
      end
  end.

(** [new], strish_iter_src_strm.rs 48-61. *)
Definition ustrs_new (it : I) : res Empty_set ustrs :=
  let (r, it') := unext_posstrish_of lf it 0 in
  res_map (fun cur => UStrs cur 0 it' None None) r.

(** [next_posstrish], strish_iter_src_strm.rs 80-88. *)
Definition unext_posstrish (cs : posstrish_iter) (char_idx : N) (it : I)
    (peeked : option posstrish_iter)
  : res Empty_set (option posstrish_iter * I * option posstrish_iter) :=
  match fst (posstrish_peek cs) with
  | Ok None =>
      match peeked with
      | Some p => Ok (Some p, it, None)
      | None =>
          let (r, it') := unext_posstrish_of lf it char_idx in
          res_map (fun cur => (cur, it', None)) r
      end
  | _ => Panic
  end.

(** The loop of [next], strish_iter_src_strm.rs 105-116. *)
Fixpoint ustrs_next_loop (fuel : nat) (s : ustrs)
  : res Empty_set (option (item charpos)) * ustrs :=
  match fuel with
  | O => (OutOfFuel, s)
  | Datatypes.S f =>
      match us_cur s with
      | None => (Ok None, s)
      | Some cs =>
          match posstrish_next cs with
          | (Ok (Some it), cs') =>
              (Ok (Some it), UStrs (Some cs') (us_char s + 1) (us_iter s) (us_peeked s) (us_accum s))
          | (Ok None, cs') =>
              match unext_posstrish cs' (us_char s) (us_iter s) (us_peeked s) with
              | Ok (cur, it', peeked) =>
                  ustrs_next_loop f (UStrs cur (us_char s) it' peeked (us_accum s))
              | OutOfFuel => (OutOfFuel, s)
              | _ => (Panic, s)
              end
          | (r, cs') => (r, s)
          end
      end
  end.

(** [next], strish_iter_src_strm.rs 103-117. *)
Definition ustrs_next (s : ustrs) : res Empty_set (option (item charpos)) * ustrs :=
  ustrs_next_loop lf (UStrs (us_cur s) (us_char s) (us_iter s) (us_peeked s) None).

(** [peek], strish_iter_src_strm.rs 130-147. *)
Definition ustrs_peek (s : ustrs) : res Empty_set (option (item charpos)) * ustrs :=
  match us_cur s with
  | None => (Ok None, s)
  | Some cs =>
      let (r, cs') := posstrish_peek cs in
      match r with
      | Ok None =>
          match (match us_peeked s with
                 | Some p => (Ok (Some p), us_iter s)
                 | None => unext_posstrish_of lf (us_iter s) (us_char s)
                 end) with
          | (Ok (Some p), it') =>
              let (r', p') := posstrish_peek p in
              (r', UStrs (Some cs') (us_char s) it' (Some p') (us_accum s))
          | (Ok None, it') => (Ok None, UStrs (Some cs') (us_char s) it' None (us_accum s))
          | (OutOfFuel, it') => (OutOfFuel, UStrs (Some cs') (us_char s) it' None (us_accum s))
          | (_, it') => (Panic, UStrs (Some cs') (us_char s) it' None (us_accum s))
          end
      | _ => (r, UStrs (Some cs') (us_char s) (us_iter s) (us_peeked s) (us_accum s))
      end
  end.

(** The loop of [next_accum], strish_iter_src_strm.rs 153-167. *)
Fixpoint ustrs_next_accum_loop (fuel : nat) (s : ustrs) (a : A)
  : res alloc_error (option (item charpos)) * (ustrs * A) :=
  match fuel with
  | O => (OutOfFuel, (s, a))
  | Datatypes.S f =>
      match us_cur s with
      | None => (Ok None, (s, a))
      | Some cs =>
          match posstrish_next_accum cs with
          | (Ok (Some it), cs') =>
              (Ok (Some it),
               (UStrs (Some cs') (us_char s + 1) (us_iter s) (us_peeked s) (us_accum s), a))
          | (Ok None, cs') =>
              match accum_chunk posstrish_ops x (us_accum s) cs' a with
              | (Ok t, (cs'', a')) =>
                  match unext_posstrish cs'' (us_char s) (us_iter s) (us_peeked s) with
                  | Ok (cur, it', peeked) =>
                      ustrs_next_accum_loop f (UStrs cur (us_char s) it' peeked (Some t)) a'
                  | OutOfFuel => (OutOfFuel, (s, a'))
                  | _ => (Panic, (s, a'))
                  end
              | (Err e, (cs'', a')) =>
                  (Err e, (UStrs (Some cs'') (us_char s) (us_iter s) (us_peeked s) None, a'))
              | (_, (cs'', a')) => (Panic, (s, a'))
              end
          | (_, cs') => (Panic, (s, a))
          end
      end
  end.

(** [next_accum], strish_iter_src_strm.rs 149-168. *)
Definition ustrs_next_accum (s : ustrs) (a : A)
  : res alloc_error (option (item charpos)) * (ustrs * A) := ustrs_next_accum_loop lf s a.

(** [accum_done], strish_iter_src_strm.rs 170-177. *)
Definition ustrs_accum_done (s : ustrs) (a : A) : res alloc_error TT * (ustrs * A) :=
  match us_cur s with
  | None => (Ok (match us_accum s with Some t => t | None => tx_empty x end),
             (UStrs None (us_char s) (us_iter s) (us_peeked s) None, a))
  | Some cs =>
      let '(r, (cs', a')) := accum_chunk posstrish_ops x (us_accum s) cs a in
      (r, (UStrs (Some cs') (us_char s) (us_iter s) (us_peeked s) None, a'))
  end.

Definition ustrs_stream : stream_ops ustrs A TT charpos := {|
  s_peek := ustrs_peek;
  s_next := ustrs_next;
  s_next_accum := ustrs_next_accum;
  s_accum_done := ustrs_accum_done |}.
End Strings.
Arguments ustrs : clear implicits.
