(** Rust's [char] and [str]: UTF-8 lengths, encoding, validation, and slicing by
    byte offsets.  These are parts of Rust's [core] library used by the code in
    /repo (documented behaviour), not code of /repo itself. *)
From Coq Require Import List NArith Bool.
From Verif.Model Require Import Prelude.
Import ListNotations.
Set Implicit Arguments.
Local Open Scope N_scope.

(** The invariant of Rust's [char]: a Unicode scalar value. *)
Definition is_scalar (c : char) : bool :=
  (c <? 0xD800) || ((0xE000 <=? c) && (c <? 0x110000)).

(** [char::len_utf8], used in core/src/text.rs 236,
    core/src/text/chunk/premade/pos_str.rs 167,
    src/text/chunk/pos_strish.rs 282, 338. *)
Definition len_utf8 (c : char) : N :=
  if c <? 0x80 then 1 else if c <? 0x800 then 2 else if c <? 0x10000 then 3 else 4.

Definition byte := N.

(** [char::encode_utf8], used in core/src/text.rs 237: the bytes written. *)
Definition encode_char (c : char) : list byte :=
  if c <? 0x80 then [c]
  else if c <? 0x800 then [0xC0 + c / 64; 0x80 + c mod 64]
  else if c <? 0x10000 then [0xE0 + c / 4096; 0x80 + (c / 64) mod 64; 0x80 + c mod 64]
  else [0xF0 + c / 262144; 0x80 + (c / 4096) mod 64; 0x80 + (c / 64) mod 64; 0x80 + c mod 64].

Definition encode (s : list char) : list byte := flat_map encode_char s.

Definition cont (b : byte) : bool := (0x80 <=? b) && (b <? 0xC0).

(** [str::from_utf8], used in core/src/text.rs 233: the characters, or [None]
    for bytes that are not well-formed UTF-8 (Unicode table 3-7: no overlong
    forms, no surrogates, nothing above 10FFFF). *)
Fixpoint decode (bs : list byte) : option (list char) :=
  match bs with
  | [] => Some []
  | b0 :: r0 =>
      if b0 <? 0x80 then option_map (cons b0) (decode r0)
      else match r0 with
      | [] => None
      | b1 :: r1 =>
          if (0xC2 <=? b0) && (b0 <? 0xE0) then
            if cont b1 then option_map (cons ((b0 - 0xC0) * 64 + (b1 - 0x80))) (decode r1)
            else None
          else match r1 with
          | [] => None
          | b2 :: r2 =>
              if (0xE0 <=? b0) && (b0 <? 0xF0) then
                if cont b1 && cont b2 &&
                   (if b0 =? 0xE0 then 0xA0 <=? b1 else true) &&
                   (if b0 =? 0xED then b1 <? 0xA0 else true)
                then option_map (cons ((b0 - 0xE0) * 4096 + (b1 - 0x80) * 64 + (b2 - 0x80))) (decode r2)
                else None
              else match r2 with
              | [] => None
              | b3 :: r3 =>
                  if (0xF0 <=? b0) && (b0 <? 0xF5) then
                    if cont b1 && cont b2 && cont b3 &&
                       (if b0 =? 0xF0 then 0x90 <=? b1 else true) &&
                       (if b0 =? 0xF4 then b1 <? 0x90 else true)
                    then option_map (cons ((b0 - 0xF0) * 262144 + (b1 - 0x80) * 4096 +
                                           (b2 - 0x80) * 64 + (b3 - 0x80))) (decode r3)
                    else None
                  else None
              end
          end
      end
  end.

(** A [str] is the list of its characters; [str::len] is in bytes. *)
Definition str := list char.
Fixpoint byte_len (s : str) : N :=
  match s with [] => 0 | c :: s' => len_utf8 c + byte_len s' end.

(** The part of [s] from byte offset [n] on, if that is a character boundary. *)
Fixpoint drop_bytes (n : N) (s : str) : option str :=
  if n =? 0 then Some s
  else match s with
  | [] => None
  | c :: s' => if n <? len_utf8 c then None else drop_bytes (n - len_utf8 c) s'
  end.

(** The part of [s] before byte offset [n], if that is a character boundary. *)
Fixpoint take_bytes (n : N) (s : str) : option str :=
  if n =? 0 then Some []
  else match s with
  | [] => None
  | c :: s' => if n <? len_utf8 c then None else option_map (cons c) (take_bytes (n - len_utf8 c) s')
  end.

(** [&s[a..]], used in src/text/chunk/pos_strish.rs 278. *)
Definition str_from (s : str) (a : N) : res Empty_set str :=
  match drop_bytes a s with Some t => Ok t | None => Panic end.

(** [&s[a..b]], used in core/src/text/chunk/premade/pos_str.rs 170, 174 and
    src/text/chunk/pos_strish.rs 147. *)
Definition str_slice (s : str) (a b : N) : res Empty_set str :=
  if a <=? b then
    match drop_bytes a s with
    | Some t => match take_bytes (b - a) t with Some u => Ok u | None => Panic end
    | None => Panic
    end
  else Panic.
