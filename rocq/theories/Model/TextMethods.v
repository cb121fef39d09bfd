(** The comparison, hashing and encoding methods of [Text], core/src/text.rs
    164-245, for any texts. *)
From Coq Require Import List Arith NArith Bool.
From Verif.Model Require Import Prelude Parser Utf8 Chunk TextIter.
Import ListNotations.
Set Implicit Arguments.

Section Two.
Context {T1 C1 S1 A1 P1 T2 C2 S2 A2 P2 : Type}.
Context (k1 : chunk_ops C1 S1 P1) (x1 : text_ops T1 C1 A1).
Context (k2 : chunk_ops C2 S2 P2) (x2 : text_ops T2 C2 A2).

(** [Iterator::eq] of the two [iter().map(sii_ch)]; [n] bounds the number of
    steps. *)
Fixpoint iter_eq (n : nat) (s1 : titer (TT:=T1) (C:=C1) (CS:=S1) (Pos:=P1))
    (s2 : titer (TT:=T2) (C:=C2) (CS:=S2) (Pos:=P2)) : res Empty_set bool :=
  match n with
  | O => OutOfFuel
  | S n' =>
      let (r1, s1') := titer_next k1 s1 in
      res_bind r1 (fun o1 =>
      let (r2, s2') := titer_next k2 s2 in
      res_bind r2 (fun o2 =>
      match o1, o2 with
      | None, None => Ok true
      | None, Some _ => Ok false
      | Some _, None => Ok false
      | Some i1, Some i2 => if (it_ch i1 =? it_ch i2)%N then iter_eq n' s1' s2' else Ok false
      end))
  end.

(** [Text::eq], core/src/text.rs 164-166. *)
Definition text_eq (n : nat) (t1 : T1) (t2 : T2) : res Empty_set bool :=
  res_bind (titer_new k1 x1 t1) (fun s1 => res_bind (titer_new k2 x2 t2) (fun s2 => iter_eq n s1 s2)).

(** [Iterator::cmp] of the two [iter().map(sii_ch)]. *)
Fixpoint iter_cmp (n : nat) (s1 : titer (TT:=T1) (C:=C1) (CS:=S1) (Pos:=P1))
    (s2 : titer (TT:=T2) (C:=C2) (CS:=S2) (Pos:=P2)) : res Empty_set comparison :=
  match n with
  | O => OutOfFuel
  | S n' =>
      let (r1, s1') := titer_next k1 s1 in
      res_bind r1 (fun o1 =>
      let (r2, s2') := titer_next k2 s2 in
      res_bind r2 (fun o2 =>
      match o1, o2 with
      | None, None => Ok Eq
      | None, Some _ => Ok Lt
      | Some _, None => Ok Gt
      | Some i1, Some i2 =>
          match (it_ch i1 ?= it_ch i2)%N with Eq => iter_cmp n' s1' s2' | o => Ok o end
      end))
  end.

(** [Text::cmp], core/src/text.rs 177-179. *)
Definition text_cmp (n : nat) (t1 : T1) (t2 : T2) : res Empty_set comparison :=
  res_bind (titer_new k1 x1 t1) (fun s1 => res_bind (titer_new k2 x2 t2) (fun s2 => iter_cmp n s1 s2)).
End Two.

(** What is fed to a [Hasher]: the discriminant of an enum, a [char], or
    anything of a user type (abstracted as a number). *)
Inductive hash_word : Type := HDiscr (n : N) | HChar (c : char) | HOther (n : N).

Section One.
Context {TT C CS A Pos : Type} (k : chunk_ops C CS Pos) (x : text_ops TT C A).

(** The loop of [Text::hash]: the words fed, in order. *)
Fixpoint iter_hash (n : nat) (s : titer (TT:=TT) (C:=C) (CS:=CS) (Pos:=Pos))
  : res Empty_set (list hash_word) :=
  match n with
  | O => OutOfFuel
  | S n' =>
      let (r, s') := titer_next k s in
      res_bind r (fun o =>
      match o with
      | None => Ok []
      | Some i => res_map (cons (HChar (it_ch i))) (iter_hash n' s')
      end)
  end.

(** [Text::hash], core/src/text.rs 185-189. *)
Definition text_hash (n : nat) (t : TT) : res Empty_set (list hash_word) :=
  res_bind (titer_new k x t) (iter_hash n).

(** [ch.encode_utf8(&mut buf[pos..])]: the bytes of [buf] from [pos] on are
    overwritten by [bs]; [None] (a panic) if they do not fit. *)
Definition write_at (buf : list byte) (pos : nat) (bs : list byte) : option (list byte) :=
  if (pos + length bs <=? length buf)%nat
  then Some (firstn pos buf ++ bs ++ skipn (pos + length bs) buf)
  else None.

(** [as_str!()], core/src/text.rs 231-234: [from_utf8(&buf[..pos]).unwrap()]. *)
Definition as_str (buf : list byte) (pos : nat) : res Empty_set str :=
  match decode (firstn pos buf) with Some s => Ok s | None => Panic end.

(** The loop of [encode_utf8], core/src/text.rs 235-244: the returned string,
    [Ok] or [Err] as [inl] or [inr], with its length in bytes; and the buffer
    afterwards. *)
Fixpoint encode_loop (n : nat) (s : titer (TT:=TT) (C:=C) (CS:=CS) (Pos:=Pos))
    (buf : list byte) (pos : nat) : res Empty_set ((str + str) * nat) * list byte :=
  match n with
  | O => (OutOfFuel, buf)
  | S n' =>
      match titer_next k s with
      | (Ok (Some i), s') =>
          let ch := it_ch i in
          if (N.of_nat pos + len_utf8 ch <=? N.of_nat (length buf))%N then
            match write_at buf pos (encode_char ch) with
            | Some buf' => encode_loop n' s' buf' (pos + length (encode_char ch))
            | None => (Panic, buf)
            end
          else (res_map (fun t => (inr t, pos)) (as_str buf pos), buf)
      | (Ok None, _) => (res_map (fun t => (inl t, pos)) (as_str buf pos), buf)
      | (Err e, _) => (Err e, buf)
      | (Panic, _) => (Panic, buf)
      | (OutOfFuel, _) => (OutOfFuel, buf)
      end
  end.

(** [Text::encode_utf8], core/src/text.rs 221-245. *)
Definition encode_utf8 (n : nat) (t : TT) (buf : list byte)
  : res Empty_set ((str + str) * nat) * list byte :=
  match titer_new k x t with
  | Ok s => encode_loop n s buf 0
  | _ => (Panic, buf)
  end.
End One.
