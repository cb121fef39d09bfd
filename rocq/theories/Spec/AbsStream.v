(** The abstract instance of the parser's collaborators: the source is the list
    of items to come and the list of items accumulated, texts are lists of
    items, concatenation is append and allocation always succeeds.  [W] is
    whatever state the combiners have. *)
From Coq Require Import List NArith.
From Verif.Model Require Import Prelude Parser.
Import ListNotations.
Set Implicit Arguments.

Section AbsStream.
Context {W ET Pos : Type}.
Let text := list (item Pos).

(** State: items to come, pending accumulation. *)
Definition abs_state : Type := (text * text)%type.

Definition abs_stream : stream_ops abs_state W text Pos := {|
  s_peek := fun s => (Ok (hd_error (fst s)), s);
  s_next := fun s => (Ok (hd_error (fst s)), (tl (fst s), []));
  s_next_accum := fun s w =>
    (Ok (hd_error (fst s)), ((tl (fst s), snd s ++ firstn 1 (fst s)), w));
  s_accum_done := fun s w => (Ok (snd s), ((fst s, []), w)) |}.

Definition abs_concat : concat_ops W text := {|
  t_empty := [];
  t_concat := fun t1 t2 w => (Ok (t1 ++ t2), w) |}.

Definition abs_alloc : alloc_ops W text ET := {|
  a_new_datum := fun d w => (Ok d, w);
  a_get_mut := fun _ _ => true |}.

End AbsStream.
