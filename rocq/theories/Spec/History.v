(** Histories of calls of [ParseIter::next], core/src/lib.rs 252-258. *)
From Coq Require Import List NArith.
From Verif.Model Require Import Prelude Parser Iter.
Import ListNotations.
Set Implicit Arguments.

Section History.
Context {S A TT ET Pos CE : Type}.
Context (umax : N) (cc : classifier) (so : stream_ops S A TT Pos) (co : concat_ops A TT)
        (ao : alloc_ops A TT ET) (bnd : bindings A TT ET Pos CE).

(** [called st rs st']: calling [next] as often as [rs] is long, from state [st],
    returned [rs] and led to [st'].  Each call may take any number of steps. *)
Inductive called : pstate S A -> list (option (@parse_item TT ET Pos CE)) -> pstate S A -> Prop :=
| called_none st : called st [] st
| called_next st fuel r st1 rs st2 :
    iter_next umax cc so co ao bnd fuel st = (Ok r, st1) ->
    called st1 rs st2 -> called st (r :: rs) st2.

(** The items among results. *)
Fixpoint some_items (rs : list (option (@parse_item TT ET Pos CE))) : list (@parse_item TT ET Pos CE) :=
  match rs with
  | [] => []
  | Some x :: rs' => x :: some_items rs'
  | None :: rs' => some_items rs'
  end.
End History.
