(** Histories of calls of [next] where panics are caught. *)
From Coq Require Import List NArith.
From Verif.Model Require Import Prelude Parser Unwind Drop DropRc RcParser RcUnwind.
From Verif.Spec Require Import RcParser.
Import ListNotations.
Set Implicit Arguments.

Section History.
Context {S W T ET Pos CE : Type}.
Local Notation A := (rc_mem T ET * W)%type.

(** With counted references; [None] is a caught panic of the stream, [Some (Some (inr
    (FailedCombiner None)))] one of a combiner. *)
Section Counted.
Context (umax : N) (cc : classifier) (so : stream_ops S A T Pos) (co : concat_ops A T)
        (bnd : rc_mem T ET -> rc_datum T ET -> option (rc_combiner A T ET Pos (option CE)))
        (arc : bool) (dfuel ddepth : rc_mem T ET -> nat).
Inductive ru_called : pstate S A -> list (option (option (rc_datum T ET + error Pos (option CE)))) -> pstate S A -> Prop :=
| ru_called_none st : ru_called st [] st
| ru_called_next st fuel r st1 rs st2 :
    ru_iter_next umax cc so co bnd arc dfuel ddepth fuel st = (Ok r, st1) ->
    ru_called st1 rs st2 -> ru_called st (Some r :: rs) st2
| ru_called_panic st fuel st1 rs st2 :
    ru_iter_next umax cc so co bnd arc dfuel ddepth fuel st = (Panic, st1) ->
    ru_called st1 rs st2 -> ru_called st (None :: rs) st2.
End Counted.

(** The same with trees. *)
Section Trees.
Context (umax : N) (cc : classifier) (so : stream_ops S W T Pos) (co : concat_ops W T) (ao : alloc_ops W T ET)
        (bnd : bindings W T ET Pos (option CE)).
Inductive unw_called : pstate S W -> list (option (option (datum T ET + error Pos (option CE)))) -> pstate S W -> Prop :=
| unw_called_none st : unw_called st [] st
| unw_called_next st fuel r st1 rs st2 :
    unw_iter_next umax cc so co ao bnd fuel st = (Ok r, st1) ->
    unw_called st1 rs st2 -> unw_called st (Some r :: rs) st2
| unw_called_panic st fuel st1 rs st2 :
    unw_iter_next umax cc so co ao bnd fuel st = (Panic, st1) ->
    unw_called st1 rs st2 -> unw_called st (None :: rs) st2.
End Trees.
End History.

Section Items.
Context {T ET Pos CE : Type}.
(** The same results, or both panics. *)
Definition is_caught (h : rc_mem T ET) (r : option (option (rc_datum T ET + error Pos CE)))
    (r' : option (option (datum T ET + error Pos CE))) : Prop :=
  match r, r' with
  | Some r, Some r' => is_result h r r'
  | None, None => True
  | _, _ => False
  end.
(** The results that are datums. *)
Definition caught_datums (rs : list (option (option (rc_datum T ET + error Pos CE)))) : list (rc_datum T ET) :=
  flat_map (fun r => match r with Some r => datum_of r | None => [] end) rs.
End Items.
