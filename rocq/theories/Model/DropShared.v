(** The drop algorithm, src/drop.rs, on references with shared ownership whose
    other owners may come and go at any time. *)
From Coq Require Import List Arith Bool.
From Verif.Model Require Import Prelude Drop.
Import ListNotations.
Set Implicit Arguments.
Local Notation "'do' x '<-' m ';' k" := (d_bind m (fun x => k)) (at level 200, x pattern, m at level 100, k at level 200).

Section Shared.
Context {X : Type}.

(** A [DatumRc] or [DatumArc], src/datum.rs 61 and 93, as seen by the thread that
    drops: the number tells the reference from others; the datum it refers to does not
    change while it is shared.  [own]: taken over by [try_replace], so there is no
    other reference to it any more, strong or weak. *)
Inductive sref : Type := SRef (id : nat) (own : bool) (n : node sref X).

(** What happens: memory is freed and values in leaves are dropped; or a
    reference that is not the last one is dropped, and what it refers to stays. *)
Inductive sevent := Did (e : event X) | Released (r : sref).

(** The answers of the reference counts, which depend on the other owners: any
    sequence.  The state holds how many have been asked for, and what has happened. *)
Context (oracle : nat -> bool).
Record sstate := SState { asked : nat; so_far : list sevent }.
Definition ask : D sstate bool := fun h => Ok (oracle (asked h), SState (S (asked h)) (so_far h)).
Definition s_happens (e : sevent) : D sstate unit := fun h => Ok (tt, SState (asked h) (so_far h ++ [e])).

(** [RcLike::try_replace], src/drop.rs 365-391, and [try_replace_optim], 429-458:
    succeed if this is the only strong reference.  [RcLike::set], 396-401, panics if the
    reference is not the only one. *)
Definition shared_ops : ref_ops (direct sstate) sref X := {|
  r_deref := fun r => match r with SRef _ _ n => d_ret n end;
  r_try_replace := fun r v => match r with SRef id own n =>
    do only <- ask;
    if only then d_ret (Some n, SRef id true v) else d_ret (None, r) end;
  r_set := fun r v => match r with SRef id own _ =>
    if own then d_ret (SRef id true v) else d_panic end |}.

(** Dropping a reference: [drop], src/drop.rs 503-507 or 547-551, and then (by the
    compiler) the [Rc] or [Arc]: if it was the last one then the fields of the datum and
    the memory.  The last owner may have gone only after [drop] has given up. *)
Fixpoint s_drop (fuel depth : nat) (r : sref) : D sstate unit :=
  match depth with
  | 0 => d_nofuel
  | S depth' =>
      do r' <- algo1 shared_ops (s_drop fuel depth') fuel r;
      match r' with
      | SRef id own n =>
          do last <- if own then d_ret true else ask;
          if last then
            do _ <- match n with
                    | NComb a b | NList a b => do _ <- s_drop fuel depth' a; s_drop fuel depth' b
                    | NLeaf (Some x) => s_happens (Did (Dropped x))
                    | NLeaf None => d_ret tt
                    end;
            s_happens (Did (Freed id))
          else s_happens (Released r')
      end
  end.
End Shared.
Arguments sref : clear implicits.
Arguments sevent : clear implicits.
Arguments sstate : clear implicits.
