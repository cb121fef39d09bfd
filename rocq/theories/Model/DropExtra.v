(** Dropping boxes when texts or extras hold boxes themselves. *)
From Coq Require Import List Arith.
From Verif.Model Require Import Prelude Drop DropValue.
Import ListNotations.
Set Implicit Arguments.
Local Notation "'do' x '<-' m ';' k" := (d_bind m (fun x => k)) (at level 200, x pattern, m at level 100, k at level 200).

(** The value of [Extra] (or [Text]), core/src/datum.rs 23 and 45, whose type is chosen by the user:
    anything, and some [DatumBox]es. *)
Inductive deep (V : Type) : Type := Deep (v : V) (boxes : list (bref (deep V))).
Arguments Deep {V} v boxes.

Section Deep.
Context {V : Type}.
Local Notation box := (bref (deep V)).

(** [box_ops] (Drop.v), [Algo1DatumRef for DatumBox], src/drop.rs 323-333, beside a log of
    other events. *)
Definition deep_ops : ref_ops (direct (list (event V))) box (deep V) := {|
  r_deref := fun r => match r with BRef _ n => d_ret n end;
  r_try_replace := fun r v => match r with BRef id n => d_ret (Some n, BRef id v) end;
  r_set := fun r v => match r with BRef id _ => d_ret (BRef id v) end |}.

(** The fields of such a value are dropped by the compiler.  Simplification: first
    what is not a box. *)
Fixpoint boxes_drop (drop : box -> D (list (event V)) unit) (l : list box) : D (list (event V)) unit :=
  match l with
  | [] => d_ret tt
  | r :: l' => do _ <- drop r; boxes_drop drop l'
  end.
Definition deep_value_drop (drop : box -> D (list (event V)) unit) (x : deep V) : D (list (event V)) unit :=
  match x with Deep v l => do _ <- happens (Dropped v); boxes_drop drop l end.

(** Dropping a [DatumBox], src/drop.rs 337-341, as [box_drop] (Drop.v). *)
Fixpoint deep_drop (fuel depth : nat) (r : box) : D (list (event V)) unit :=
  match depth with
  | 0 => d_nofuel
  | S depth' =>
      do r' <- algo1 deep_ops (deep_drop fuel depth') fuel r;
      match r' with
      | BRef id n =>
          do _ <- datum_drop (deep_drop fuel depth') (deep_value_drop (deep_drop fuel depth')) n;
          happens (Freed id)
      end
  end.
End Deep.
