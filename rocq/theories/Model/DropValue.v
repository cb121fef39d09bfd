(** Dropping datums that are held by value, and bare [Rc]s and [Arc]s. *)
From Coq Require Import List Arith.
From Verif.Model Require Import Prelude Drop DropRc DropCost.
Import ListNotations.
Set Implicit Arguments.
Local Notation "'do' x '<-' m ';' k" := (d_bind m (fun x => k)) (at level 200, x pattern, m at level 100, k at level 200).

Section Value.
Context {S DR X : Type} (drop_ref : DR -> D S unit) (drop_x : X -> D S unit).

(** Dropping a [Datum], core/src/datum.rs 17-46.  It has no [Drop] of its own: the compiler
    drops the fields of its variant in the order of their declaration, each reference with its
    own [Drop]. *)
Definition datum_drop (n : node DR X) : D S unit :=
  match n with
  | NComb a b | NList a b => do _ <- drop_ref a; drop_ref b
  | NLeaf (Some x) => drop_x x
  | NLeaf None => d_ret tt
  end.

(** What the iterator of a parser gives, core/src/lib.rs 244-271: a datum or an error, whose
    fields are dropped with it.  Simplification: what is in an error is one value. *)
Definition result_drop (r : node DR X + X) : D S unit :=
  match r with
  | inl n => datum_drop n
  | inr x => drop_x x
  end.

(** Dropping a [Vec] of these: the elements in order. *)
Fixpoint results_drop (rs : list (node DR X + X)) : D S unit :=
  match rs with
  | [] => d_ret tt
  | r :: rs' => do _ <- result_drop r; results_drop rs'
  end.
End Value.

Section Uses.
Context {X : Type}.

(** With [DatumBox], src/datum.rs 22, [DatumRc], 61, and [DatumArc], 93. *)
Definition box_results_drop (fuel depth : nat) (rs : list (node (bref X) X + X)) : D log unit :=
  results_drop (box_drop fuel depth) (fun x => happens (Dropped x)) rs.
Definition rc_results_drop (arc : bool) (fuel depth : nat) (rs : list (node nat X + X)) : H unit :=
  results_drop (rc_drop arc fuel depth) (@drop_value X) rs.

(** The same with the operations counted (DropCost.v). *)
Definition box_results_work (fuel depth : nat) (rs : list (node (bref X) X + X)) : D (log * nat) unit :=
  results_drop (box_work fuel depth) (fun x => silent (happens (Dropped x))) rs.

(** Dropping a clone of the [Rc] or [Arc] in the public field of a [DatumRc] or
    [DatumArc], src/datum.rs 61 and 93: no [Drop] of this crate is called for it.  One strong
    reference less; at zero the datum is dropped, as a value, and the memory is freed unless there are weak references. *)
Definition bare_drop (arc : bool) (fuel depth : nat) (x : nat) : H (X:=X) unit :=
  do c <- read x;
  match c with
  | Cell (S (S s)) w v => write x (Some (Cell (S s) w v))
  | Cell 1 w (Some n) =>
      do _ <- write x (Some (Cell 0 w None));
      do _ <- datum_drop (rc_drop arc fuel depth) (@drop_value X) n;
      match w with
      | 0 => write x None
      | S _ => d_ret tt
      end
  | _ => d_panic
  end.
End Uses.
