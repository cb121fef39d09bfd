(** The drop algorithm, src/drop.rs, with its operations counted. *)
From Coq Require Import List Arith Bool.
From Verif.Model Require Import Prelude Drop DropShared DropRc.
Import ListNotations.
Set Implicit Arguments.
Local Notation "'do' x '<-' m ';' k" := (d_bind m (fun x => k)) (at level 200, x pattern, m at level 100, k at level 200).

(** A counter beside a state: code that leaves it alone, and code that adds one
    to it.  The counter is not in the Rust code. *)
Section Counter.
Context {H : Type}.
Definition silent {A} (m : D H A) : D (H * nat) A := fun p =>
  match m (fst p) with
  | Ok (a, h') => Ok (a, (h', snd p))
  | Err e => Err e
  | Panic => Panic
  | OutOfFuel => OutOfFuel
  end.
Definition tick : D (H * nat) unit := fun p => Ok (tt, (fst p, S (snd p))).
Definition counted {A} (m : D H A) : D (H * nat) A := do _ <- tick; silent m.

(** [Deref], [try_replace] and [set] of a reference, src/drop.rs 306-320, each
    counted as one. *)
Definition counting {DR X} (ro : ref_ops (direct H) DR X) : ref_ops (direct (H * nat)) DR X := {|
  r_deref := fun r => counted (r_deref ro r);
  r_try_replace := fun r v => counted (r_try_replace ro r v);
  r_set := fun r v => counted (r_set ro r v) |}.
End Counter.

Section Drops.
Context {X : Type}.

(** [box_drop] (Drop.v), src/drop.rs 337-341. *)
Fixpoint box_work (fuel depth : nat) (r : bref X) : D (log * nat) unit :=
  match depth with
  | 0 => d_nofuel
  | S depth' =>
      do r' <- algo1 (counting box_ops) (box_work fuel depth') fuel r;
      match r' with
      | BRef id n =>
          do _ <- match n with
                  | NComb a b | NList a b => do _ <- box_work fuel depth' a; box_work fuel depth' b
                  | NLeaf (Some x) => silent (happens (Dropped x))
                  | NLeaf None => d_ret tt
                  end;
          silent (happens (Freed id))
      end
  end.

(** [s_drop] (DropShared.v), src/drop.rs 503-507 and 547-551. *)
Fixpoint s_work (oracle : nat -> bool) (fuel depth : nat) (r : sref X) : D (sstate X * nat) unit :=
  match depth with
  | 0 => d_nofuel
  | S depth' =>
      do r' <- algo1 (counting (shared_ops oracle)) (s_work oracle fuel depth') fuel r;
      match r' with
      | SRef id own n =>
          do last <- if own then d_ret true else silent (ask oracle);
          if last then
            do _ <- match n with
                    | NComb a b | NList a b => do _ <- s_work oracle fuel depth' a; s_work oracle fuel depth' b
                    | NLeaf (Some x) => silent (s_happens (Did (Dropped x)))
                    | NLeaf None => d_ret tt
                    end;
            silent (s_happens (Did (Freed id)))
          else silent (s_happens (Released r'))
      end
  end.

(** [rc_drop] (DropRc.v), src/drop.rs 503-507 and 547-551. *)
Fixpoint rc_work (arc : bool) (fuel depth : nat) (r : nat) : D (heap X * nat) unit :=
  match depth with
  | 0 => d_nofuel
  | S depth' =>
      do x <- algo1 (counting (rc_ops arc)) (rc_work arc fuel depth') fuel r;
      do c <- silent (read x);
      match c with
      | Cell (S (S s)) w v => silent (write x (Some (Cell (S s) w v)))
      | Cell 1 w (Some n) =>
          do _ <- silent (write x (Some (Cell 0 w None)));
          do _ <- match n with
                  | NComb a b | NList a b => do _ <- rc_work arc fuel depth' a; rc_work arc fuel depth' b
                  | NLeaf (Some v) => silent (drop_value v)
                  | NLeaf None => d_ret tt
                  end;
          match w with
          | 0 => silent (write x None)
          | S _ => d_ret tt
          end
      | _ => d_panic
      end
  end.
End Drops.
