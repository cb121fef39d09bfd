(** Programs that use counted references, [DatumRc] and [DatumArc] of src/datum.rs,
    by one thread. *)
From Coq Require Import List Arith Bool.
From Verif.Model Require Import Prelude Drop DropRc.
Import ListNotations.
Set Implicit Arguments.
Local Notation "'do' x '<-' m ';' k" := (d_bind m (fun x => k)) (at level 200, x pattern, m at level 100, k at level 200).

Section Program.
Context {X : Type}.
Local Notation node := (node nat X).
Local Notation H := (H (X := X)).

(** The memory, and the references that the program holds in its variables: strong
    ones, [DatumRc] or [DatumArc], and weak ones, [Weak] of the standard library. *)
Record machine := Machine { mem : heap X; strongs : list nat; weaks : list nat }.
Definition start : machine := Machine (Heap [] []) [] [].

(** Take the variable number [i] away. *)
Fixpoint take {A} (i : nat) (l : list A) : option (A * list A) :=
  match l, i with
  | [], _ => None
  | a :: l', 0 => Some (a, l')
  | a :: l', S i' => match take i' l' with Some (b, l'') => Some (b, a :: l'') | None => None end
  end.

(** A datum that is made: a leaf with a value or without, or a branch of which the
    references are moved out of variables. *)
Inductive made := MLeaf (v : option X) | MComb (i j : nat) | MList (i j : nat).
Definition make (d : made) (K : list nat) : option (node * list nat) :=
  match d with
  | MLeaf v => Some (NLeaf v, K)
  | MComb i j =>
      match take i K with
      | Some (a, K') => match take j K' with Some (b, K'') => Some (NComb a b, K'') | None => None end
      | None => None
      end
  | MList i j =>
      match take i K with
      | Some (a, K') => match take j K' with Some (b, K'') => Some (NList a b, K'') | None => None end
      | None => None
      end
  end.

(** What a program can do. *)
Inductive op :=
| ONew (d : made)              (* [DatumRc::new], src/datum.rs 65-67 *)
| OClone (i : nat)             (* [clone] of a reference, src/datum.rs 60 *)
| OChild (i : nat) (s : side)  (* [deref] and [clone] of a reference in the datum, src/datum.rs 71-77 *)
| ODrop (i : nat)              (* the end of a variable's scope, src/drop.rs 503-507 *)
| OReplace (i : nat) (d : made)(* [get_mut], src/datum.rs 80-84; [mem::replace] if that gives a reference *)
| ODowngrade (i : nat)         (* [Rc::downgrade] *)
| OUpgrade (j : nat)           (* [Weak::upgrade] *)
| ODropWeak (j : nat).

(** [Rc::clone] (standard library). *)
Definition clone (x : nat) : H unit :=
  do c <- read x;
  match c with
  | Cell (S s) w v => write x (Some (Cell (S (S s)) w v))
  | Cell 0 _ _ => d_panic
  end.
Definition downgrade (x : nat) : H unit :=
  do c <- read x;
  match c with
  | Cell (S s) w v => write x (Some (Cell (S s) (S w) v))
  | Cell 0 _ _ => d_panic
  end.
(** [Weak::upgrade] (standard library): whether there still was a strong reference. *)
Definition upgrade (x : nat) : H bool :=
  do c <- read x;
  match c with
  | Cell (S s) w v => do _ <- write x (Some (Cell (S (S s)) w v)); d_ret true
  | Cell 0 _ _ => d_ret false
  end.
Definition drop_weak (x : nat) : H unit :=
  do c <- read x;
  match c with
  | Cell s (S w) v => write x (match s, w with 0, 0 => None | _, _ => Some (Cell s w v) end)
  | Cell _ 0 _ => d_panic
  end.

(** [Rc::get_mut] (standard library). *)
Definition get_mut (x : nat) : H bool :=
  do c <- read x;
  match c with
  | Cell 1 0 _ => d_ret true
  | _ => d_ret false
  end.

Context (arc : bool) (fuel depth : nat).

(** Dropping a datum that is not behind a reference (by the compiler): its fields in order. *)
Definition drop_datum (n : node) : H unit :=
  match n with
  | NComb a b | NList a b => do _ <- rc_drop arc fuel depth a; rc_drop arc fuel depth b
  | NLeaf (Some v) => drop_value v
  | NLeaf None => d_ret tt
  end.

Definition run {A} (act : H A) (h : heap X) (k : A -> heap X -> machine) : res Empty_set machine :=
  match act h with
  | Ok (a, h') => Ok (k a h')
  | Err e => Err e
  | Panic => Panic
  | OutOfFuel => OutOfFuel
  end.

(** One operation.  With variables that do not exist, nothing happens. *)
Definition step (o : op) (m : machine) : res Empty_set machine :=
  let (h, K, V) := m in
  match o with
  | ONew d =>
      match make d K with
      | Some (n, K') => run (fresh (Cell 1 0 (Some n))) h (fun x h' => Machine h' (x :: K') V)
      | None => Ok m
      end
  | OClone i =>
      match take i K with
      | Some (x, K') => run (clone x) h (fun _ h' => Machine h' (x :: x :: K') V)
      | None => Ok m
      end
  | OChild i s =>
      match take i K with
      | Some (x, K') =>
          run (do n <- deref x;
               match branches n with
               | Some (l, r) => let y := match s with Left => l | Right => r end in do _ <- clone y; d_ret [y]
               | None => d_ret []
               end) h (fun ys h' => Machine h' (ys ++ x :: K') V)
      | None => Ok m
      end
  | ODrop i =>
      match take i K with
      | Some (x, K') => run (rc_drop arc fuel depth x) h (fun _ h' => Machine h' K' V)
      | None => Ok m
      end
  | OReplace i d =>
      match take i K with
      | Some (x, K1) =>
          match make d K1 with
          | Some (n, K2) =>
              run (do alone <- get_mut x;
                   if alone then do old <- get_mut_replace x n; drop_datum old
                   else drop_datum n) h (fun _ h' => Machine h' (x :: K2) V)
          | None => Ok m
          end
      | None => Ok m
      end
  | ODowngrade i =>
      match take i K with
      | Some (x, K') => run (downgrade x) h (fun _ h' => Machine h' (x :: K') (x :: V))
      | None => Ok m
      end
  | OUpgrade j =>
      match take j V with
      | Some (x, V') => run (upgrade x) h (fun b h' => Machine h' (if b then x :: K else K) (x :: V'))
      | None => Ok m
      end
  | ODropWeak j =>
      match take j V with
      | Some (x, V') => run (drop_weak x) h (fun _ h' => Machine h' K V')
      | None => Ok m
      end
  end.

Fixpoint steps (os : list op) (m : machine) : res Empty_set machine :=
  match os with
  | [] => Ok m
  | o :: os' => match step o m with Ok m' => steps os' m' | r => r end
  end.
End Program.
Arguments machine : clear implicits.
Arguments op : clear implicits.
Arguments made : clear implicits.
