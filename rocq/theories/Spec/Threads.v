(** Programs with many threads that use and drop counted datums. *)
From Coq Require Import List Arith Permutation.
From Verif.Model Require Import Prelude Drop DropRc DropArc.
From Verif.Spec Require Import Drops.
Import ListNotations.
Set Implicit Arguments.

Section Threads.
Context {X : Type}.
Implicit Types (h : heap X) (K W : list nat).

(** The shape of all that is below a reference. *)
Inductive tree := TLeaf | TBranch (l r : tree).
Fixpoint tsize (t : tree) : nat := match t with TLeaf => 0 | TBranch l r => S (tsize l + tsize r) end.
Fixpoint unfolds h (x : nat) (t : tree) : Prop :=
  exists n, node_at h x = Some n /\
  match t with
  | TLeaf => branches n = None
  | TBranch l r => exists a b, branches n = Some (a, b) /\ unfolds h a l /\ unfolds h b r
  end.

(** The model bounds recursion and iterations; these bounds do not interfere. *)
Definition ample h (x fuel depth : nat) : Prop :=
  forall t, unfolds h x t -> tsize t < depth /\ tsize t * tsize t <= fuel.

(** The weak counts are the numbers of weak references [W]; there is no memory
    that nothing refers to. *)
Definition weak_counts h W : Prop :=
  forall x, match cell_at h x with
            | Some c => weak c = count_occ Nat.eq_dec W x /\ (strong c = 0 -> 0 < weak c)
            | None => ~ In x W
            end.

(** All of the program: the memory, the strong and weak references that it has in
    variables, the drops that are under way in any number of threads, and the values
    that it has put in leaves. *)
Record world := World {
  mem : heap X; strongs : list nat; weaks : list nat; running : list (prog X unit); made : list X }.

(** One step of one of the drops. *)
Inductive drop_step : world -> world -> Prop :=
| step_drop h h' K W ps qs mk B (m : H B) k b :
    m h = Ok (b, h') ->
    drop_step (World h K W (ps ++ Atomic m k :: qs) mk) (World h' K W (ps ++ k b :: qs) mk).

(** Only one way leads to a datum: from one of the references [K] through datums none of which has
    another reference, strong or weak.  So [Arc::get_mut] permits to change it. *)
Inductive exclusive h K : nat -> Prop :=
| only_var x v : In x K -> cell_at h x = Some (Cell 1 0 v) -> exclusive h K x
| only_kid x n y v : exclusive h K x -> node_at h x = Some n -> In y (kids n) -> cell_at h y = Some (Cell 1 0 v) -> exclusive h K y.

(** A step of the rest of the program, in any thread. *)
Definition set_cell h (x : nat) (c : cell X) : heap X := Heap (update (cells h) x (Some c)) (dropped h).
Inductive client_step : world -> world -> Prop :=
(* the last use of a variable, or any other drop of a reference *)
| step_begin h K K' W ps mk x fuel depth : Permutation K (x :: K') -> ample h x fuel depth ->
    client_step (World h K W ps mk) (World h K' W (arc_drop fuel depth x :: ps) mk)
(* [Arc::clone], of a reference in a variable or one that can be reached from there *)
| step_clone h K W ps mk x s w v : reach h K x -> cell_at h x = Some (Cell s w v) ->
    client_step (World h K W ps mk) (World (set_cell h x (Cell (S s) w v)) (x :: K) W ps mk)
(* [Arc::downgrade] *)
| step_downgrade h K W ps mk x s w v : reach h K x -> cell_at h x = Some (Cell s w v) ->
    client_step (World h K W ps mk) (World (set_cell h x (Cell s (S w) v)) K (x :: W) ps mk)
(* [Weak::upgrade] *)
| step_upgrade h K W ps mk x s w v : In x W -> cell_at h x = Some (Cell (S s) w v) ->
    client_step (World h K W ps mk) (World (set_cell h x (Cell (S (S s)) w v)) (x :: K) W ps mk)
(* [Weak::clone] *)
| step_weak_clone h K W ps mk x s w v : In x W -> cell_at h x = Some (Cell s w v) ->
    client_step (World h K W ps mk) (World (set_cell h x (Cell s (S w) v)) K (x :: W) ps mk)
(* [Weak::drop] *)
| step_weak_drop h h' K W W' ps mk x : Permutation W (x :: W') -> dec_weak x h = Ok (tt, h') ->
    client_step (World h K W ps mk) (World h' K W' ps mk)
(* [Arc::new], which moves the references into the datum *)
| step_new h h' K K' W ps mk n x : Permutation K (kids n ++ K') -> fresh (Cell 1 0 (Some n)) h = Ok (x, h') ->
    client_step (World h K W ps mk) (World h' (x :: K') W ps (mk ++ payload n))
(* a new datum where [Arc::get_mut] permits it; the old value of a leaf is dropped *)
| step_assign h K K' W ps mk x n n' : Permutation K (x :: kids n' ++ K') -> cell_at h x = Some (Cell 1 0 (Some n)) ->
    client_step (World h K W ps mk)
      (World (Heap (cells (set_cell h x (Cell 1 0 (Some n')))) (dropped h ++ payload n)) (x :: kids n ++ K') W ps (mk ++ payload n'))
(* a new datum in the place of a leaf inside of another datum; its value is dropped *)
| step_link h K K' W ps mk x o n' : Permutation K (kids n' ++ K') -> exclusive h K' x -> cell_at h x = Some (Cell 1 0 (Some (NLeaf o))) ->
    client_step (World h K W ps mk)
      (World (Heap (cells (set_cell h x (Cell 1 0 (Some n')))) (dropped h ++ payload (NLeaf (DR:=nat) o))) K' W ps (mk ++ payload n')).

Definition step (w w' : world) : Prop := drop_step w w' \/ client_step w w'.
Inductive steps : world -> world -> Prop :=
| steps_none w : steps w w
| steps_more w w' w'' : steps w w' -> step w' w'' -> steps w w''.

(** Nothing is under way, and all is in order. *)
Record orderly (w : world) : Prop := {
  ord_drops : forall p, In p (running w) -> p = Done tt;
  ord_strong : consistent (mem w) (strongs w);
  ord_weak : weak_counts (mem w) (weaks w);
  ord_values : Permutation (dropped (mem w) ++ payloads (mem w)) (made w) }.
End Threads.
Arguments world : clear implicits.
