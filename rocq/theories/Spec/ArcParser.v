(** Programs where some threads parse, with atomically counted references, while others use
    and drop datums in the same memory. *)
From Coq Require Import List NArith Permutation.
From Verif.Model Require Import Prelude Parser Drop DropRc DropArc RcParser ArcParser.
From Verif.Spec Require Import Drops Threads RcParser.
Import ListNotations.
Set Implicit Arguments.

Section Calls.
Context {T ET Pos CE : Type}.
Local Notation mem := (rc_mem T ET).
Local Notation datum1 := (rc_datum T ET).
Local Notation E := (error Pos (option CE)).

Definition a_refs (a : T + datum1) : list nat := match a with inl _ => [] | inr d => kids d end.
Definition r_refs (r : option datum1 + E) : list nat := match r with inl o => owns o | inr _ => [] end.

(** A call of a combiner that has been done: the memory when it was called, the
    operator, the operands, the memory when it returned, and its answer. *)
Record event := Event { at_call : mem; ev_operator : datum1; ev_operands : T + datum1; at_return : mem; ev_answer : option datum1 + E }.

(** The same on trees: operator, operands and answer. *)
Definition asked : Type := datum T ET * (T + datum T ET).
Definition answer : Type := option (datum T ET) + E.
Definition operands_are (h : mem) (a : T + datum1) (a' : T + datum T ET) : Prop :=
  match a, a' with
  | inl t, inl t' => t = t'
  | inr n, inr d => is_tree h n d
  | _, _ => False
  end.
Definition answer_is (h : mem) (r : option datum1 + E) (r' : answer) : Prop :=
  match r, r' with
  | inl o, inl o' => is_option h o o'
  | inr e, inr e' => e = e'
  | _, _ => False
  end.
Definition event_is (ev : event) (c : asked * answer) : Prop :=
  is_tree (at_call ev) (ev_operator ev) (fst (fst c)) /\
  operands_are (at_call ev) (ev_operands ev) (snd (fst c)) /\
  answer_is (at_return ev) (ev_answer ev) (snd c).

(** Combiners on trees whose answers are given, one after the other, and that write down what
    they are asked. *)
Definition oracle : Type := list answer * list asked.
Definition ask (d : datum T ET) (a : T + datum T ET) (w : oracle) : answer * oracle :=
  let '(answers, questions) := w in
  match answers with
  | r :: answers => (r, (answers, questions ++ [(d, a)]))
  | [] => (inl None, ([], questions ++ [(d, a)]))
  end.
Definition told (kind : datum T ET -> option arc_kind) : bindings oracle T ET Pos (option CE) := fun d =>
  match kind d with
  | Some KOperative => Some (Operative (fun d t => ask d (inl t)))
  | Some KApplicative => Some (Applicative (fun d l => ask d (inr l)))
  | None => None
  end.
End Calls.
Arguments event : clear implicits.
Arguments asked : clear implicits.
Arguments answer : clear implicits.
Arguments oracle : clear implicits.

Section Threads.
Context {S T ET Pos CE : Type}.
Local Notation X := (leaf_value T ET).
Local Notation heap1 := (rc_mem T ET).
Local Notation datum1 := (rc_datum T ET).
Local Notation E := (error Pos (option CE)).
Local Notation world := (world X).
Context (umax : N) (cc : classifier) (so : stream_ops S unit T Pos) (co : concat_ops unit T).
(** [OperatorBindings::lookup] *)
Context (find : heap1 -> datum1 -> option arc_kind).

(** A thread that does one call of [next]: with what it was started, the calls of
    combiners that it has done, the references in its variables, the drop that it waits for, if a combiner
    runs the memory when it was called, and what is still to do. *)
Record thread := Thread {
  th_fuel : nat; th_from : pstate S unit; th_calls : list (event T ET Pos CE); th_refs : list nat;
  th_drop : prog X unit; th_in : option heap1; th_task : task T ET Pos CE (res Empty_set (option (datum1 + E)) * pstate S unit) }.

Inductive th_step : world -> thread -> world -> thread -> Prop :=
| th_dropping h h' K W ps mk f st es R i t B (m : H B) k b : m h = Ok (b, h') ->
    th_step (World h K W ps mk) (Thread f st es R (Atomic m k) i t) (World h' K W ps mk) (Thread f st es R (k b) i t)
| th_new h h' K W ps mk f st es R R' n k x : Permutation R (kids n ++ R') -> fresh (Cell 1 0 (Some n)) h = Ok (x, h') ->
    th_step (World h K W ps mk) (Thread f st es R (Done tt) None (MakeRef n k))
            (World h' K W ps (mk ++ payload n)) (Thread f st es (x :: R') (Done tt) None (k x))
| th_read h K W ps mk f st es R x k c : cell_at h x = Some c ->
    th_step (World h K W ps mk) (Thread f st es R (Done tt) None (ReadCell x k))
            (World h K W ps mk) (Thread f st es R (Done tt) None (k c))
| th_write h K W ps mk f st es R R' x n k s w o : Permutation R (kids n ++ R') -> cell_at h x = Some (Cell s w (Some (NLeaf o))) ->
    th_step (World h K W ps mk) (Thread f st es R (Done tt) None (WriteAt x n k))
            (World (Heap (cells (set_cell h x (Cell s w (Some n)))) (dropped h ++ payload (NLeaf (DR:=nat) o))) K W ps (mk ++ payload n))
            (Thread f st es R' (Done tt) None k)
| th_begin h K W ps mk f st es R R' x k fuel depth : Permutation R (x :: R') -> ample h x fuel depth ->
    th_step (World h K W ps mk) (Thread f st es R (Done tt) None (DropRef x k))
            (World h K W ps mk) (Thread f st es R' (arc_drop fuel depth x) None k)
| th_find h K W ps mk f st es R n k :
    th_step (World h K W ps mk) (Thread f st es R (Done tt) None (FindComb n k))
            (World h K W ps mk) (Thread f st es R (Done tt) None (k (find h n)))
(* what the combiner gets is then with the rest of the program *)
| th_call h K W ps mk f st es R R' n a k : Permutation R (kids n ++ a_refs a ++ R') ->
    th_step (World h K W ps mk) (Thread f st es R (Done tt) None (CallComb n a k))
            (World h (K ++ kids n ++ a_refs a) W ps mk) (Thread f st es R' (Done tt) (Some h) (CallComb n a k))
(* it returns something that the rest of the program has *)
| th_return h0 h K K' W ps mk f st es R n a k r : Permutation K (r_refs r ++ K') ->
    th_step (World h K W ps mk) (Thread f st es R (Done tt) (Some h0) (CallComb n a k))
            (World h K' W ps mk) (Thread f st (es ++ [Event h0 n a h r]) (r_refs r ++ R) (Done tt) None (k r)).

(** The rest of the program, and the threads that parse. *)
Record config := Config { others : world; threads : list thread }.
Inductive c_step : config -> config -> Prop :=
| c_others w w' ts : step w w' -> c_step (Config w ts) (Config w' ts)
| c_thread w w' t t' ts us : th_step w t w' t' -> c_step (Config w (ts ++ t :: us)) (Config w' (ts ++ t' :: us))
| c_start w ts f st : c_step (Config w ts) (Config w (ts ++ [Thread f st [] [] (Done tt) None (ap_iter_next umax cc so co f st)]))
(* the result is then with the rest of the program *)
| c_finish h K W ps mk ts us f st es R r :
    c_step (Config (World h K W ps mk) (ts ++ Thread f st es R (Done tt) None (Ended r) :: us))
           (Config (World h (K ++ R) W ps mk) (ts ++ us)).
Inductive c_steps : config -> config -> Prop :=
| c_none c : c_steps c c
| c_more c c' c'' : c_steps c c' -> c_step c' c'' -> c_steps c c''.

(** All references, and all drops that are under way. *)
Definition everything (c : config) : world :=
  let w := others c in
  World (mem w) (strongs w ++ flat_map th_refs (threads c)) (weaks w) (running w ++ map th_drop (threads c)) (made w).
End Threads.
Arguments thread : clear implicits.
Arguments config : clear implicits.
