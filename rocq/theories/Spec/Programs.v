(** What holds of programs that use counted references. *)
From Coq Require Import List Arith Permutation.
From Verif.Model Require Import Prelude Drop DropRc RcProgram.
From Verif.Spec Require Import Drops.
Import ListNotations.
Set Implicit Arguments.

Section Programs.
Context {X : Type}.

(** The strong and weak counts are the numbers of references in variables and datums;
    there are no cycles, and no memory is kept that nothing refers to. *)
Record sound (m : machine X) : Prop := {
  so_consistent : consistent (mem m) (strongs m);
  so_weak : forall x c, cell_at (mem m) x = Some c -> weak c = count_occ Nat.eq_dec (weaks m) x;
  so_kept : forall x c, cell_at (mem m) x = Some c -> strong c <> 0 \/ weak c <> 0;
  so_live : forall x, In x (weaks m) -> cell_at (mem m) x <> None }.

(** The values that an operation brings in. *)
Definition introduces (o : op X) (m : machine X) : list X :=
  match o with
  | ONew (MLeaf (Some v)) => [v]
  | OReplace i (MLeaf (Some v)) => if i <? length (strongs m) then [v] else []
  | _ => []
  end.

(** [executes os m vs m']: the operations [os] lead from [m] to [m'] and bring in [vs]. *)
Inductive executes (arc : bool) (fuel depth : nat) : list (op X) -> machine X -> list X -> machine X -> Prop :=
| ex_nil m : executes arc fuel depth [] m [] m
| ex_step o os m m1 vs m' : step arc fuel depth o m = Ok m1 -> executes arc fuel depth os m1 vs m' ->
    executes arc fuel depth (o :: os) m (introduces o m ++ vs) m'.

(** ** The values that references stand for *)
Inductive tree := TLeaf (v : option X) | TComb (l r : tree) | TList (l r : tree).

(** [shows h x t]: what can be read through the reference [x], all the way down. *)
Inductive shows (h : heap X) : nat -> tree -> Prop :=
| shows_leaf x v : node_at h x = Some (NLeaf v) -> shows h x (TLeaf v)
| shows_comb x a b l r : node_at h x = Some (NComb a b) -> shows h a l -> shows h b r -> shows h x (TComb l r)
| shows_list x a b l r : node_at h x = Some (NList a b) -> shows h a l -> shows h b r -> shows h x (TList l r).

(** The variables of a program as if each had a tree of its own; [old]: the trees that
    the weak references were to when they were made. *)
Record store := Store { held : list tree; old : list tree }.

(** The value number [i], and the others. *)
Definition picks {A} (i : nat) (l : list A) (a : A) (l' : list A) : Prop :=
  exists l1 l2, l = l1 ++ a :: l2 /\ l' = l1 ++ l2 /\ length l1 = i.
(** [builds d ts t ts']: the tree [t] made according to [d] of values out of [ts], and the others. *)
Inductive builds : made X -> list tree -> tree -> list tree -> Prop :=
| b_leaf v ts : builds (MLeaf v) ts (TLeaf v) ts
| b_comb i j ts l ts1 r ts2 : picks i ts l ts1 -> picks j ts1 r ts2 -> builds (MComb i j) ts (TComb l r) ts2
| b_list i j ts l ts1 r ts2 : picks i ts l ts1 -> picks j ts1 r ts2 -> builds (MList i j) ts (TList l r) ts2.
Inductive below : side -> tree -> list tree -> Prop :=
| bl_leaf s v : below s (TLeaf v) []
| bl_comb_left l r : below Left (TComb l r) [l]
| bl_comb_right l r : below Right (TComb l r) [r]
| bl_list_left l r : below Left (TList l r) [l]
| bl_list_right l r : below Right (TList l r) [r].

(** What an operation does to the values: a copy is made where a reference is cloned,
    and an assignment changes the value of one variable only. *)
Inductive does : op X -> store -> store -> Prop :=
| p_new d ts ws t ts' : builds d ts t ts' -> does (ONew d) (Store ts ws) (Store (t :: ts') ws)
| p_clone i ts ws t ts' : picks i ts t ts' -> does (OClone i) (Store ts ws) (Store (t :: t :: ts') ws)
| p_child i s ts ws t ts' cs : picks i ts t ts' -> below s t cs -> does (OChild i s) (Store ts ws) (Store (cs ++ t :: ts') ws)
| p_drop i ts ws t ts' : picks i ts t ts' -> does (ODrop i) (Store ts ws) (Store ts' ws)
| p_replaced i d ts ws t ts1 t' ts2 : picks i ts t ts1 -> builds d ts1 t' ts2 -> does (OReplace i d) (Store ts ws) (Store (t' :: ts2) ws)
| p_refused i d ts ws t ts1 t' ts2 : picks i ts t ts1 -> builds d ts1 t' ts2 -> does (OReplace i d) (Store ts ws) (Store (t :: ts2) ws)
| p_downgrade i ts ws t ts' : picks i ts t ts' -> does (ODowngrade i) (Store ts ws) (Store (t :: ts') (t :: ws))
| p_upgraded j ts ws t ws' : picks j ws t ws' -> does (OUpgrade j) (Store ts ws) (Store (t :: ts) (t :: ws'))
| p_gone j ts ws t ws' : picks j ws t ws' -> does (OUpgrade j) (Store ts ws) (Store ts (t :: ws'))
| p_drop_weak j ts ws t ws' : picks j ws t ws' -> does (ODropWeak j) (Store ts ws) (Store ts ws').
(** Without the variables for it, nothing happens. *)
Definition pure_step (o : op X) (st st' : store) : Prop := does o st st' \/ (st' = st /\ forall st'', ~ does o st st'').

Inductive pure : list (op X) -> store -> store -> Prop :=
| pure_nil st : pure [] st st
| pure_cons o os st st1 st' : pure_step o st st1 -> pure os st1 st' -> pure (o :: os) st st'.

(** The references of a state stand for the values of a store; weak ones as long as
    their datum is there. *)
Record stands (m : machine X) (st : store) : Prop := {
  st_held : Forall2 (shows (mem m)) (strongs m) (held st);
  st_old : Forall2 (fun x t => node_at (mem m) x <> None -> shows (mem m) x t) (weaks m) (old st) }.
End Programs.
Arguments tree : clear implicits.
Arguments store : clear implicits.
