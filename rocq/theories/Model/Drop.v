(** The drop algorithm, src/drop.rs, over any type of references, and the
    references as boxes. *)
From Coq Require Import List Arith.
From Verif.Model Require Import Prelude.
Import ListNotations.
Set Implicit Arguments.

(** A datum as the algorithm sees it ([class], src/drop.rs 115-120): a branch with
    two references, or a leaf.  The leaf holds what is dropped with it: the text of [Text] or
    the value of [Extra]; [None] for [EmptyNest] and [EmptyList].
    Simplification: texts and extras that themselves hold datum references are not
    covered here (for boxes they are in DropExtra.v). *)
Inductive node (DR X : Type) : Type :=
| NComb (operator operands : DR)
| NList (elem next : DR)
| NLeaf (x : option X).
Arguments NComb {DR X} _ _.
Arguments NList {DR X} _ _.
Arguments NLeaf {DR X} _.

(** The or-pattern [Combination{..} | List{..}], src/drop.rs 117, 178-179, 247-248. *)
Definition branches {DR X} (n : node DR X) : option (DR * DR) :=
  match n with
  | NComb l r | NList l r => Some (l, r)
  | NLeaf _ => None
  end.

(** [Class] and [Side], src/drop.rs 91-95. *)
Inductive class := Branch | Leaf.
Inductive side := Left | Right.

Definition node_class {DR X} (n : node DR X) : class :=
  match branches n with Some _ => Branch | None => Leaf end.

(** [TempLeaf], src/drop.rs 16. *)
Definition temp_leaf {DR X} : node DR X := NLeaf None.

(** Code that may panic, or run out of fuel.  The algorithm is the same
    whether its steps change a state directly or can be interleaved with those of other threads. *)
Record monad : Type := {
  m_type :> Type -> Type;
  m_ret : forall {A}, A -> m_type A;
  m_bind : forall {A B}, m_type A -> (A -> m_type B) -> m_type B;
  m_panic : forall {A}, m_type A;
  m_nofuel : forall {A}, m_type A }.
Arguments m_ret {_ A} _.
Arguments m_bind {_ A B} _ _.
Arguments m_panic {_ A}.
Arguments m_nofuel {_ A}.

(** Code that changes a state [H]. *)
Definition D (H X : Type) := H -> res Empty_set (X * H).
Definition d_ret {H X} (x : X) : D H X := fun h => Ok (x, h).
Definition d_bind {H X Y} (m : D H X) (k : X -> D H Y) : D H Y :=
  fun h => match m h with
           | Ok (x, h') => k x h'
           | Err e => Err e
           | Panic => Panic
           | OutOfFuel => OutOfFuel
           end.
Definition d_panic {H X} : D H X := fun _ => Panic.
Definition d_nofuel {H X} : D H X := fun _ => OutOfFuel.
Canonical Structure direct (H : Type) : monad :=
  {| m_type := D H; m_ret := @d_ret H; m_bind := @d_bind H; m_panic := @d_panic H; m_nofuel := @d_nofuel H |}.

(** A reference type: [Deref] and [Algo1DatumRef], src/drop.rs 306-320.
    Mutating a reference gives the new one.  [r_try_replace] gives the old value, or
    [None] where the Rust code returns [Err]. *)
Record ref_ops (M : monad) (DR X : Type) : Type := {
  r_deref : DR -> M (node DR X);
  r_try_replace : DR -> node DR X -> M (option (node DR X) * DR)%type;
  r_set : DR -> node DR X -> M DR }.
Arguments r_deref {M DR X} _ _.
Arguments r_try_replace {M DR X} _ _ _.
Arguments r_set {M DR X} _ _ _.

Section Algo1.
Local Notation "'do' x '<-' m ';' k" := (m_bind m (fun x => k)) (at level 200, x pattern, m at level 100, k at level 200).
Context {M : monad} {DR X : Type} (ro : ref_ops M DR X).
(** Dropping a reference: its [Drop::drop], and then its fields. *)
Context (drop_ref : DR -> M unit).

(** [class], src/drop.rs 115-120. *)
Definition class_of (r : DR) : M class := do n <- r_deref ro r; m_ret (node_class n).

(** [trytake], src/drop.rs 103-105. *)
Definition trytake (r : DR) : M (option (node DR X) * DR)%type := r_try_replace ro r temp_leaf.

(** The selection of a side, src/drop.rs 188-239.  [inl]: the mode, the datum
    taken out, the reference it was taken out of, and the class and reference of the other
    side.  [inr]: [break], with the references that are dropped there. *)
Definition selection : Type := (side * node DR X * DR * class * DR) + (DR * DR).

(** The two cases with one side, src/drop.rs 196-203 and 211-218. *)
Definition take_left (lc rc : class) (l r : DR) : M selection :=
  do p <- trytake l;
  match p with
  | (Some d, l') => m_ret (inl (Left, d, l', rc, r))
  | (None, l') => m_ret (inr (l', r))
  end.
Definition take_right (lc rc : class) (l r : DR) : M selection :=
  do p <- trytake r;
  match p with
  | (Some d, r') => m_ret (inl (Right, d, r', lc, l))
  | (None, r') => m_ret (inr (l, r'))
  end.
(** The case of both sides, src/drop.rs 224-233. *)
Definition take_either (lc rc : class) (l r : DR) : M selection :=
  do p <- trytake l;
  match p with
  | (Some d, l') => m_ret (inl (Left, d, l', rc, r))
  | (None, l') => take_right lc rc l' r
  end.
Definition select (lock : option side) (lc rc : class) (l r : DR) : M selection :=
  match lock, lc, rc with
  | _, Branch, Leaf => take_left lc rc l r
  | Some Left, Branch, Branch => take_left lc rc l r
  | _, Leaf, Branch => take_right lc rc l r
  | Some Right, Branch, Branch => take_right lc rc l r
  | None, Branch, Branch => take_either lc rc l r
  | _, Leaf, Leaf => m_ret (inr (l, r))
  end.

(** The loop, src/drop.rs 173-301; [fuel] bounds its iterations.  Variables are
    dropped in the reverse order of their declaration: at [break] the right
    reference and then the left one; after removing the top node, [other_dr] and then [reuse_dr]. *)
Fixpoint algo1_loop (fuel : nat) (lock : option side) (top : node DR X) : M unit :=
  match fuel with
  | 0 => m_nofuel
  | S fuel' =>
      match branches top with
      | None => m_panic (* unreachable!, 299 *)
      | Some (l, r) =>
          do lc <- class_of l; do rc <- class_of r;
          do sel <- select lock lc rc l r;
          match sel with
          | inr (l', r') => do _ <- drop_ref r'; drop_ref l'
          | inl (mode, selected, reuse, other_class, other) =>
              match branches selected, other_class with
              | Some (sl, sr), Branch =>
                  (* restructure, 245-274 *)
                  let '(oldsub, newl, newr) :=
                    match mode with Left => (sl, sr, other) | Right => (sr, other, sl) end in
                  do reuse' <- r_set ro reuse (NList newl newr);
                  algo1_loop fuel' (match lock with None => Some mode | Some _ => lock end)
                    (match mode with Left => NList oldsub reuse' | Right => NList reuse' oldsub end)
              | _, Leaf =>
                  (* remove the top node, 282-292 *)
                  do _ <- drop_ref other; do _ <- drop_ref reuse;
                  algo1_loop fuel' None selected
              | None, Branch => m_panic (* unreachable!, 294 *)
              end
          end
      end
  end.

(** [algo1], src/drop.rs 88-302: the reference after it. *)
Definition algo1 (fuel : nat) (top : DR) : M DR :=
  do c <- class_of top;
  match c with
  | Leaf => m_ret top
  | Branch =>
      do p <- trytake top;
      match p with
      | (None, top') => m_ret top'
      | (Some d, top') => do _ <- algo1_loop fuel None d; m_ret top'
      end
  end.
End Algo1.

(** ** Boxes *)
Local Notation "'do' x '<-' m ';' k" := (d_bind m (fun x => k)) (at level 200, x pattern, m at level 100, k at level 200).

Section Box.
Context {X : Type}.

(** [DatumBox], src/datum.rs 22: an allocation (the number tells it from
    others) and the datum in it. *)
Inductive bref : Type := BRef (id : nat) (n : node bref X).

(** What happens: allocations are freed, and values in leaves are dropped. *)
Inductive event := Freed (id : nat) | Dropped (x : X).
Definition log := list event.

(** [Algo1DatumRef for DatumBox], src/drop.rs 323-333. *)
Definition box_ops : ref_ops (direct log) bref X := {|
  r_deref := fun r => match r with BRef _ n => d_ret n end;
  r_try_replace := fun r v => match r with BRef id n => d_ret (Some n, BRef id v) end;
  r_set := fun r v => match r with BRef id _ => d_ret (BRef id v) end |}.

Definition happens (e : event) : D log unit := fun h => Ok (tt, h ++ [e]).

(** Dropping a [DatumBox]: [drop], src/drop.rs 337-341, and then (by the
    compiler) the box: the fields of the datum in it and its allocation.
    [depth] bounds the recursion, [fuel] the iterations of each loop. *)
Fixpoint box_drop (fuel depth : nat) (r : bref) : D log unit :=
  match depth with
  | 0 => d_nofuel
  | S depth' =>
      do r' <- algo1 box_ops (box_drop fuel depth') fuel r;
      match r' with
      | BRef id n =>
          do _ <- match n with
                  | NComb a b | NList a b => do _ <- box_drop fuel depth' a; box_drop fuel depth' b
                  | NLeaf (Some x) => happens (Dropped x)
                  | NLeaf None => d_ret tt
                  end;
          happens (Freed id)
      end
  end.
End Box.
Arguments bref : clear implicits.
Arguments event : clear implicits.
