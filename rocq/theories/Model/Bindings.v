(** The operator bindings. *)
From Coq Require Import List NArith Bool.
From Verif.Model Require Import Prelude TextMethods.
Import ListNotations.
Set Implicit Arguments.

Section Bindings.
(** [K]: operator datums with their [==] ([key_eq]) and what they feed to a
    hasher ([key_hash]); [V]: combiners. *)
Context {K V : Type} (key_eq : K -> K -> bool) (key_hash : K -> list hash_word).

(** [EmptyOperatorBindings::lookup],
    core/src/parser/premade/empty_bindings.rs 51-54. *)
Definition empty_lookup (operator : K) : option V := None.

(** [PairOperatorBindings::lookup],
    core/src/parser/premade/pair_bindings.rs 80-90. *)
Fixpoint pair_lookup (pairs : list (K * V)) (operator : K) : option V :=
  match pairs with
  | [] => None
  | (datum, combiner) :: rest =>
      if key_eq operator datum then Some combiner else pair_lookup rest operator
  end.

(** The standard library's [HashMap] as a list of entries.  [hasher]: what the
    [BuildHasher] makes of the data fed.  A key is found if its hash agrees and
    it is [==]. *)
Context (hasher : list hash_word -> N).

Definition same_key (k1 k2 : K) : bool :=
  (hasher (key_hash k1) =? hasher (key_hash k2))%N && key_eq k1 k2.

(** [HashMap::insert] (standard library): replaces the value of a present key. *)
Fixpoint hm_insert (k : K) (v : V) (m : list (K * V)) : list (K * V) :=
  match m with
  | [] => [(k, v)]
  | (k', v') :: m' => if same_key k k' then (k', v) :: m' else (k', v') :: hm_insert k v m'
  end.

(** [HashMap::from_iter] (standard library), how users build the map. *)
Definition hm_collect (pairs : list (K * V)) : list (K * V) :=
  fold_left (fun m kv => hm_insert (fst kv) (snd kv) m) pairs [].

(** [HashMapOperatorBindings::lookup], src/parser/hashmap_bindings.rs 102-106:
    [HashMap::get]. *)
Fixpoint hm_lookup (m : list (K * V)) (operator : K) : option V :=
  match m with
  | [] => None
  | (k, v) :: m' => if same_key operator k then Some v else hm_lookup m' operator
  end.
End Bindings.
