(** Running the model on test inputs. *)
From Coq Require Import List NArith Bool.
From Verif.Model Require Import Prelude Parser Iter Utf8 Chunk TextIter PosStr PosStrish
  TextVec TextDatumList CharIter StrishIter Alloc DefaultClassifier TextMethods DatumMethods Bindings Premade.
Import ListNotations.
Set Implicit Arguments.
Open Scope N_scope.

(** Results compared up to positions and chunking, as in the suite. *)
Definition sitem : Type := datum (list char) unit + error unit unit.

Fixpoint datum_map {T1 T2 E} (f : T1 -> T2) (d : datum T1 E) : datum T2 E :=
  match d with
  | DText t => DText (f t)
  | DComb a b => DComb (datum_map f a) (datum_map f b)
  | DEmptyNest => DEmptyNest
  | DList a b => DList (datum_map f a) (datum_map f b)
  | DEmptyList => DEmptyList
  | DExtra x => DExtra x
  end.

Definition error_map {P CE} (e : error P CE) : error unit CE :=
  match e with
  | UnbalancedEndChar _ => UnbalancedEndChar tt
  | MissingEndChar => MissingEndChar
  | FailedAlloc e => FailedAlloc e
  | FailedDerefTryMut => FailedDerefTryMut
  | FailedCombiner e => FailedCombiner e
  end.

Definition mem (c : char) (l : list char) : bool := existsb (N.eqb c) l.
Definition delims (st en es wh : list char) : classifier := {|
  is_nest_start := fun c => mem c st; is_nest_end := fun c => mem c en;
  is_nest_escape := fun c => mem c es; is_whitespace := fun c => mem c wh |}.
(** shared_tests/src/suites.rs 262-267 and 300-305. *)
Definition delims1 := delims [0x27EA] [0x27EB] [0x241B] [0x2D].
Definition delims2 := delims [0x27EA; 0x27E6] [0x27EB; 0x27E7] [0x241B; 0x20E0] [0x2E; 0x3A].

Section Run.
Context {S A TT C CS Pos : Type} (k : chunk_ops C CS Pos) (x : text_ops TT C A) (size : C -> nat)
  (so : stream_ops S A TT Pos) (ao : alloc_ops A TT unit) (from : list char -> TT).

(** The characters of a text. *)
Definition text_list (t : TT) : list char :=
  match titer_new k x t with
  | Ok s => match titer_collect k (text_fuel x size t) s with Ok l => map it_ch l | _ => [0] end
  | _ => [0]
  end.

(** suites.rs 322-371. *)
Definition suite_pairs : list (datum TT unit * combiner A TT unit Pos unit) := [
  (DText (from [0x6F; 0x6F]), Operative (fun _ t a => (inl (Some (DText t)), a)));
  (DText (from [0x61; 0x61]), Applicative (fun _ l a => (inl (Some l), a)));
  (DText (from [0x23]), Applicative (fun _ _ a => (inl None, a)));
  (DText (from [0x63; 0x63]), Operative (fun _ _ a =>
     match a_new_datum ao DEmptyNest a with
     | (Ok d1, a1) => match a_new_datum ao DEmptyList a1 with
                      | (Ok d2, a2) => (inl (Some (DComb d1 d2)), a2)
                      | (_, a2) => (inr (FailedAlloc AllocExhausted), a2)
                      end
     | (_, a1) => (inr (FailedAlloc AllocExhausted), a1)
     end));
  (DText (from [0x66; 0x66]), Operative (fun _ _ a => (inr (FailedAlloc AllocExhausted), a)))].

Definition key_eq := datum_eq (text_eqb k x size) (fun _ _ : unit => true).
Definition key_hash := datum_hash (text_words k x size) (fun _ : unit => []).
(** Sums what is hashed. *)
Definition hasher (l : list hash_word) : N :=
  fold_right (fun w n => match w with HDiscr i => n + i | HChar c => n + c | HOther i => n end) 0 l.

Definition run (cc : classifier) (bound hm : bool) (n : nat) (s : S) (a : A) : option (list sitem) :=
  let m := if bound then suite_pairs else [] in
  let bnd := if hm then hm_lookup key_eq key_hash hasher (hm_collect key_eq key_hash hasher m)
             else pair_lookup key_eq m in
  match iter_collect usize_max cc so (text_concat_ops x) ao bnd
          (parse_calls n) (parse_fuel n) (parse_iter_new s a) with
  | (Ok items, _) => Some (map (fun i => match i with
      | inl d => inl (datum_map text_list d) | inr e => inr (error_map e) end) items)
  | _ => None
  end.
End Run.

(** Cut a string into pieces of [n] characters, with an empty one first. *)
Fixpoint cut (fuel n : nat) (s : list char) : list (list char) :=
  match fuel with
  | O => []
  | Datatypes.S f => match s with [] => [] | _ => firstn n s :: cut f n (skipn n s) end
  end.
Definition pieces (n : nat) (s : list char) : list (list char) := [] :: cut (length s) n s.

Definition run_inmem cc b (s : list char) : option (list sitem) :=
  match titer_new posstr_ops (im_ops (W:=unit)) (tx_from (im_ops (W:=unit)) (posstr_from s)) with
  | Ok st => run posstr_ops im_ops posstr_size im_stream box_alloc
      (fun l => tx_from (im_ops (W:=unit)) (posstr_from l)) cc b true (length s) st tt
  | _ => None
  end.
Definition run_stream cc b (n : nat) (s : list char) : option (list sitem) :=
  match strishiter_new (pieces n s) with
  | Ok st => run posstrish_ops st_ops posstrish_size st_stream box_alloc
      (fun l => tx_from (st_ops (W:=unit)) (posstrish_new l 0)) cc b true (length s) st tt
  | _ => None
  end.
Definition run_chars cc b (s : list char) : option (list sitem) :=
  run posstrish_ops st_ops posstrish_size cs_stream rc_alloc
      (fun l => tx_from (st_ops (W:=unit)) (posstrish_new l 0)) cc b false (length s) (chariter_new s) tt.
Definition run_noheap cc b (s : list char) : option (list sitem) :=
  match titer_new posstr_ops (nh_ops (W:=unit) (ET:=unit)) (tx_from (nh_ops (W:=unit) (ET:=unit)) (posstr_from s)) with
  | Ok st => run posstr_ops nh_ops posstr_size nh_stream slice_alloc
      (fun l => tx_from (nh_ops (W:=unit) (ET:=unit)) (posstr_from l)) cc b false (length s) st
      (nh_parser (repeat DEmptyNest 100) tt)
  | _ => None
  end.

Definition str_eqb (a b : list char) : bool := if list_eq_dec N.eq_dec a b then true else false.
Definition sitem_eqb (a b : sitem) : bool :=
  match a, b with
  | inl d1, inl d2 => datum_eq str_eqb (fun _ _ => true) d1 d2
  | inr (UnbalancedEndChar _), inr (UnbalancedEndChar _) => true
  | inr MissingEndChar, inr MissingEndChar => true
  | inr (FailedAlloc _), inr (FailedAlloc _) => true
  | _, _ => false
  end.
Fixpoint sitems_eqb (a b : list sitem) : bool :=
  match a, b with
  | [], [] => true
  | x :: a', y :: b' => sitem_eqb x y && sitems_eqb a' b'
  | _, _ => false
  end.
Definition is_result (o : option (list sitem)) (e : list sitem) : bool :=
  match o with Some l => sitems_eqb l e | None => false end.

Definition check (cc : classifier) (b : bool) (t : list char * list sitem) : bool :=
  let (s, e) := t in
  is_result (run_inmem cc b s) e && is_result (run_stream cc b 1 s) e &&
  is_result (run_stream cc b 2 s) e && is_result (run_stream cc b 100 s) e &&
  is_result (run_chars cc b s) e && is_result (run_noheap cc b s) e.
