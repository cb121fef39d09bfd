(** Datums in slots: what tree a datum is when its references are followed, which
    slots belong to it, and what it means that a computation on slots does what
    one on trees does. *)
From Coq Require Import List NArith.
From Verif.Model Require Import Prelude Parser Iter Chunk TextIter TextDatumList Alloc SlotHeap.
Import ListNotations.
Set Implicit Arguments.

(** [h] and [h'] have the same in the slots [f]. *)
Definition agree {X} (h h' : list X) (f : list nat) : Prop :=
  forall i, In i f -> nth_error h' i = nth_error h i.

(** The slots handed out are those below [used]. *)
Definition used {X} (s : slice_state X) : nat :=
  match sl_free s with Some i => i | None => length (sl_mem s) end.

Section Reading.
Context {T TT ET : Type}.
(** [rt h t u f]: the text [t], its references followed in [h], is the text [u];
    [f] are the slots it refers to. *)
Context (rt : list (cell T ET) -> T -> TT -> list nat -> Prop).

(** The datum [c], its references followed in [h], is the tree [d]; [f] are
    the slots reached, each as often as it is reached. *)
Inductive holds (h : list (cell T ET)) : cell T ET -> datum TT ET -> list nat -> Prop :=
| H_text t u f : rt h t u f -> holds h (CText t) (DText u) f
| H_comb i ci di fi j cj dj fj :
    nth_error h i = Some ci -> holds h ci di fi ->
    nth_error h j = Some cj -> holds h cj dj fj ->
    holds h (CComb i j) (DComb di dj) (i :: fi ++ j :: fj)
| H_nest : holds h CEmptyNest DEmptyNest []
| H_list i ci di fi j cj dj fj :
    nth_error h i = Some ci -> holds h ci di fi ->
    nth_error h j = Some cj -> holds h cj dj fj ->
    holds h (CList i j) (DList di dj) (i :: fi ++ j :: fj)
| H_end : holds h CEmptyList DEmptyList []
| H_extra x : holds h (CExtra x) (DExtra x) [].

Definition opt_holds h (o : option (cell T ET)) (o' : option (datum TT ET)) f : Prop :=
  match o, o' with
  | Some c, Some d => holds h c d f
  | None, None => f = []
  | _, _ => False
  end.

(** Reading texts depends on their own slots only. *)
Definition rt_local : Prop :=
  forall h h' t u f, rt h t u f -> agree h h' f -> rt h' t u f.
End Reading.

(** [TextDatumList]s in slots. *)
Inductive tdl_holds {C ET} (h : list (cell (stdl C) ET)) : stdl C -> tdl C ET -> list nat -> Prop :=
| TH_last c : tdl_holds h (STDL c None) (TDL c None) []
| TH_link c i t u f : nth_error h i = Some (CText t) -> tdl_holds h t u f ->
    tdl_holds h (STDL c (Some i)) (TDL c (Some (DText u))) (i :: f).

Section Sim.
Context {S1 S2 W T TT ET Pos CE : Type}.
Local Notation A := (slots T ET W).
Local Notation B := (slice_state (datum TT ET) * W)%type.
Context (rt : list (cell T ET) -> T -> TT -> list nat -> Prop).
(** [rs h s1 s2 f]: the same for streams, which may hold texts. *)
Context (rs : list (cell T ET) -> S1 -> S2 -> list nat -> Prop).

Definition mem (a : A) : list (cell T ET) := sl_mem (fst a).
Definition brk (a : A) : nat := used (fst a).

(** As many slots, as many of them used, the same state of the combiners. *)
Definition same_room (a : A) (b : B) : Prop :=
  sl_free (fst a) = sl_free (fst b) /\ length (mem a) = length (sl_mem (fst b)) /\ snd a = snd b /\
  brk a <= length (mem a).

(** From [a] to [a'], a computation that was given the slots [f] and gives back
    the slots [f']: these are pairwise different and were given to it or are
    new, and no slot is changed but new ones and those given to it. *)
Definition moves (a a' : A) (f f' : list nat) : Prop :=
  brk a <= brk a' /\ length (mem a') = length (mem a) /\ NoDup f' /\
  (forall i, In i f' -> In i f \/ brk a <= i < brk a') /\
  (forall i, ~ In i f -> ~ (brk a <= i < brk a') -> nth_error (mem a') i = nth_error (mem a) i).

(** The same outcome in [A] and in [B]; values are related by [Q]. *)
Definition outcome {E X Y} (a : A) (f : list nat) (Q : list (cell T ET) -> X -> Y -> list nat -> Prop)
    (r : res E X * A) (r' : res E Y * B) : Prop :=
  let (v, a1) := r in let (v', b1) := r' in
  same_room a1 b1 /\
  match v, v' with
  | Ok x, Ok y => exists fx, Q (mem a1) x y fx /\ moves a a1 f fx
  | Err e, Err e' => e = e' /\ moves a a1 f []
  | Panic, Panic => True
  | OutOfFuel, OutOfFuel => True
  | _, _ => False
  end.

(** The same for operations of streams. *)
Definition s_outcome {E X Y} (a : A) (f : list nat) (Q : list (cell T ET) -> X -> Y -> list nat -> Prop)
    (r : res E X * (S1 * A)) (r' : res E Y * (S2 * B)) : Prop :=
  let '(v, (s1, a1)) := r in let '(v', (s2, b1)) := r' in
  same_room a1 b1 /\
  match v, v' with
  | Ok x, Ok y => exists fs fx, rs (mem a1) s1 s2 fs /\ Q (mem a1) x y fx /\ moves a a1 f (fs ++ fx)
  | Err e, Err e' => e = e' /\ exists fs, rs (mem a1) s1 s2 fs /\ moves a a1 f fs
  | Panic, Panic => True
  | OutOfFuel, OutOfFuel => True
  | _, _ => False
  end.

(** The slots [f] are pairwise different and in use. *)
Definition owned (a : A) (f : list nat) : Prop := NoDup f /\ forall i, In i f -> i < brk a.

Definition same {X} (_ : list (cell T ET)) (x y : X) (f : list nat) : Prop := x = y /\ f = [].

Record stream_slots (so1 : stream_ops S1 A T Pos) (so2 : stream_ops S2 B TT Pos) : Prop := {
  ss_local : forall h h' s1 s2 f, rs h s1 s2 f -> agree h h' f -> rs h' s1 s2 f;
  ss_peek : forall a b s1 s2 f, same_room a b -> owned a f -> rs (mem a) s1 s2 f ->
    s_outcome a f same (let (r, s) := s_peek so1 s1 in (r, (s, a))) (let (r, s) := s_peek so2 s2 in (r, (s, b)));
  ss_next : forall a b s1 s2 f, same_room a b -> owned a f -> rs (mem a) s1 s2 f ->
    s_outcome a f same (let (r, s) := s_next so1 s1 in (r, (s, a))) (let (r, s) := s_next so2 s2 in (r, (s, b)));
  ss_next_accum : forall a b s1 s2 f, same_room a b -> owned a f -> rs (mem a) s1 s2 f ->
    s_outcome a f same (s_next_accum so1 s1 a) (s_next_accum so2 s2 b);
  ss_accum_done : forall a b s1 s2 f, same_room a b -> owned a f -> rs (mem a) s1 s2 f ->
    s_outcome a f rt (s_accum_done so1 s1 a) (s_accum_done so2 s2 b) }.

Record concat_slots (co1 : concat_ops A T) (co2 : concat_ops B TT) : Prop := {
  cs_local : rt_local rt;
  cs_nil : forall h, rt h (t_empty co1) (t_empty co2) [];
  cs_concat : forall a b t1 u1 f1 t2 u2 f2, same_room a b -> owned a (f1 ++ f2) ->
    rt (mem a) t1 u1 f1 -> rt (mem a) t2 u2 f2 ->
    outcome a (f1 ++ f2) rt (t_concat co1 t1 t2 a) (t_concat co2 u1 u2 b) }.

Definition as_res {X} (r : (X + error Pos CE)) : res (error Pos CE) X :=
  match r with inl x => Ok x | inr e => Err e end.

(** Combiners own their arguments: they may change the slots of these, and
    allocate. *)
Definition bindings_slots (bnd1 : list (cell T ET) -> cell T ET -> option (slot_combiner A T ET Pos CE))
    (bnd2 : bindings B TT ET Pos CE) : Prop :=
  forall h c d f, holds rt h c d f -> NoDup f ->
  match bnd1 h c, bnd2 d with
  | Some (SOperative f1), Some (Operative f2) =>
      forall a b fc t u ft, same_room a b -> owned a (fc ++ ft) ->
        holds rt (mem a) c d fc -> rt (mem a) t u ft ->
        outcome a (fc ++ ft) (opt_holds rt)
          (let (r, a') := f1 c t a in (as_res r, a')) (let (r, b') := f2 d u b in (as_res r, b'))
  | Some (SApplicative f1), Some (Applicative f2) =>
      forall a b fc c' d' fc', same_room a b -> owned a (fc ++ fc') ->
        holds rt (mem a) c d fc -> holds rt (mem a) c' d' fc' ->
        outcome a (fc ++ fc') (opt_holds rt)
          (let (r, a') := f1 c c' a in (as_res r, a')) (let (r, b') := f2 d d' b in (as_res r, b'))
  | None, None => True
  | _, _ => False
  end.
End Sim.

(** Lists related elementwise, with the slots of all elements. *)
Inductive all_hold {X Y} (Q : X -> Y -> list nat -> Prop) : list X -> list Y -> list nat -> Prop :=
| AH_nil : all_hold Q [] [] []
| AH_cons x y f l l' fs : Q x y f -> all_hold Q l l' fs -> all_hold Q (x :: l) (y :: l') (f ++ fs).

Section Items.
Context {T TT ET Pos CE : Type} (rt : list (cell T ET) -> T -> TT -> list nat -> Prop).

(** Items: the same errors, and datums that read as the trees. *)
Definition item_holds (h : list (cell T ET)) (x : slot_item (T:=T) (ET:=ET) (Pos:=Pos) (CE:=CE))
    (y : parse_item (TT:=TT) (ET:=ET) (Pos:=Pos) (CE:=CE)) (f : list nat) : Prop :=
  match x, y with
  | inl c, inl d => holds rt h c d f
  | inr e, inr e' => e = e' /\ f = []
  | _, _ => False
  end.

(** Results of [next]. *)
Definition result_holds h (o : option (slot_item (T:=T) (ET:=ET) (Pos:=Pos) (CE:=CE)))
    (o' : option (parse_item (TT:=TT) (ET:=ET) (Pos:=Pos) (CE:=CE))) f : Prop :=
  match o, o' with
  | Some x, Some y => item_holds h x y f
  | None, None => f = []
  | _, _ => False
  end.
End Items.

(** Histories of calls of [next] as in History.v. *)
Section History.
Context {S W T ET Pos CE : Type}.
Local Notation A := (slots T ET W).
Context (umax : N) (cc : classifier) (so : stream_ops S A T Pos) (co : concat_ops A T)
        (bnd : list (cell T ET) -> cell T ET -> option (slot_combiner A T ET Pos CE)).
Inductive s_called : pstate S A -> list (option (slot_item (T:=T) (ET:=ET) (Pos:=Pos) (CE:=CE))) -> pstate S A -> Prop :=
| s_called_none st : s_called st [] st
| s_called_next st fuel r st1 rs st2 :
    s_iter_next umax cc so co bnd fuel st = (Ok r, st1) ->
    s_called st1 rs st2 -> s_called st (r :: rs) st2.
End History.

(** The list of some datums. *)
Fixpoint list_of {TT ET} (ds : list (datum TT ET)) : datum TT ET :=
  match ds with [] => DEmptyList | d :: ds' => DList d (list_of ds') end.

(** Successive operands: what [parse_next] returns until it returns nothing, with
    the allocation of two datums after each. *)
Section Operands.
Context {S A TT ET Pos CE : Type} (umax : N) (cc : classifier) (so : stream_ops S A TT Pos) (co : concat_ops A TT)
        (ao : alloc_ops A TT ET) (bnd : bindings A TT ET Pos CE) (m : mode).
Inductive operands : pstate S A -> list (datum TT ET) -> pstate S A -> Prop :=
| O_end fuel st st' : parse_next umax cc so co ao bnd fuel m st = (Ok None, st') -> operands st [] st'
| O_more fuel st d st1 d1 st2 d2 st3 ds st' :
    parse_next umax cc so co ao bnd fuel m st = (Ok (Some d), st1) ->
    @new_datum S A TT ET Pos CE ao d st1 = (Ok d1, st2) -> @new_datum S A TT ET Pos CE ao DEmptyList st2 = (Ok d2, st3) ->
    operands st3 ds st' -> operands st (d1 :: ds) st'.
End Operands.

(** A combiner on slots that does what one on trees does, whatever its
    operator and its arguments. *)
Definition combiner_slots {W T TT ET Pos CE} (rt : list (cell T ET) -> T -> TT -> list nat -> Prop)
    (k1 : slot_combiner (slots T ET W) T ET Pos CE)
    (k2 : combiner (slice_state (datum TT ET) * W) TT ET Pos CE) : Prop :=
  match k1, k2 with
  | SOperative f1, Operative f2 =>
      forall a b c d fc t u ft, same_room a b -> owned a (fc ++ ft) -> holds rt (mem a) c d fc -> rt (mem a) t u ft ->
        outcome a (fc ++ ft) (opt_holds rt)
          (let (r, a') := f1 c t a in (as_res r, a')) (let (r, b') := f2 d u b in (as_res r, b'))
  | SApplicative f1, Applicative f2 =>
      forall a b c d fc c' d' fc', same_room a b -> owned a (fc ++ fc') -> holds rt (mem a) c d fc -> holds rt (mem a) c' d' fc' ->
        outcome a (fc ++ fc') (opt_holds rt)
          (let (r, a') := f1 c c' a in (as_res r, a')) (let (r, b') := f2 d d' b in (as_res r, b'))
  | _, _ => False
  end.
