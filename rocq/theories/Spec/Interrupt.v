(** Sources that panic in between, and where in a source the parser is when one does. *)
From Coq Require Import List NArith Bool.
From Verif.Model Require Import Prelude Parser Utf8 CharIter.
From Verif.Spec Require Import Grammar Contract.
From Verif.Proofs Require Import Sim Refine.
Import ListNotations.
Set Implicit Arguments.

(** The values among what the calls of an iterator do. *)
Fixpoint values {X} (evs : list (option X)) : list X :=
  match evs with
  | [] => []
  | Some x :: r => x :: values r
  | None :: r => values r
  end.

(** What a stream answers when this is to come. *)
Definition answer {E X} (evs : list (option X)) : res E (option X) :=
  match evs with
  | [] => Ok None
  | Some x :: _ => Ok (Some x)
  | None :: _ => Panic
  end.

(** The items, and panics in between, that an iterator of characters comes to; the first character
    is at index [n]. *)
Fixpoint numbered (n : N) (evs : list (option char)) : list (option (item N)) :=
  match evs with
  | [] => []
  | Some c :: r => Some (Item c n) :: numbered (n + 1) r
  | None :: r => None :: numbered n r
  end.

(** The same for an iterator of strings. *)
Fixpoint pieces (n : N) (evs : list (option str)) : list (option (item N)) :=
  match evs with
  | [] => []
  | Some s :: r => map Some (enumerate n s) ++ pieces (n + N.of_nat (length s)) r
  | None :: r => None :: pieces n r
  end.

Section Contract.
Context {S A TT Pos W : Type} (view : A -> W).

(** As [stream_contract] of Contract.v without failing allocations, where some calls panic:
    [Rs s evs pend] says that state [s] stands for the items and panics [evs] still to come, with
    [pend] accumulated.  A call that panics uses up that panic and no item; the accumulation is
    as after a call that does not, without a new item. *)
Record panic_contract (so : stream_ops S A TT Pos)
    (Rs : S -> list (option (item Pos)) -> list (item Pos) -> Prop)
    (Rt : TT -> list (item Pos) -> Prop) : Prop := {
  pc_peek : forall s evs pend, Rs s evs pend ->
    exists s', s_peek so s = (answer evs, s') /\
               Rs s' (match evs with None :: r => r | _ => evs end) pend;
  pc_next : forall s evs pend, Rs s evs pend ->
    exists s', s_next so s = (answer evs, s') /\ Rs s' (tl evs) [];
  pc_next_accum : forall s a evs pend, Rs s evs pend ->
    exists s' a', s_next_accum so s a = (answer evs, (s', a')) /\ view a' = view a /\
               Rs s' (tl evs) (pend ++ values (firstn 1 evs));
  pc_accum_done : forall s a evs pend, Rs s evs pend ->
    exists s' a' t, s_accum_done so s a = (Ok t, (s', a')) /\ view a' = view a /\
               Rt t pend /\ Rs s' evs [] }.

Context {ET CE AE AC : Type}.
Local Notation text := (list (item Pos)).

(** As [lawful] of Lawful.v, with such a stream and without failing allocations. *)
Record panic_lawful (so : stream_ops S A TT Pos) (co : concat_ops A TT) (ao : alloc_ops A TT ET)
    (bnd : bindings A TT ET Pos CE) (abnd : bindings W text AE Pos AC)
    (Rs : S -> list (option (item Pos)) -> text -> Prop) (Rt : TT -> text -> Prop)
    (Rx : ET -> AE -> Prop) (Rc : CE -> AC -> Prop) : Prop := {
  pl_stream : panic_contract so Rs Rt;
  pl_concat : concat_contract False view co Rt;
  pl_alloc : alloc_contract False view ao;
  pl_get_mut : forall d a, a_get_mut ao d a = true;
  pl_bnd : bindings_sim bnd abnd False (Ra_view view) Rt Rx eq Rc }.
End Contract.

Section Cut.
Context {W ET Pos CE : Type}.
Local Notation source := (list (item Pos)).
Local Notation text := (list (item Pos)).
Context (cc : classifier) (bnd : bindings W source ET Pos CE).

(** [cut_text stop p s p']: [s] is the part of a text that was read, in source form; with [p]
    accumulated before it, [p'] is accumulated after it: what was read since the last escape
    character (nothing, when that is the last character read). *)
Inductive cut_text (stop : char -> bool) : text -> source -> text -> Prop :=
| ct_nil p : cut_text stop p [] p
| ct_plain p x s p' :
    stop (it_ch x) = false -> ~ escapes cc x -> cut_text stop (p ++ [x]) s p' -> cut_text stop p (x :: s) p'
| ct_escape p x : escapes cc x -> cut_text stop p [x] []
| ct_escaped p x y s p' : escapes cc x -> cut_text stop [y] s p' -> cut_text stop p (x :: y :: s) p'.

(** The same for unparsed operands, inside [n] nests in them. *)
Inductive cut_operands : nat -> text -> source -> text -> Prop :=
| co_nil n p : cut_operands n p [] p
| co_plain n p x s p' :
    delimiter cc (it_ch x) = false -> ~ escapes cc x -> cut_operands n (p ++ [x]) s p' -> cut_operands n p (x :: s) p'
| co_escape n p x : escapes cc x -> cut_operands n p [x] []
| co_escaped n p x y s p' : escapes cc x -> cut_operands n [y] s p' -> cut_operands n p (x :: y :: s) p'
| co_start n p x s p' : starts cc x -> cut_operands (S n) (p ++ [x]) s p' -> cut_operands n p (x :: s) p'
| co_end n p x s p' : ends cc x -> cut_operands n (p ++ [x]) s p' -> cut_operands (S n) p (x :: s) p'.

(** [cut_nest n w s w' p]: [s] is the part of a nest form that was read; this is inside [n] nest
    forms, itself included; [p] is accumulated; and the forms in it that are complete take the
    combiners' state from [w] to [w']. *)
Inductive cut_nest : nat -> W -> source -> W -> text -> Prop :=
| cn_operator w x l w' s p :
    starts cc x -> lead cc bnd w l w' -> cut_text (operator_delimiter cc) [] s p ->
    cut_nest 1 w (x :: l ++ s) w' p
| cn_operator_nest n w x l w1 s w' p :
    starts cc x -> lead cc bnd w l w1 -> cut_nest n w1 s w' p -> cut_nest (S n) w (x :: l ++ s) w' p
| cn_operands w x l w1 h d is_text w2 sp body ds w' s p :
    starts cc x -> lead cc bnd w l w1 -> head cc bnd w1 h d is_text w2 ->
    match bnd d with Some (Operative _) => False | _ => True end ->
    sep cc is_text sp (body ++ s) -> forms cc bnd false false w2 body ds w' false ->
    cut_text (delimiter cc) [] s p -> (is_text = true -> sp ++ body ++ s <> []) ->
    cut_nest 1 w (x :: l ++ h ++ sp ++ body ++ s) w' p
| cn_operand n w x l w1 h d is_text w2 sp body ds w3 b s w' p :
    starts cc x -> lead cc bnd w l w1 -> head cc bnd w1 h d is_text w2 ->
    match bnd d with Some (Operative _) => False | _ => True end ->
    sep cc is_text sp (body ++ s) -> forms cc bnd false false w2 body ds w3 b ->
    cut_nest n w3 s w' p -> cut_nest (S n) w (x :: l ++ h ++ sp ++ body ++ s) w' p
| cn_operative w x l w1 h d is_text w' f sp s p :
    starts cc x -> lead cc bnd w l w1 -> head cc bnd w1 h d is_text w' -> bnd d = Some (Operative f) ->
    sep cc is_text sp s -> cut_operands 0 [] s p -> (is_text = true -> sp ++ s <> []) ->
    cut_nest 1 w (x :: l ++ h ++ sp ++ s) w' p.

(** [cut p0 n w s w' p]: [s] is what a call of [next] has read, with [p0] accumulated before it,
    when the source panics: forms that were removed, and a part of a text or of a nest form. *)
Definition cut (p0 : text) (n : nat) (w : W) (s : source) (w' : W) (p : text) : Prop :=
  exists u v w1, s = u ++ v /\ forms cc bnd false false w u [] w1 false /\
    ((n = 0 /\ w' = w1 /\ cut_text (delimiter cc) (match u with [] => p0 | _ => [] end) v p) \/
     cut_nest n w1 v w' p).

(** What a call gives for the source [r] with [p] accumulated before it, where [o] is what it gives
    with nothing accumulated: [p] goes before a text, unless it is not a text that is next. *)
Definition resumed (p : text) (r : source) (o : option (datum text ET + error Pos CE))
  : option (datum text ET + error Pos CE) :=
  match r, o with
  | x :: _, Some (inl (DText t)) => if delimiter cc (it_ch x) then o else Some (inl (DText (p ++ t)))
  | _, _ => o
  end.
End Cut.
