(** Datums behind counted references: which tree a datum is, and what the parser and
    the combiners may do to the memory. *)
From Coq Require Import List NArith.
From Verif.Model Require Import Prelude Parser Iter Drop DropRc RcParser.
From Verif.Spec Require Import Drops.
Import ListNotations.
Set Implicit Arguments.

Section Reading.
Context {T ET : Type}.
Local Notation mem := (rc_mem T ET).

(** The datum [n], its references followed, is the tree [d]. *)
Inductive is_tree (h : mem) : rc_datum T ET -> datum T ET -> Prop :=
| IT_text t : is_tree h (NLeaf (Some (LText t))) (DText t)
| IT_extra x : is_tree h (NLeaf (Some (LExtra x))) (DExtra x)
| IT_nest : is_tree h (NLeaf (Some LEmptyNest)) DEmptyNest
| IT_end : is_tree h (NLeaf None) DEmptyList
| IT_comb x m d y n e : node_at h x = Some m -> is_tree h m d -> node_at h y = Some n -> is_tree h n e ->
    is_tree h (NComb x y) (DComb d e)
| IT_list x m d y n e : node_at h x = Some m -> is_tree h m d -> node_at h y = Some n -> is_tree h n e ->
    is_tree h (NList x y) (DList d e).

(** All that these references reach has one reference only, and no weak ones. *)
Definition unshared (h : mem) (R : list nat) : Prop :=
  forall y, reach h R y -> exists n, cell_at h y = Some (Cell 1 0 (Some n)).

(** From memory [h] to [h'], code that owned the references [R] and now owns [R'],
    while others own [K]: the counts are exact, without cycles; the others can read what
    they could; what the code could not reach is exactly as before, and it still cannot
    reach it; no memory stays allocated for which there are no references.  If [U], it does
    not make sharing or weak references. *)
Record moves (U : Prop) (K R R' : list nat) (h h' : mem) : Prop := {
  mv_consistent : consistent h' (R' ++ K);
  mv_others : forall y, reach h K y -> node_at h' y = node_at h y;
  mv_apart : forall y c, cell_at h y = Some c -> ~ reach h R y -> cell_at h' y = Some c /\ ~ reach h' R' y;
  mv_freed : forall y, cell_at h' y = Some (Cell 0 0 None) -> cell_at h y = Some (Cell 0 0 None);
  mv_weak : U -> forall y c, cell_at h' y = Some c -> weak c = 0 \/ exists c0, cell_at h y = Some c0 /\ weak c0 = weak c;
  mv_unshared : U -> unshared h R -> unshared h' R' }.

Definition owns (o : option (rc_datum T ET)) : list nat := match o with Some n => kids n | None => [] end.
Definition is_option (h : mem) (o : option (rc_datum T ET)) (o' : option (datum T ET)) : Prop :=
  match o, o' with
  | Some n, Some d => is_tree h n d
  | None, None => True
  | _, _ => False
  end.

(** How deep drops may recurse: in any memory as deep as there are branches; if there is
    no sharing, twice is enough. *)
Definition deep (U : Prop) (ddepth : mem -> nat) (h : mem) (R : list nat) : Prop :=
  (forall h, branch_cells h < ddepth h) \/ (U /\ (forall h, 2 <= ddepth h) /\ unshared h R).
(** How many iterations are enough. *)
Definition fuelled (dfuel : mem -> nat) : Prop :=
  forall h, branch_cells h * branch_cells h + branch_cells h < dfuel h.
End Reading.

Section Bindings.
Context {W1 W2 T ET Pos CE : Type} (U : Prop).
Local Notation mem := (rc_mem T ET).
(** The references in the combiners' state, and that such a state is one of the combiners
    on trees. *)
Context (held : W1 -> list nat) (rw : mem -> W1 -> W2 -> Prop).

(** That depends on what they refer to. *)
Definition world_local : Prop := forall h h' w1 w2, rw h w1 w2 ->
  (forall y, reach h (held w1) y -> node_at h' y = node_at h y) -> rw h' w1 w2.

(** A combiner that owns [R] does what one on trees does. *)
Definition same_call (R : list nat) (h : mem) (w1 : W1)
    (r1 : (option (rc_datum T ET) + error Pos CE) * (mem * W1)) (r2 : (option (datum T ET) + error Pos CE) * W2) : Prop :=
  forall K, consistent h (R ++ held w1 ++ K) ->
  let '(v1, (h', w1')) := r1 in let '(v2, w2') := r2 in
  rw h' w1' w2' /\
  match v1, v2 with
  | inl o1, inl o2 => is_option h' o1 o2 /\ moves U K (R ++ held w1) (owns o1 ++ held w1') h h'
  | inr e1, inr e2 => e1 = e2 /\ moves U K (R ++ held w1) (held w1') h h'
  | _, _ => False
  end.

Definition rc_bindings_same (bnd1 : mem -> rc_datum T ET -> option (rc_combiner (mem * W1) T ET Pos CE))
    (bnd2 : bindings W2 T ET Pos CE) : Prop :=
  forall h0 n d, is_tree h0 n d ->
  match bnd1 h0 n, bnd2 d with
  | Some (ROperative f1), Some (Operative f2) =>
      forall h w1 w2 t, is_tree h n d -> rw h w1 w2 ->
        same_call (kids n) h w1 (f1 n t (h, w1)) (f2 d t w2)
  | Some (RApplicative f1), Some (Applicative f2) =>
      forall h w1 w2 n' d', is_tree h n d -> is_tree h n' d' -> rw h w1 w2 ->
        same_call (kids n ++ kids n') h w1 (f1 n n' (h, w1)) (f2 d d' w2)
  | None, None => True
  | _, _ => False
  end.
End Bindings.

(** Streams and texts that do not use the allocator, and are the same for both. *)
Record plain_stream {S A B T Pos} (so1 : stream_ops S A T Pos) (so2 : stream_ops S B T Pos) : Prop := {
  pl_peek : forall s, s_peek so1 s = s_peek so2 s;
  pl_next : forall s, s_next so1 s = s_next so2 s;
  pl_next_accum : forall s a b, exists r s', s_next_accum so1 s a = (r, (s', a)) /\ s_next_accum so2 s b = (r, (s', b));
  pl_accum_done : forall s a b, exists r s', s_accum_done so1 s a = (r, (s', a)) /\ s_accum_done so2 s b = (r, (s', b)) }.
Definition plain_concat {A B T} (co1 : concat_ops A T) (co2 : concat_ops B T) : Prop :=
  t_empty co1 = t_empty co2 /\
  forall t1 t2 a b, exists r, t_concat co1 t1 t2 a = (r, a) /\ t_concat co2 t1 t2 b = (r, b).

(** Histories of calls of [next] as in History.v. *)
Section History.
Context {S W T ET Pos CE : Type}.
Local Notation A := (rc_mem T ET * W)%type.
Context (umax : N) (cc : classifier) (so : stream_ops S A T Pos) (co : concat_ops A T)
        (bnd : rc_mem T ET -> rc_datum T ET -> option (rc_combiner A T ET Pos CE))
        (arc : bool) (dfuel ddepth : rc_mem T ET -> nat).
Inductive rc_called : pstate S A -> list (option (rc_datum T ET + error Pos CE)) -> pstate S A -> Prop :=
| rc_called_none st : rc_called st [] st
| rc_called_next st fuel r st1 rs st2 :
    rp_iter_next umax cc so co bnd arc dfuel ddepth fuel st = (Ok r, st1) ->
    rc_called st1 rs st2 -> rc_called st (r :: rs) st2.
End History.

Section Items.
Context {T ET Pos CE : Type}.
(** The datums among results of [next]. *)
Definition datum_of (r : option (rc_datum T ET + error Pos CE)) : list (rc_datum T ET) :=
  match r with Some (inl n) => [n] | _ => [] end.
(** The same results: the same errors, and datums that are the trees. *)
Definition is_result (h : rc_mem T ET) (r : option (rc_datum T ET + error Pos CE)) (r' : option (datum T ET + error Pos CE)) : Prop :=
  match r, r' with
  | Some (inl n), Some (inl d) => is_tree h n d
  | Some (inr e), Some (inr e') => e = e'
  | None, None => True
  | _, _ => False
  end.
(** What they own. *)
Definition owned (rs : list (option (rc_datum T ET + error Pos CE))) : list nat := flat_map kids (flat_map datum_of rs).
End Items.
