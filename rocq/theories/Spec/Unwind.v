(** The items of any source when combiners panic and the caller catches it and goes
    on. *)
From Coq Require Import List NArith Bool.
From Verif.Model Require Import Prelude Parser Iter Unwind.
From Verif.Spec Require Import Grammar Fails Unclosed.
Import ListNotations.
Set Implicit Arguments.

(** [unw_nexts st os st']: consecutive calls of [next] from [st], with panics of
    combiners caught, give [os] and end in [st']. *)
Inductive unw_nexts {S A TT ET Pos CE} umax cc (so : stream_ops S A TT Pos) co ao
    (bnd : bindings A TT ET Pos (option CE))
  : pstate S A -> list (option (datum TT ET + error Pos (option CE))) -> pstate S A -> Prop :=
| unexts_nil st : unw_nexts umax cc so co ao bnd st [] st
| unexts_cons fuel st o st1 os st2 :
    unw_iter_next umax cc so co ao bnd fuel st = (Ok o, st1) -> unw_nexts umax cc so co ao bnd st1 os st2 ->
    unw_nexts umax cc so co ao bnd st (o :: os) st2.

Section Caught.
Context {W ET Pos CE : Type}.
Local Notation source := (list (item Pos)).
Local Notation text := (list (item Pos)).
Context (cc : classifier) (bnd : bindings W source ET Pos (option CE)).

(** [fails_at n w s e w']: as [fails], and the combiner is called inside [n] nest
    forms, its own included. *)
Inductive fails_at : nat -> W -> source -> error Pos (option CE) -> W -> Prop :=
| fails_at_here w s e w' : nest cc bnd w s (inr e) w' -> fails_at 1 w s e w'
| fails_at_operator n w x l w1 s e w' :
    starts cc x -> lead cc bnd w l w1 -> fails_at n w1 s e w' -> fails_at (S n) w (x :: l ++ s) e w'
| fails_at_operand n w x l w1 h d is_text w2 sp body ds w3 b s e w' :
    starts cc x -> lead cc bnd w l w1 -> head cc bnd w1 h d is_text w2 ->
    match bnd d with Some (Operative _) => False | _ => True end ->
    sep cc is_text sp (body ++ s) -> forms cc bnd false false w2 body ds w3 b ->
    fails_at n w3 s e w' -> fails_at (S n) w (x :: l ++ h ++ sp ++ body ++ s) e w'.

(** [caught_run k w s items w' t rest]: for [s], with [k] nest forms left open by
    panics before, the calls of [next] give [items], after which they give [t] for
    ever with [rest] of the source never consumed; [w] and [w'] as in [run].  A
    caught panic leaves open the nest forms around the combiner.  When some are open:
    a matching end delimiter is missing at the end of the source; and one that would
    match nothing ends the iteration, in front of it. *)
Inductive caught_run : nat -> W -> source -> list (datum text ET + error Pos (option CE)) -> W ->
    option (datum text ET + error Pos (option CE)) -> source -> Prop :=
| cr_all w s ds w' :
    input cc bnd w s ds w' -> caught_run 0 w s (map inl ds) w' None []
| cr_all_open k w s ds w' :
    input cc bnd w s ds w' -> caught_run (S k) w s (map inl ds) w' (Some (inr MissingEndChar)) []
| cr_fails k w u ds w1 b f e w2 r items w' t rest :
    forms cc bnd false false w u ds w1 b -> fails cc bnd w1 f e w2 -> e <> FailedCombiner None ->
    caught_run k w2 r items w' t rest ->
    caught_run k w (u ++ f ++ r) (map inl ds ++ inr e :: items) w' t rest
| cr_panics k w u ds w1 b n f w2 r items w' t rest :
    forms cc bnd false false w u ds w1 b -> fails_at n w1 f (FailedCombiner None) w2 ->
    caught_run (k + n) w2 r items w' t rest ->
    caught_run k w (u ++ f ++ r) (map inl ds ++ inr (FailedCombiner None) :: items) w' t rest
| cr_unmatched w u ds w1 b x r items w' t rest :
    forms cc bnd false false w u ds w1 b -> ends cc x -> caught_run 0 w1 r items w' t rest ->
    caught_run 0 w (u ++ x :: r)
      (map inl (if b then removelast ds else ds) ++ inr (UnbalancedEndChar (it_pos x)) :: items) w' t rest
| cr_end k w u ds w' b x r :
    forms cc bnd false false w u ds w' b -> ends cc x ->
    caught_run (S k) w (u ++ x :: r) (map inl ds) w' None (x :: r)
| cr_unclosed w u ds w1 b s w' :
    forms cc bnd false false w u ds w1 b -> unclosed cc bnd w1 s w' ->
    caught_run 0 w (u ++ s) (map inl ds ++ [inr MissingEndChar]) w' None []
| cr_unclosed_open k w u ds w1 b s w' :
    forms cc bnd false false w u ds w1 b -> unclosed cc bnd w1 s w' ->
    caught_run (S k) w (u ++ s) (map inl ds ++ [inr MissingEndChar]) w' (Some (inr MissingEndChar)) [].
End Caught.
