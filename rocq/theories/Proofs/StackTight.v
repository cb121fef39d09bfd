(** Sources that need as many stack frames as the bound allows. *)
From Coq Require Import List Arith NArith Bool Lia.
From Verif.Model Require Import Prelude Parser Iter DefaultClassifier Stack.
From Verif.Spec Require Import AbsStream Nesting.
From Verif.Proofs Require Import StackFacts.
Import ListNotations.
Set Implicit Arguments.

Section Unfold.
Context {S A TT ET Pos CE : Type}.
Context (umax : N) (cc : classifier) (so : stream_ops S A TT Pos) (co : concat_ops A TT)
        (ao : alloc_ops A TT ET) (bnd : bindings A TT ET Pos CE).
Local Notation "x <- m ;; k" := (tbind m (fun x => k)) (at level 61, m at next level, right associativity).
Local Notation "m ;;; k" := (tbind m (fun _ => k)) (at level 61, right associativity).
Local Notation t_parse_next := (t_parse_next umax cc so co ao bnd).
Local Notation t_parse_nested := (t_parse_nested umax cc so co ao bnd).
Local Notation t_parse_all := (t_parse_all umax cc so co ao bnd).
Lemma unfold_t_parse_next f m : t_parse_next (Datatypes.S f) m =
      (if is_operator_mode m
       then leaf (skip_whitespace cc so f) else here (ret tt)) ;;;
      o <- here (peek so) ;;
      match o with
      | None =>
          d <- here get_depth ;;
          if (d =? 0)%N then here (ret None) else here (raise MissingEndChar)
      | Some it =>
          let ch := it_ch it in
          if is_nest_start cc ch then
            here (incr_depth umax) ;;;
            r <- tfinally (push (t_parse_nested f)) decr_depth ;;
            match r with
            | None => t_parse_next f m (* continue *)
            | Some d => here (ret (Some d))
            end
          else if is_nest_end cc ch then
            d <- here get_depth ;;
            leaf (check_end_char cc so d) ;;;
            here (ret None)
          else
            t <- text_leaf (parse_text umax cc so co f m) ;;
            here (ret (Some (DText t)))
      end.
Proof. reflexivity. Qed.
Lemma unfold_t_parse_nested f : t_parse_nested (Datatypes.S f) =
      start <- here (next so) ;;
      here (assert (match start with Some it => is_nest_start cc (it_ch it) | None => false end)) ;;;
      operator <- push (t_parse_next f Operator) ;;
      o <- here (peek so) ;;
      here (match o with
       | Some it => if is_whitespace cc (it_ch it) then bind (next so) (fun _ => ret tt) else ret tt
       | None => ret tt
       end) ;;;
      match operator with
      | Some operator =>
          match bnd operator with
          | Some (Operative opr) =>
              operands <- text_leaf (parse_text umax cc so co f Operands) ;;
              leaf (nest_end cc so) ;;;
              here (call (opr operator operands))
          | Some (Applicative apl) =>
              arguments <- push (t_parse_all f Base) ;;
              leaf (nest_end cc so) ;;;
              here (call (apl operator arguments))
          | None =>
              operands <- push (t_parse_all f Base) ;;
              leaf (nest_end cc so) ;;;
              r1 <- here (new_datum ao operator) ;;
              r2 <- here (new_datum ao operands) ;;
              here (ret (Some (DComb r1 r2)))
          end
      | None =>
          leaf (nest_end cc so) ;;;
          here (ret (Some DEmptyNest))
      end.
Proof. reflexivity. Qed.
Lemma unfold_t_parse_all f m : t_parse_all (Datatypes.S f) m =
      it <- push (t_parse_next f m) ;;
      match it with
      | Some next_it =>
          e <- here (new_datum ao next_it) ;;
          n <- here (new_datum ao DEmptyList) ;;
          st_ok <- here (fun st => (Ok (a_get_mut ao n (ps_alloc st)), st)) ;;
          (if st_ok
           then rest <- t_parse_all f m ;; here (ret (DList e rest))
           else here (raise FailedDerefTryMut))
      | None => here (ret DEmptyList)
      end.
Proof. reflexivity. Qed.
End Unfold.

Section Tight.
Context {W ET Pos CE : Type} (p : Pos) (umax : N).
Local Notation text := (list (item Pos)).
Local Notation ch c := (Item c%N p).
Definition no_bindings : bindings W text ET Pos CE := fun _ => None.

(** n times "{f ", then "x", then n times "}". *)
Fixpoint tower (n : nat) : text :=
  match n with
  | O => [ch 0x78]
  | S n' => ch 0x7B :: ch 0x66 :: ch 0x20 :: tower n' ++ [ch 0x7D]
  end.
Fixpoint tower_datum (n : nat) : datum text ET :=
  match n with
  | O => DText [ch 0x78]
  | S n' => DComb (DText [ch 0x66]) (DList (tower_datum n') DEmptyList)
  end.

Local Notation t_next := (t_parse_next umax default_classifier abs_stream abs_concat abs_alloc no_bindings).
Local Notation t_nested := (t_parse_nested umax default_classifier abs_stream abs_concat abs_alloc no_bindings).
Local Notation t_all := (t_parse_all umax default_classifier abs_stream abs_concat abs_alloc no_bindings).
Local Notation at_ s d w := (@PState (@abs_state Pos) W (s, []) d w).

Lemma tower_text f k d s w : (3 <= f) ->
  t_next f Base k (at_ (ch 0x78 :: ch 0x7D :: s) (N.pos d) w) = ((Ok (Some (DText [ch 0x78])), at_ (ch 0x7D :: s) (N.pos d) w), k + 2).
Proof.
  intros Hf. destruct f as [|[|[|f]]]; try lia. cbn -[Nat.max].
  f_equal; lia.
Qed.
Lemma tower_end f k d s w : (1 <= f) ->
  t_next f Base k (at_ (ch 0x7D :: s) (N.pos d) w) = ((Ok None, at_ (ch 0x7D :: s) (N.pos d) w), k + 1).
Proof. intros Hf. destruct f as [|f]; [lia|]. cbn -[Nat.max]. f_equal; lia. Qed.
Lemma tower_all f k d n s w : (forall f' k', f <= S f' -> t_next f' Base k' (at_ (tower n ++ ch 0x7D :: s) (N.pos d) w)
    = ((Ok (Some (tower_datum n)), at_ (ch 0x7D :: s) (N.pos d) w), k' + 3 * n + 2)) -> 3 <= f ->
  t_all f Base k (at_ (tower n ++ ch 0x7D :: s) (N.pos d) w)
    = ((Ok (DList (tower_datum n) DEmptyList), at_ (ch 0x7D :: s) (N.pos d) w), k + 3 * n + 3).
Proof.
  intros H Hf. destruct f as [|f]; [lia|]. rewrite unfold_t_parse_all. unfold tbind at 1. unfold push at 1. rewrite H by lia.
  unfold tbind, here, new_datum. cbn [abs_alloc a_new_datum a_get_mut res_map_err ps_alloc ps_strm ps_depth].
  destruct f as [|f]; [lia|]. rewrite unfold_t_parse_all. unfold tbind, push. rewrite tower_end by lia. cbn -[Nat.max]. f_equal; lia.
Qed.
Lemma tower_nested f k d n s w : (forall f' k', f <= f' + 2 -> t_next f' Base k' (at_ (tower n ++ ch 0x7D :: s) (N.pos d) w)
    = ((Ok (Some (tower_datum n)), at_ (ch 0x7D :: s) (N.pos d) w), k' + 3 * n + 2)) -> 10 <= f ->
  t_nested f k (at_ (tower (S n) ++ s) (N.pos d) w) = ((Ok (Some (tower_datum (S n))), at_ s (N.pos d) w), k + 3 * n + 4).
Proof.
  intros H Hf. destruct f as [|f]; [lia|]. cbn [tower app]. rewrite <- app_assoc. cbn [app].
  pose proof (@tower_all f (S k) d n s w) as K.
  assert (OP : t_next f Operator (S k) (at_ (ch 0x66 :: ch 0x20 :: tower n ++ ch 0x7D :: s) (N.pos d) w)
    = ((Ok (Some (DText [ch 0x66])), at_ (ch 0x20 :: tower n ++ ch 0x7D :: s) (N.pos d) w), S k + 2)).
  { clear K H. destruct f as [|[|[|[|f]]]]; try lia. cbn -[Nat.max]. f_equal; lia. }
  specialize (K ltac:(intros; apply H; lia) ltac:(lia)).
  rewrite unfold_t_parse_nested. revert OP K. generalize (t_next f Operator) (t_all f Base) (tower n). intros g h tw OP K.
  unfold tbind, here, push, next, peek. cbn -[Nat.max Nat.mul].
  rewrite OP. cbn -[Nat.max Nat.mul]. rewrite K. cbn -[Nat.max Nat.mul]. f_equal; lia.
Qed.
Lemma tower_next : forall n f k d s w, 10 * n + 10 <= f -> (N.of_nat n + N.pos d <= umax)%N ->
  t_next f Base k (at_ (tower n ++ ch 0x7D :: s) (N.pos d) w)
    = ((Ok (Some (tower_datum n)), at_ (ch 0x7D :: s) (N.pos d) w), k + 3 * n + 2).
Proof.
  induction n as [|n IH]; intros f k d s w Hf Hu.
  { cbn [tower app tower_datum]. rewrite tower_text by lia. f_equal; lia. }
  destruct f as [|f]; [lia|]. 
  assert (NE : t_nested f (S k) (at_ (tower (S n) ++ ch 0x7D :: s) (N.pos (d + 1)) w)
    = ((Ok (Some (tower_datum (S n))), at_ (ch 0x7D :: s) (N.pos (d + 1)) w), S k + 3 * n + 4)).
  { apply tower_nested; [|lia]. intros f' k' Hf'. apply IH; lia. }
  remember (tower (S n) ++ ch 0x7D :: s) as src eqn:ES. assert (E : exists src', src = ch 0x7B :: src') by (rewrite ES; cbn; eauto).
  destruct E as (src' & E). clear ES. subst src. rewrite unfold_t_parse_next. cbn [is_operator_mode]. revert NE.
  generalize (t_nested f) (t_next f Base). intros g h NE. unfold tbind, tfinally, here, push, peek, incr_depth, finally, bind, decr_depth, ret.
  cbn -[Nat.max Nat.mul N.ltb N.add tower_datum]. replace (N.pos d <? umax)%N with true by (symmetry; apply N.ltb_lt; lia).
  cbn -[Nat.max Nat.mul N.ltb N.add tower_datum]. change (N.pos d + 1)%N with (N.pos (d + 1)). rewrite NE. cbn -[Nat.max Nat.mul N.sub tower_datum].
  replace (N.pos (d + 1) - 1)%N with (N.pos d) by lia. f_equal; lia.
Qed.
Theorem tower_frames n f w : 10 * n + 30 <= f -> (N.of_nat (S n) <= umax)%N ->
  do_next_frames umax default_classifier abs_stream abs_concat abs_alloc no_bindings f (at_ (tower (S n)) 0%N w)
    = ((Ok (Some (tower_datum (S n))), at_ [] 0%N w), 3 * S n + 3).
Proof.
  intros Hf Hu. unfold do_next_frames, push at 1. destruct f as [|f]; [lia|].
  assert (NE : t_nested f 2 (at_ (tower (S n) ++ []) (N.pos 1) w)
    = ((Ok (Some (tower_datum (S n))), at_ [] (N.pos 1) w), 2 + 3 * n + 4)).
  { apply tower_nested; [|lia]. intros f' k' Hf'. apply tower_next; lia. }
  rewrite app_nil_r in NE.
  remember (tower (S n)) as src eqn:ES. assert (E : exists src', src = ch 0x7B :: src') by (rewrite ES; cbn; eauto).
  destruct E as (src' & E). clear ES. subst src. rewrite unfold_t_parse_next. cbn [is_operator_mode]. revert NE.
  generalize (t_nested f) (t_next f Base). intros g h NE. unfold tbind, tfinally, here, push, peek, incr_depth, finally, bind, decr_depth, ret.
  cbn -[Nat.max Nat.mul N.ltb N.add tower_datum]. replace (0 <? umax)%N with true by (symmetry; apply N.ltb_lt; lia).
  cbn -[Nat.max Nat.mul N.ltb N.add tower_datum]. change (0 + 1)%N with (N.pos 1). rewrite NE. cbn -[Nat.max Nat.mul tower_datum]. f_equal; lia.
Qed.
Lemma tower_deep : forall n d s, deepest default_classifier false d (tower n ++ s) = Nat.max (n + d) (deepest default_classifier false d s).
Proof.
  induction n as [|n IH]; intros d s; [cbn|].
  - symmetry. apply Nat.max_r. apply deep_ge.
  - cbn [tower app]. rewrite <- app_assoc. cbn [app]. change (deepest default_classifier false d (ch 0x7B :: ch 0x66 :: ch 0x20 :: tower n ++ ch 0x7D :: s))
      with (deepest default_classifier false (S d) (tower n ++ ch 0x7D :: s)). rewrite IH.
    change (deepest default_classifier false (S d) (ch 0x7D :: s)) with (Nat.max (S d) (deepest default_classifier false d s)). lia.
Qed.
Lemma tower_nesting n : nesting default_classifier (tower n) = n.
Proof. unfold nesting. rewrite <- (app_nil_r (tower n)), tower_deep. cbn. lia. Qed.
End Tight.
