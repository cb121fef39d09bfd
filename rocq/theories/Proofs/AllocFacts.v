(** The allocators. *)
From Coq Require Import List Arith NArith Bool Lia.
From Verif.Model Require Import Prelude Parser Alloc.
From Verif.Spec Require Import Contract Memory.
Import ListNotations.
Set Implicit Arguments.

Lemma box_alloc_contract W TT ET : alloc_contract False (fun w : W => w) (@box_alloc W TT ET).
Proof. intros d a. left. cbn. eauto. Qed.

Lemma rc_alloc_contract W TT ET : alloc_contract False (fun w : W => w) (@rc_alloc W TT ET).
Proof. intros d a. left. cbn. eauto. Qed.

Lemma slice_alloc_contract W TT ET : alloc_contract True snd (@slice_alloc W TT ET).
Proof.
  intros d [s w]. cbn. unfold slice_new_datum. destruct (sl_free s) as [i|]; [destruct (skipn i (sl_mem s))|];
    cbn; [right|left|right]; eauto.
Qed.

Section Slice.
Context {X : Type}.

Lemma set_slot_end (done : list X) y rest x :
  set_slot (done ++ y :: rest) (length done) x = done ++ x :: rest.
Proof.
  unfold set_slot. rewrite firstn_app, firstn_all, Nat.sub_diag, skipn_app, skipn_all, Nat.sub_diag.
  cbn. rewrite app_nil_r. reflexivity.
Qed.

Lemma slice_new_ok (done : list X) y rest x :
  @slice_new_datum X x (SliceState (done ++ y :: rest) (Some (length done))) =
  (Ok (length done), SliceState ((done ++ [x]) ++ rest) (Some (length (done ++ [x])))).
Proof.
  unfold slice_new_datum. cbn [sl_free sl_mem]. rewrite skipn_app, skipn_all, Nat.sub_diag. cbn [skipn app].
  rewrite set_slot_end, <- app_assoc, app_length. cbn. rewrite Nat.add_1_r. reflexivity.
Qed.

Lemma slice_none xs mem : requests xs (SliceState (X:=X) mem None) =
  (map (fun _ => Err AllocExhausted) xs, SliceState mem None).
Proof. induction xs as [|x xs IH]; cbn; [reflexivity|]. rewrite IH. reflexivity. Qed.

Lemma slice_requests_spec : forall (xs done rest : list X),
  requests xs (SliceState (done ++ rest) (Some (length done))) =
  (map Ok (seq (length done) (length (firstn (length rest) xs))) ++
     map (fun _ => Err AllocExhausted) (skipn (length rest) xs),
   SliceState (done ++ firstn (length rest) xs ++ skipn (length xs) rest)
     (match skipn (length rest) xs with [] => Some (length done + length xs) | _ => None end)).
Proof.
  induction xs as [|x xs IH]; intros done rest.
  - rewrite firstn_nil, skipn_nil. cbn. rewrite Nat.add_0_r. reflexivity.
  - destruct rest as [|y rest]; cbn [requests].
    + unfold slice_new_datum. cbn [sl_free sl_mem]. rewrite app_nil_r, skipn_all. rewrite slice_none.
      cbn. rewrite app_nil_r. reflexivity.
    + rewrite slice_new_ok, IH. cbn [length firstn skipn seq map app].
      rewrite !app_length. cbn [length]. rewrite !Nat.add_1_r, <- !app_assoc. cbn [app].
      rewrite Nat.add_succ_r. reflexivity.
Qed.

Lemma requests_new (xs slots : list X) : requests xs (slice_new slots) =
  (map Ok (seq 0 (min (length xs) (length slots))) ++ repeat (Err AllocExhausted) (length xs - length slots),
   SliceState (firstn (length slots) xs ++ skipn (length xs) slots)
     (if (length xs <=? length slots) && negb (length slots =? 0) then Some (length xs) else None)).
Proof.
  assert (R : forall l : list X, map (fun _ : X => @Err alloc_error nat AllocExhausted) l = repeat (Err AllocExhausted) (length l)).
  { induction l; cbn; congruence. }
  destruct slots as [|y slots].
  - unfold slice_new. rewrite slice_none. rewrite R. cbn. rewrite Nat.min_0_r, Nat.sub_0_r, skipn_nil, andb_false_r. reflexivity.
  - unfold slice_new. pose proof (slice_requests_spec xs [] (y :: slots)) as H. cbn [app length Nat.add] in H. rewrite H.
    rewrite R, firstn_length, skipn_length. cbn [length Nat.eqb negb]. rewrite andb_true_r. rewrite (Nat.min_comm (S (length slots))).
    f_equal. f_equal. destruct (length xs <=? S (length slots)) eqn:E.
    + apply Nat.leb_le in E. rewrite skipn_all2; [reflexivity|cbn; lia].
    + apply Nat.leb_gt in E. destruct (skipn (S (length slots)) xs) eqn:K; [|reflexivity].
      apply (f_equal (@length X)) in K. rewrite skipn_length in K. cbn in K. lia.
Qed.

Lemma room_new slots : room (@slice_new X slots) = length slots.
Proof. destruct slots; reflexivity. Qed.
(** Each success takes one slot; failing leaves none. *)
Lemma room_ok x (s : slice_state X) i s' : slice_new_datum x s = (Ok i, s') -> room s = S (room s').
Proof.
  unfold slice_new_datum, room, slice_unused. destruct (sl_free s) as [j|]; [|discriminate].
  destruct (skipn j (sl_mem s)) as [|y r] eqn:K; [discriminate|]. intros [= <- <-]. cbn [sl_free sl_mem option_map].
  assert (L : j < length (sl_mem s)).
  { apply (f_equal (@length X)) in K. rewrite skipn_length in K. cbn in K. lia. }
  rewrite !skipn_length. unfold set_slot. rewrite K, app_length, firstn_length. cbn [length].
  apply (f_equal (@length X)) in K. rewrite skipn_length in K. cbn in K. lia.
Qed.
Lemma room_err x (s : slice_state X) e s' : slice_new_datum x s = (Err e, s') -> room s = 0 /\ sl_free s' = None.
Proof.
  unfold slice_new_datum, room, slice_unused. destruct (sl_free s) as [j|]; cbn.
  - destruct (skipn j (sl_mem s)) as [|y r] eqn:K; [|discriminate]. intros [= <- <-]. auto.
  - intros [= <- <-]. auto.
Qed.
Lemma room_none (s : slice_state X) : sl_free s = None -> room s = 0.
Proof. unfold room, slice_unused. intros ->. reflexivity. Qed.
Lemma slice_new_total x (s : slice_state X) : (exists i s', slice_new_datum x s = (Ok i, s')) \/
  (exists e s', slice_new_datum x s = (Err e, s')).
Proof. unfold slice_new_datum. destruct (sl_free s) as [j|]; [destruct (skipn j (sl_mem s))|]; eauto. Qed.
End Slice.
