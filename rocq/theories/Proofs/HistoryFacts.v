(** Every history of calls of [next] keeps the iterator between forms. *)
From Coq Require Import List NArith Arith Lia.
From Verif.Model Require Import Prelude Parser Iter.
From Verif.Spec Require Import Contract History.
From Verif.Proofs Require Import Wp Safety Refine FuelMono.
Import ListNotations.
Set Implicit Arguments.

Section Facts.
Context {S A TT ET Pos CE W : Type}.
Context (umax : N) (cc : classifier) (so : stream_ops S A TT Pos) (co : concat_ops A TT)
        (ao : alloc_ops A TT ET) (bnd : bindings A TT ET Pos CE).
Context (Rs : S -> list (item Pos) -> list (item Pos) -> Prop)
        (Rt : TT -> list (item Pos) -> Prop).
Context (F : Prop) (view : A -> W).
Context (SC : stream_contract F view so Rs Rt) (TC : concat_contract F view co Rt)
        (AC : alloc_contract F view ao).
Local Notation i_next := (iter_next umax cc so co ao bnd).
Local Notation called := (called umax cc so co ao bnd).
Local Notation N_len r := (N.of_nat (length r)).

Lemma next_any_fuel fuel st r o st' : (N_len r <= umax)%N -> idle Rs st r ->
  i_next fuel st = (Ok o, st') -> i_next (3 * length r + 3) st = (Ok o, st').
Proof.
  intros Hu Hi E.
  destruct (iter_next_safe (Rt:=Rt) cc bnd SC TC AC (fuel:=3 * length r + 3) (le_n _) Hu Hi) as (o' & st1 & E' & _).
  rewrite E'. destruct (le_ge_dec fuel (3 * length r + 3)) as [Hle|Hle].
  - rewrite <- E', <- E. apply iter_next_fuel; [exact Hle|rewrite E; discriminate].
  - rewrite <- E, <- E'. symmetry. apply iter_next_fuel; [exact Hle|rewrite E'; discriminate].
Qed.

(** What the next call does, for any amount of fuel. *)
Lemma next_result st r : (N_len r <= umax)%N -> idle Rs st r ->
  exists o st', (forall fuel, 3 * length r + 3 <= fuel -> i_next fuel st = (Ok o, st')) /\
  (forall fuel, fst (i_next fuel st) <> OutOfFuel -> i_next fuel st = (Ok o, st')) /\
  match o with
  | None => idle Rs st' []
  | Some _ => exists r', idle Rs st' r' /\ suffix r' r /\ length r' < length r
  end.
Proof.
  intros Hu Hi.
  destruct (iter_next_safe (Rt:=Rt) cc bnd SC TC AC (fuel:=3 * length r + 3) (le_n _) Hu Hi) as (o & st1 & E' & G).
  assert (Hbig : forall fuel, 3 * length r + 3 <= fuel -> i_next fuel st = (Ok o, st1)).
  { intros fuel Hf. rewrite <- E'. apply iter_next_fuel; [exact Hf|rewrite E'; discriminate]. }
  exists o, st1. split; [exact Hbig|]. split; [|exact G].
  intros fuel Hn. destruct (le_ge_dec fuel (3 * length r + 3)) as [Hle|Hle]; [|auto].
  rewrite <- E'. symmetry. apply iter_next_fuel; auto.
Qed.

Lemma called_idle st rs st' : called st rs st' -> forall r, (N_len r <= umax)%N -> idle Rs st r ->
  exists r', idle Rs st' r' /\ suffix r' r /\ length (some_items rs) + length r' <= length r /\
    (In None rs -> r' = []).
Proof.
  induction 1 as [st|st fuel o st1 rs st2 E _ IH]; intros r Hu Hi.
  - exists r. repeat split; auto; [apply Hi|apply Hi|apply suffix_refl|intros []].
  - destruct (next_result Hu Hi) as (o' & st1' & _ & Hany & G).
    rewrite (Hany fuel) in E by (rewrite E; discriminate). injection E as -> ->.
    destruct o as [x|].
    + destruct G as (r1 & I1 & Hs1 & Hl). destruct (IH r1) as (r' & I' & Hs' & Hl' & Hn); [lia|exact I1|].
      exists r'. repeat split; try apply I'; [eapply suffix_trans; eauto|cbn; lia|].
      intros [|Hin]; [discriminate|auto].
    + destruct (IH []) as (r' & I' & Hs' & Hl' & Hn); [cbn; lia|exact G|].
      destruct Hs' as [u Hu']. symmetry in Hu'. apply app_eq_nil in Hu'. destruct Hu' as [-> ->].
      exists []. repeat split; auto; [apply I'|apply I'|apply suffix_nil|]. cbn in *; lia.
Qed.

Lemma called_after_none st rs st' r a b : called st rs st' -> (N_len r <= umax)%N -> idle Rs st r ->
  rs = a ++ None :: b -> Forall (eq None) b.
Proof.
  intros C. revert r a b. induction C as [st|st fuel o st1 rs st2 E C IH]; intros r a b Hu Hi Ers.
  - destruct a; discriminate.
  - destruct (next_result Hu Hi) as (o' & st1' & _ & Hany & G).
    rewrite (Hany fuel) in E by (rewrite E; discriminate). injection E as -> ->.
    destruct a as [|x a]; cbn in Ers; injection Ers as -> ->.
    + clear -C G SC TC AC. assert (forall st2', idle Rs st2' [] -> forall rs, called st2' rs st2 -> Forall (eq None) rs) as H.
      { intros s2 I2 rs C2. revert I2. induction C2 as [|s2 fuel o s3 rs s4 E C2 IH]; intros I2; [constructor|].
        assert (Hu0 : (N_len (@nil (item Pos)) <= umax)%N) by (cbn; lia).
        destruct (next_result Hu0 I2) as (o' & s3' & _ & Hany & G2).
        rewrite (Hany fuel) in E by (rewrite E; discriminate). injection E as -> ->.
        destruct o as [x|]; [destruct G2 as (r' & _ & _ & Hl); cbn in Hl; lia|].
        constructor; auto. }
      eauto.
    + destruct x as [x|].
      * destruct G as (r1 & I1 & Hs1 & Hl). eapply (IH r1); eauto. lia.
      * eapply (IH []); eauto. cbn; lia.
Qed.

Theorem history_safe st s rs st1 : ps_depth st = 0%N -> Rs (ps_strm st) s [] -> (N_len s <= umax)%N ->
  called st rs st1 ->
  exists r p, Rs (ps_strm st1) r p /\ ps_depth st1 = 0%N /\ (p = [] \/ r = []) /\ suffix r s /\
  length (some_items rs) + length r <= length s /\
  (exists o st2, (forall fuel, 3 * length s + 3 <= fuel -> i_next fuel st1 = (Ok o, st2)) /\
     (forall fuel, fst (i_next fuel st1) = Ok o \/ fst (i_next fuel st1) = OutOfFuel) /\
     match o with
     | None => True
     | Some _ => exists r' p', Rs (ps_strm st2) r' p' /\ suffix r' r /\ length r' < length r
     end).
Proof.
  intros D H Hu C.
  assert (Hi : idle Rs st s) by (split; eauto).
  destruct (called_idle C Hu Hi) as (r & I1 & Hs & Hl & _).
  destruct I1 as (D1 & p & H1 & Hp). exists r, p. repeat (split; [assumption|]).
  assert (Hur : (N_len r <= umax)%N) by lia.
  destruct (@next_result st1 r Hur) as (o & st2 & Hbig & Hany & G); [split; eauto|].
  exists o, st2. split; [intros; apply Hbig; lia|]. split.
  - intros fuel. destruct (fst (i_next fuel st1)) eqn:E; auto; left;
      specialize (Hany fuel); rewrite E in Hany; rewrite <- E, Hany; try discriminate; reflexivity.
  - destruct o as [x|]; [|exact I]. destruct G as (r' & (_ & p' & H' & _) & Hsf & Hl'). eauto.
Qed.
End Facts.
