(** The drop algorithm with its operations counted. *)
From Coq Require Import List Arith Lia Bool.
From Verif.Model Require Import Prelude Drop DropShared DropRc DropCost.
Import ListNotations.
Set Implicit Arguments.

Local Ltac straight := cbn [m_bind m_ret m_panic m_nofuel direct].

(** ** The counter changes nothing else *)
Section Erase.
Context {H : Type}.

(** [m'] does what [m] does, and what it adds to the counter is in [B]. *)
Definition erases (B : nat -> Prop) {A} (m' : D (H * nat) A) (m : D H A) : Prop := forall h n,
  match m h with
  | Ok (a, h') => exists k, m' (h, n) = Ok (a, (h', n + k)) /\ B k
  | Err e => m' (h, n) = Err e
  | Panic => m' (h, n) = Panic
  | OutOfFuel => m' (h, n) = OutOfFuel
  end.
Definition any (_ : nat) : Prop := True.

Lemma erases_ret A (a : A) (B : nat -> Prop) : B 0 -> erases B (d_ret a) (d_ret a).
Proof. intros HB h n. exists 0. unfold d_ret. rewrite Nat.add_0_r. auto. Qed.
Lemma erases_panic A B : erases B (d_panic (X := A)) d_panic.
Proof. intros h n. reflexivity. Qed.
Lemma erases_nofuel A B : erases B (d_nofuel (X := A)) d_nofuel.
Proof. intros h n. reflexivity. Qed.
Lemma erases_bind A C (m' : D (H * nat) A) (m : D H A) (k' : A -> D (H * nat) C) (k : A -> D H C) (B1 B2 B : nat -> Prop) :
  erases B1 m' m -> (forall a, erases B2 (k' a) (k a)) -> (forall i j, B1 i -> B2 j -> B (i + j)) -> erases B (d_bind m' k') (d_bind m k).
Proof.
  intros Hm Hk HB h n. specialize (Hm h n). unfold d_bind. destruct (m h) as [[a h']|e| |]; try (rewrite Hm; reflexivity).
  destruct Hm as (i & -> & Bi). specialize (Hk a h' (n + i)). destruct (k a h') as [[c h'']|e| |]; auto.
  destruct Hk as (j & -> & Bj). exists (i + j). rewrite Nat.add_assoc. auto.
Qed.
Lemma erases_le A (m' : D (H * nat) A) m (B B' : nat -> Prop) : erases B m' m -> (forall k, B k -> B' k) -> erases B' m' m.
Proof. intros Hm HB h n. specialize (Hm h n). destruct (m h) as [[a h']|e| |]; auto. destruct Hm as (k & E & Bk). eauto. Qed.
Lemma erases_then A C (m' : D (H * nat) A) (m : D H A) (k' : A -> D (H * nat) C) (k : A -> D H C) (B1 : nat -> Prop) :
  erases B1 m' m -> (forall a, erases any (k' a) (k a)) -> erases any (d_bind m' k') (d_bind m k).
Proof. intros Hm Hk. eapply erases_bind; [exact Hm|exact Hk|]. intros. exact I. Qed.
Lemma erases_silent A (m : D H A) : erases (fun k => k = 0) (silent m) m.
Proof.
  intros h n. unfold silent. cbn [fst snd]. destruct (m h) as [[a h']|e| |]; auto. exists 0. rewrite Nat.add_0_r. auto.
Qed.
Lemma erases_counted A (m : D H A) : erases (fun k => k = 1) (counted m) m.
Proof.
  intros h n. unfold counted, tick, d_bind, silent. cbn [fst snd]. destruct (m h) as [[a h']|e| |]; auto. exists 1. rewrite Nat.add_1_r. auto.
Qed.

Context {DR X : Type} (ro : ref_ops (direct H) DR X).
Local Notation ro' := (counting ro).
Lemma erases_class r : erases (fun k => k = 1) (class_of ro' r) (class_of ro r).
Proof.
  eapply erases_bind; [apply erases_counted|intros n; apply erases_ret with (B := fun k => k = 0); reflexivity|]. cbn beta. intros; lia.
Qed.
Lemma erases_trytake r : erases (fun k => k = 1) (trytake ro' r) (trytake ro r).
Proof. apply erases_counted. Qed.
Lemma erases_take_left lc rc l r : erases (fun k => k = 1) (take_left ro' lc rc l r) (take_left ro lc rc l r).
Proof.
  eapply erases_bind; [apply erases_trytake| |].
  - intros [[d|] l']; apply erases_ret with (B := fun k => k = 0); reflexivity.
  - cbn beta. intros; lia.
Qed.
Lemma erases_take_right lc rc l r : erases (fun k => k = 1) (take_right ro' lc rc l r) (take_right ro lc rc l r).
Proof.
  eapply erases_bind; [apply erases_trytake| |].
  - intros [[d|] l']; apply erases_ret with (B := fun k => k = 0); reflexivity.
  - cbn beta. intros; lia.
Qed.
Lemma erases_take_either lc rc l r : erases (fun k => 1 <= k <= 2) (take_either ro' lc rc l r) (take_either ro lc rc l r).
Proof.
  eapply erases_bind with (B2 := fun k => k <= 1); [apply erases_trytake| |].
  - intros [[d|] l']; [apply erases_ret; lia|]. eapply erases_le; [apply erases_take_right|]. cbn. intros; lia.
  - cbn. intros; lia.
Qed.
Lemma erases_select lock lc rc l r : erases (fun k => k <= 2) (select ro' lock lc rc l r) (select ro lock lc rc l r).
Proof.
  pose proof (erases_take_left lc rc l r) as TL. pose proof (erases_take_right lc rc l r) as TR. pose proof (erases_take_either lc rc l r) as TE.
  assert (G1 : forall k, k = 1 -> k <= 2) by (intros; lia). assert (G2 : forall k, 1 <= k <= 2 -> k <= 2) by (intros; lia).
  pose proof (erases_le _ TL G1). pose proof (erases_le _ TR G1). pose proof (erases_le _ TE G2).
  unfold select. destruct lock as [[]|], lc, rc; auto; apply erases_ret; lia.
Qed.

Section Loop.
Context (drop' : DR -> D (H * nat) unit) (drop : DR -> D H unit).
Context (HD : forall r, erases any (drop' r) (drop r)).
Local Ltac free := intros; exact I.
Lemma erases_loop : forall fuel lock top, erases any (algo1_loop ro' drop' fuel lock top) (algo1_loop ro drop fuel lock top).
Proof.
  induction fuel as [|fuel IH]; intros lock top; [apply erases_nofuel|]. cbn [algo1_loop]. destruct (branches top) as [[l r]|]; [|apply erases_panic].
  eapply erases_then; [apply erases_class|]. intros lc. eapply erases_then; [apply erases_class|]. intros rc.
  eapply erases_then; [apply erases_select|]. intros [[[[[mode d] reuse] oc] other]|[l' r']].
  - destruct (branches d) as [[sl sr]|], oc.
    + destruct mode; (eapply erases_then; [apply erases_counted|]; intros reuse'; apply IH).
    + eapply erases_then; [apply HD|]. intros _. eapply erases_then; [apply HD|]. intros _. apply IH.
    + apply erases_panic.
    + eapply erases_then; [apply HD|]. intros _. eapply erases_then; [apply HD|]. intros _. apply IH.
  - eapply erases_then; [apply HD|]. intros _. apply HD.
Qed.
Lemma erases_algo1 fuel r : erases any (algo1 ro' drop' fuel r) (algo1 ro drop fuel r).
Proof.
  eapply erases_then; [apply erases_class|]. intros [|]; [|apply erases_ret; exact I].
  eapply erases_then; [apply erases_trytake|]. intros [[d|] r']; [|apply erases_ret; exact I].
  eapply erases_then; [apply erases_loop|]. intros _. apply erases_ret with (B := any). exact I.
Qed.
End Loop.
End Erase.

Section Instances.
Context {X : Type}.
Local Ltac free := intros; exact I.
Local Ltac by_silent := eapply erases_le; [apply erases_silent|free].

Theorem erases_box fuel : forall depth (r : bref X), erases any (box_work fuel depth r) (box_drop fuel depth r).
Proof.
  induction depth as [|depth IH]; intros r; [apply erases_nofuel|].
  eapply erases_then; [apply erases_algo1; exact IH|]. intros [id n].
  eapply erases_then with (B1 := any); [|intros; by_silent].
  destruct n as [a b|a b|[x|]]; [| |by_silent|apply erases_ret; exact I];
    (eapply erases_then; [apply IH|intros; apply IH]).
Qed.
Theorem erases_shared oracle fuel : forall depth (r : sref X), erases any (s_work oracle fuel depth r) (s_drop oracle fuel depth r).
Proof.
  induction depth as [|depth IH]; intros r; [apply erases_nofuel|].
  eapply erases_then; [apply erases_algo1; exact IH|]. intros [id own n].
  eapply erases_then with (B1 := any); [destruct own; [apply erases_ret; exact I|by_silent]|].
  intros [|]; [|by_silent].
  eapply erases_then with (B1 := any); [|intros; by_silent].
  destruct n as [a b|a b|[x|]]; [| |by_silent|apply erases_ret; exact I]; (eapply erases_then; [apply IH|intros; apply IH]).
Qed.
(** What follows [drop], by the compiler. *)
Definition rest_work arc fuel depth (x : nat) : D (heap X * nat) unit :=
  d_bind (silent (read x)) (fun c => match c with
    | Cell (S (S s)) w v => silent (write x (Some (Cell (S s) w v)))
    | Cell 1 w (Some n) =>
        d_bind (silent (write x (Some (Cell 0 w None)))) (fun _ =>
        d_bind (match n with
                | NComb a b | NList a b => d_bind (rc_work arc fuel depth a) (fun _ => rc_work arc fuel depth b)
                | NLeaf (Some v) => silent (drop_value v)
                | NLeaf None => d_ret tt
                end) (fun _ =>
        match w with 0 => silent (write x None) | S _ => d_ret tt end))
    | _ => d_panic
    end).
Definition rest_drop arc fuel depth (x : nat) : D (heap X) unit :=
  d_bind (read x) (fun c => match c with
    | Cell (S (S s)) w v => write x (Some (Cell (S s) w v))
    | Cell 1 w (Some n) =>
        d_bind (write x (Some (Cell 0 w None))) (fun _ =>
        d_bind (match n with
                | NComb a b | NList a b => d_bind (rc_drop arc fuel depth a) (fun _ => rc_drop arc fuel depth b)
                | NLeaf (Some v) => drop_value v
                | NLeaf None => d_ret tt
                end) (fun _ =>
        match w with 0 => write x None | S _ => d_ret tt end))
    | _ => d_panic
    end).
Lemma rc_work_step arc fuel depth r : rc_work (X := X) arc fuel (S depth) r =
  d_bind (algo1 (counting (rc_ops arc)) (rc_work arc fuel depth) fuel r) (rest_work arc fuel depth).
Proof. reflexivity. Qed.
Lemma erases_rest arc fuel depth : (forall r, erases any (rc_work (X := X) arc fuel depth r) (rc_drop arc fuel depth r)) ->
  forall x, erases any (rest_work arc fuel depth x) (rest_drop arc fuel depth x).
Proof.
  intros IH x.
  eapply erases_then; [apply erases_silent|]. intros [[|[|s]] w [n|]]; try apply erases_panic; try by_silent.
  eapply erases_then; [apply erases_silent|]. intros _.
  eapply erases_then with (B1 := any).
  - destruct n as [a b|a b|[v|]]; [| |by_silent|apply erases_ret; exact I];
      (eapply erases_then; [apply IH|intros; apply IH]).
  - intros _. destruct w; [by_silent|apply erases_ret; exact I].
Qed.
Theorem erases_rc arc fuel : forall depth r, erases any (rc_work (X := X) arc fuel depth r) (rc_drop arc fuel depth r).
Proof.
  induction depth as [|depth IH]; intros r; [apply erases_nofuel|].
  eapply erases_then; [apply erases_algo1; exact IH|]. apply erases_rest. exact IH.
Qed.
End Instances.

(** ** What the counter is if the end is reached *)
Section Pays.
Context {H : Type}.
Definition pays {A} (m : D (H * nat) A) h (Q : A -> H -> nat -> Prop) : Prop := forall n,
  match m (h, n) with
  | Ok (a, (h', n')) => exists k, n' = n + k /\ Q a h' k
  | _ => True
  end.
Lemma pays_ret A (a : A) h (Q : A -> H -> nat -> Prop) : Q a h 0 -> pays (d_ret a) h Q.
Proof. intros HQ n. exists 0. rewrite Nat.add_0_r. auto. Qed.
Lemma pays_bind A B (m : D (H * nat) A) (k : A -> D (H * nat) B) h P Q :
  pays m h P -> (forall a h' i, P a h' i -> pays (k a) h' (fun b h'' j => Q b h'' (i + j))) -> pays (d_bind m k) h Q.
Proof.
  intros Hm Hk n. specialize (Hm n). unfold d_bind. destruct (m (h, n)) as [[a [h' n']]|e| |]; auto.
  destruct Hm as (i & -> & HP). specialize (Hk _ _ _ HP (n + i)). destruct (k a (h', n + i)) as [[b [h'' n'']]|e| |]; auto.
  destruct Hk as (j & -> & HQ). exists (i + j). rewrite Nat.add_assoc. auto.
Qed.
Lemma pays_mono A (m : D (H * nat) A) h (P Q : A -> H -> nat -> Prop) : pays m h P -> (forall a h' k, P a h' k -> Q a h' k) -> pays m h Q.
Proof.
  intros Hm HPQ n. specialize (Hm n). destruct (m (h, n)) as [[a [h' n']]|e| |]; auto. destruct Hm as (k & -> & HP). eauto.
Qed.
Lemma pays_erases B A (m' : D (H * nat) A) (m : D H A) h (P : A -> H -> Prop) : erases B m' m ->
  (exists a h', m h = Ok (a, h') /\ P a h') -> pays m' h (fun a h' k => P a h' /\ B k).
Proof.
  intros HE (a & h' & E & HP) n. specialize (HE h n). rewrite E in HE. destruct HE as (k & -> & Bk). eauto.
Qed.
Lemma pays_nofuel A h (Q : A -> H -> nat -> Prop) : pays d_nofuel h Q.
Proof. intros n. exact I. Qed.
Lemma pays_panic A h (Q : A -> H -> nat -> Prop) : pays d_panic h Q.
Proof. intros n. exact I. Qed.
End Pays.
