(** What a thread that parses does to the memory and relies on, while others use it. *)
From Coq Require Import List Arith NArith Bool Lia Permutation.
From Verif.Model Require Import Prelude Parser Drop DropRc DropArc RcParser ArcParser.
From Verif.Spec Require Import Drops Threads RcParser ArcParser.
From Verif.Proofs Require Import HeapFacts HeapLink ThreadFacts.
Import ListNotations.
Set Implicit Arguments.

Section Task.
Context {T ET Pos CE : Type}.
Local Notation X := (leaf_value T ET).
Local Notation heap1 := (rc_mem T ET).
Local Notation datum1 := (rc_datum T ET).
Local Notation E := (error Pos (option CE)).
Local Notation event := (event T ET Pos CE).
Local Notation task := (task T ET Pos CE).
Local Notation Cell := (@Cell X).
Context (find : heap1 -> datum1 -> option arc_kind).
Implicit Types (h : heap1) (R L : list nat) (es : list event).

(** With the references [R] and memory [h], the thread can do [t], whatever others do to
    the memory at any time that keeps what [R] reaches; then [Q]. *)
Fixpoint ok {A} (t : task A) (Q : A -> list event -> list nat -> heap1 -> Prop) es R h : Prop :=
  forall h' L, guar R h h' -> consistent h' (R ++ L) ->
  match t with
  | Ended a => Q a es R h'
  | MakeRef n k => exists R', Permutation R (kids n ++ R') /\
      ok (k (length (cells h'))) Q es (length (cells h') :: R') (grow h' (Cell 1 0 (Some n)))
  | ReadCell x k => exists c, cell_at h' x = Some c /\ ok (k c) Q es R h'
  | WriteAt x n k => exists R', Permutation R (kids n ++ R') /\ exclusive h' R' x /\ cell_at h' x = Some (Cell 1 0 (Some (NLeaf None))) /\
      ok k Q es R' (upd h' x (Some (Cell 1 0 (Some n))))
  | DropRef x k => exists R', Permutation R (x :: R') /\ ok k Q es R' h'
  | FindComb n k => incl (kids n) R /\ ok (k (find h' n)) Q es R h'
  | CallComb n a k => exists R', Permutation R (kids n ++ a_refs a ++ R') /\
      forall r h2 L2, guar R' h' h2 -> consistent h2 ((r_refs r ++ R') ++ L2) -> ok (k r) Q (es ++ [Event h' n a h2 r]) (r_refs r ++ R') h2
  end.

Lemma guar_perm R R' h h' : Permutation R R' -> guar R h h' -> guar R' h h'.
Proof. intros P. apply guar_incl. intros x. apply Permutation_in. symmetry. exact P. Qed.

Lemma ok_rely A (t : task A) Q es R h h' : guar R h h' -> ok t Q es R h -> ok t Q es R h'.
Proof. intros G H. destruct t; intros h2 L G2 C; exact (H h2 L (guar_trans G G2) C). Qed.
Lemma ok_later A (t : task A) Q es R h : (forall h' L, guar R h h' -> consistent h' (R ++ L) -> ok t Q es R h') -> ok t Q es R h.
Proof. intros H. destruct t; intros h' L G C; exact (H h' L G C h' L (guar_refl _ _) C). Qed.

Lemma ok_mono A (t : task A) (Q Q' : A -> list event -> list nat -> heap1 -> Prop) : (forall a es R h L, consistent h (R ++ L) -> Q a es R h -> Q' a es R h) ->
  forall es R h, ok t Q es R h -> ok t Q' es R h.
Proof.
  intros HQ. induction t as [a|n k IH|x k IH|x n k IH|x k IH|n k IH|n a k IH]; intros es R h H h' L G C; specialize (H h' L G C); cbn [ok] in *.
  - eauto.
  - destruct H as (R' & P & H). eauto.
  - destruct H as (c & Ec & H). eauto.
  - destruct H as (R' & P & HX & Ec & H). eauto 8.
  - destruct H as (R' & P & H). eauto.
  - destruct H as (I & H). eauto.
  - destruct H as (R' & P & H). exists R'. split; [exact P|]. intros r h2 L2 G2 C2. apply IH. eapply H; eassumption.
Qed.
Lemma ok_bind A B (t : task A) (k : A -> task B) (Q : A -> list event -> list nat -> heap1 -> Prop) Q' :
  (forall a es R h, ok (Ended a) Q es R h -> ok (k a) Q' es R h) -> forall es R h, ok t Q es R h -> ok (t_bind t k) Q' es R h.
Proof.
  intros HQ. induction t as [a|n c IH|x c IH|x n c IH|x c IH|n c IH|n a c IH]; intros es R h H.
  - apply HQ. exact H.
  - intros h' L G C. specialize (H h' L G C). cbn [ok t_bind] in *. destruct H as (R' & P & H). eauto.
  - intros h' L G C. specialize (H h' L G C). cbn [ok t_bind] in *. destruct H as (c0 & Ec & H). eauto.
  - intros h' L G C. specialize (H h' L G C). cbn [ok t_bind] in *. destruct H as (R' & P & HX & Ec & H). eauto 8.
  - intros h' L G C. specialize (H h' L G C). cbn [ok t_bind] in *. destruct H as (R' & P & H). eauto.
  - intros h' L G C. specialize (H h' L G C). cbn [ok t_bind] in *. destruct H as (I & H). eauto.
  - intros h' L G C. specialize (H h' L G C). cbn [ok t_bind] in *. destruct H as (R' & P & H). exists R'. split; [exact P|]. intros r h2 L2 G2 C2. apply IH. eapply H; eassumption.
Qed.

Lemma ok_drop_refs A (t : task A) Q es l : forall R R' h, Permutation R (l ++ R') -> (forall R1, Permutation R1 R' -> ok t Q es R1 h) -> ok (drop_refs l t) Q es R h.
Proof.
  induction l as [|x l IH]; intros R R' h P H; [apply H; exact P|]. intros h' L G C. exists (l ++ R'). split; [exact P|].
  apply IH with (R' := R'); [reflexivity|]. intros R1 P1. eapply ok_rely; [|apply H; exact P1].
  eapply guar_incl; [|exact G]. intros y Hy. eapply Permutation_in; [symmetry; exact P|]. right. apply in_or_app. right. eapply Permutation_in; eassumption.
Qed.
End Task.
