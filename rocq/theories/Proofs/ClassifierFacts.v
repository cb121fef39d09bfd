(** The default classifier. *)
From Coq Require Import List NArith Bool Lia ZifyBool ZifyN.
From Verif.Model Require Import Prelude Parser DefaultClassifier.
From Verif.Spec Require Import Grammar Render.
Import ListNotations.
Local Open Scope N_scope.

Lemma default_disjoint : disjoint_classes default_classifier.
Proof.
  split; intros c; cbn [default_classifier is_nest_start is_nest_end is_nest_escape is_whitespace]; intros H; apply N.eqb_eq in H; subst; auto.
Qed.

(** The characters with the Unicode property White_Space. *)
Definition white_space : list char :=
  [0x09; 0x0A; 0x0B; 0x0C; 0x0D; 0x20; 0x85; 0xA0; 0x1680;
   0x2000; 0x2001; 0x2002; 0x2003; 0x2004; 0x2005; 0x2006; 0x2007; 0x2008; 0x2009; 0x200A;
   0x2028; 0x2029; 0x202F; 0x205F; 0x3000].

Lemma unicode_whitespace_iff c : unicode_whitespace c = true <-> In c white_space.
Proof. unfold unicode_whitespace, white_space, In. lia. Qed.

(** One character of each class of the default classifier. *)
Definition default_delimiters : delimiters := Delimiters 0x7B 0x7D 0x5C 0x20.
Lemma default_delimiters_of : delimiters_of default_classifier default_delimiters.
Proof. split; reflexivity. Qed.
