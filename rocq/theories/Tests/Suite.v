(** The repository's own test suite (shared_tests/src/suites.rs 159-444) run on the
    model, as a sanity check that the model behaves like the code.  These are tests,
    not proofs.  Strings are lists of code points; every input goes through the four
    kinds of source streams. *)
From Coq Require Import List NArith Bool.
From Verif.Model Require Import Prelude Parser DefaultClassifier.
From Verif.Tests Require Import Harness.
Import ListNotations.
Open Scope N_scope.

(** Basics, lines 161-256. *)
Definition suite_p : list (list char * list sitem) := [
  ([],
   []);
  ([32],
   [inl (DText [32])]);
  ([32; 32],
   [inl (DText [32; 32])]);
  ([97],
   [inl (DText [97])]);
  ([97; 32],
   [inl (DText [97; 32])]);
  ([32; 97],
   [inl (DText [32; 97])]);
  ([32; 97; 32],
   [inl (DText [32; 97; 32])]);
  ([120; 121; 122],
   [inl (DText [120; 121; 122])]);
  ([97; 32; 98],
   [inl (DText [97; 32; 98])]);
  ([97; 32; 32; 98],
   [inl (DText [97; 32; 32; 98])]);
  ([97; 32; 98; 32; 99],
   [inl (DText [97; 32; 98; 32; 99])]);
  ([32; 32; 32; 97; 32; 32; 98; 32; 99; 32; 32; 32; 32],
   [inl (DText [32; 32; 32; 97; 32; 32; 98; 32; 99; 32; 32; 32; 32])]);
  ([123; 98; 125],
   [inl (DComb (DText [98]) DEmptyList)]);
  ([123; 98; 32; 125],
   [inl (DComb (DText [98]) DEmptyList)]);
  ([123; 98; 111; 98; 125],
   [inl (DComb (DText [98; 111; 98]) DEmptyList)]);
  ([123; 98; 32; 111; 32; 98; 125],
   [inl (DComb (DText [98]) (DList (DText [111; 32; 98]) DEmptyList))]);
  ([123; 32; 98; 111; 32; 98; 32; 125],
   [inl (DComb (DText [98; 111]) (DList (DText [98; 32]) DEmptyList))]);
  ([32; 99; 32; 32; 100; 32; 32; 32; 123; 32; 101; 32; 32; 102; 32; 32; 32; 103; 32; 32; 32; 32; 125; 32; 32; 32; 32; 32; 104; 105; 32; 32; 106; 32],
   [inl (DText [32; 99; 32; 32; 100; 32; 32; 32]); inl (DComb (DText [101]) (DList (DText [32; 102; 32; 32; 32; 103; 32; 32; 32; 32]) DEmptyList)); inl (DText [32; 32; 32; 32; 32; 104; 105; 32; 32; 106; 32])]);
  ([123; 125],
   [inl DEmptyNest]);
  ([123; 125; 123; 125],
   [inl DEmptyNest; inl DEmptyNest]);
  ([123; 123; 125; 125],
   [inl (DComb DEmptyNest DEmptyList)]);
  ([123; 123; 125; 123; 125; 125],
   [inl (DComb DEmptyNest (DList DEmptyNest DEmptyList))]);
  ([123; 123; 123; 125; 125; 125],
   [inl (DComb (DComb DEmptyNest DEmptyList) DEmptyList)]);
  ([32; 123; 32; 125; 32],
   [inl (DText [32]); inl DEmptyNest; inl (DText [32])]);
  ([32; 32; 123; 32; 123; 32; 32; 125; 32; 32; 32; 125; 32],
   [inl (DText [32; 32]); inl (DComb DEmptyNest (DList (DText [32; 32]) DEmptyList)); inl (DText [32])]);
  ([32; 32; 32; 123; 32; 32; 32; 32; 123; 32; 32; 32; 123; 32; 32; 125; 32; 125; 32; 32; 125; 32; 32],
   [inl (DText [32; 32; 32]); inl (DComb (DComb DEmptyNest DEmptyList) (DList (DText [32]) DEmptyList)); inl (DText [32; 32])]);
  ([92; 92],
   [inl (DText [92])]);
  ([92; 123],
   [inl (DText [123])]);
  ([92; 125],
   [inl (DText [125])]);
  ([92; 123; 92; 125],
   [inl (DText [123; 125])]);
  ([92; 97],
   [inl (DText [97])]);
  ([92; 97; 92; 98],
   [inl (DText [97; 98])]);
  ([92],
   [inl (DText [])]);
  ([97; 92],
   [inl (DText [97])]);
  ([97; 92; 98; 92],
   [inl (DText [97; 98])]);
  ([123; 98; 92; 32; 111; 32; 98; 125],
   [inl (DComb (DText [98; 32; 111]) (DList (DText [98]) DEmptyList))]);
  ([123; 92; 32; 98; 111; 32; 98; 32; 125],
   [inl (DComb (DText [32; 98; 111]) (DList (DText [98; 32]) DEmptyList))]);
  ([123; 92; 32; 98; 111; 92; 32; 98; 32; 125],
   [inl (DComb (DText [32; 98; 111; 32; 98]) DEmptyList)]);
  ([123; 92; 32; 98; 111; 92; 32; 98; 32; 32; 125],
   [inl (DComb (DText [32; 98; 111; 32; 98]) (DList (DText [32]) DEmptyList))]);
  ([123; 92; 32; 125],
   [inl (DComb (DText [32]) DEmptyList)]);
  ([123; 92; 32; 32; 125],
   [inl (DComb (DText [32]) DEmptyList)]);
  ([123; 92; 32; 32; 32; 125],
   [inl (DComb (DText [32]) (DList (DText [32]) DEmptyList))]);
  ([123; 92; 32; 92; 32; 125],
   [inl (DComb (DText [32; 32]) DEmptyList)]);
  ([123; 121; 122; 92; 32; 125],
   [inl (DComb (DText [121; 122; 32]) DEmptyList)]);
  ([123; 121; 122; 92; 32; 92; 32; 125],
   [inl (DComb (DText [121; 122; 32; 32]) DEmptyList)]);
  ([123; 121; 122; 92; 32; 92; 32; 32; 92; 32; 125],
   [inl (DComb (DText [121; 122; 32; 32]) (DList (DText [32]) DEmptyList))]);
  ([123; 121; 92; 92; 122; 125],
   [inl (DComb (DText [121; 92; 122]) DEmptyList)]);
  ([123; 121; 122; 92; 125; 125],
   [inl (DComb (DText [121; 122; 125]) DEmptyList)]);
  ([123; 121; 122; 92; 123; 125],
   [inl (DComb (DText [121; 122; 123]) DEmptyList)]);
  ([123; 121; 92; 123; 122; 125],
   [inl (DComb (DText [121; 123; 122]) DEmptyList)]);
  ([123; 92; 123; 32; 121; 122; 125],
   [inl (DComb (DText [123]) (DList (DText [121; 122]) DEmptyList))]);
  ([123; 92; 10; 125],
   [inl (DComb (DText [10]) DEmptyList)]);
  ([123; 92; 9; 125],
   [inl (DComb (DText [9]) DEmptyList)]);
  ([123; 92; 9; 92; 10; 125],
   [inl (DComb (DText [9; 10]) DEmptyList)]);
  ([123],
   [inr MissingEndChar]);
  ([125],
   [inr (UnbalancedEndChar tt)]);
  ([9243; 123],
   [inl (DText [9243]); inr MissingEndChar]);
  ([9243; 125],
   [inr (UnbalancedEndChar tt)]);
  ([97; 32; 98; 123; 10; 123; 99; 100; 125; 32; 32; 123; 32; 125; 32; 32; 32; 123; 32; 123; 101; 13; 101; 32; 32; 123; 9; 102; 125; 125; 9; 32; 32; 32; 103; 32; 32; 125; 9; 32; 104; 105; 32; 10; 32; 106; 32; 9; 9; 125; 107; 10; 955; 123; 32; 109; 123; 123; 125; 13; 13; 125; 111; 125; 10],
   [inl (DText [97; 32; 98]); inl (DComb (DComb (DText [99; 100]) DEmptyList) (DList (DText [32]) (DList DEmptyNest (DList (DText [32; 32; 32]) (DList (DComb (DComb (DText [101]) (DList (DText [101; 32; 32]) (DList (DComb (DText [102]) DEmptyList) DEmptyList))) (DList (DText [32; 32; 32; 103; 32; 32]) DEmptyList)) (DList (DText [9; 32; 104; 105; 32; 10; 32; 106; 32; 9; 9]) DEmptyList)))))); inl (DText [107; 10; 955]); inl (DComb (DText [109]) (DList (DComb DEmptyNest (DList (DText [13]) DEmptyList)) (DList (DText [111]) DEmptyList))); inl (DText [10])])].
Example suite_p_ok : forallb (check default_classifier false) suite_p = true.
Proof. vm_compute. reflexivity. Qed.

(** Custom delimiters, lines 262-298. *)
Definition suite_c1 : list (list char * list sitem) := [
  ([],
   []);
  ([123; 125],
   [inl (DText [123; 125])]);
  ([123; 97; 125],
   [inl (DText [123; 97; 125])]);
  ([10218; 10219],
   [inl DEmptyNest]);
  ([10218; 32; 10219],
   [inl (DComb (DText [32]) DEmptyList)]);
  ([10218; 97; 10219],
   [inl (DComb (DText [97]) DEmptyList)]);
  ([10218; 32; 97; 32; 10219],
   [inl (DComb (DText [32; 97; 32]) DEmptyList)]);
  ([10218; 97; 10219],
   [inl (DComb (DText [97]) DEmptyList)]);
  ([10218; 45; 97; 10219],
   [inl (DComb (DText [97]) DEmptyList)]);
  ([10218; 45; 45; 97; 10219],
   [inl (DComb (DText [97]) DEmptyList)]);
  ([10218; 97; 45; 10219],
   [inl (DComb (DText [97]) DEmptyList)]);
  ([10218; 97; 45; 45; 10219],
   [inl (DComb (DText [97]) (DList (DText [45]) DEmptyList))]);
  ([10218; 45; 97; 45; 10219],
   [inl (DComb (DText [97]) DEmptyList)]);
  ([10218; 97; 45; 98; 10219],
   [inl (DComb (DText [97]) (DList (DText [98]) DEmptyList))]);
  ([10218; 45; 45; 97; 45; 45; 45; 98; 45; 45; 10219],
   [inl (DComb (DText [97]) (DList (DText [45; 45; 98; 45; 45]) DEmptyList))]);
  ([97; 45; 10218; 98; 45; 99; 10219; 100; 45],
   [inl (DText [97; 45]); inl (DComb (DText [98]) (DList (DText [99]) DEmptyList)); inl (DText [100; 45])]);
  ([9243; 9243],
   [inl (DText [9243])]);
  ([9243; 10218],
   [inl (DText [10218])]);
  ([9243; 10219],
   [inl (DText [10219])]);
  ([9243; 10218; 9243; 10219],
   [inl (DText [10218; 10219])]);
  ([92; 92],
   [inl (DText [92; 92])]);
  ([92; 10218; 92; 10219],
   [inl (DText [92]); inl (DComb (DText [92]) DEmptyList)]);
  ([92; 10218],
   [inl (DText [92]); inr MissingEndChar]);
  ([92; 10219],
   [inr (UnbalancedEndChar tt)])].
Example suite_c1_ok : forallb (check delims1 false) suite_c1 = true.
Proof. vm_compute. reflexivity. Qed.

(** More custom delimiters, lines 300-316. *)
Definition suite_c2 : list (list char * list sitem) := [
  ([10218; 10219],
   [inl DEmptyNest]);
  ([10214; 10215],
   [inl DEmptyNest]);
  ([10218; 10215],
   [inl DEmptyNest]);
  ([10214; 46; 58; 46; 46; 58; 58; 10219],
   [inl DEmptyNest]);
  ([9243; 8416],
   [inl (DText [8416])]);
  ([8416; 9243],
   [inl (DText [9243])]);
  ([8416; 10218; 9243; 10219],
   [inl (DText [10218; 10219])]);
  ([92; 10214],
   [inl (DText [92]); inr MissingEndChar]);
  ([92; 10215],
   [inr (UnbalancedEndChar tt)])].
Example suite_c2_ok : forallb (check delims2 false) suite_c2 = true.
Proof. vm_compute. reflexivity. Qed.

(** Combiners, lines 318-443. *)
Definition suite_c3 : list (list char * list sitem) := [
  ([123; 111; 111; 125],
   [inl (DText [])]);
  ([123; 111; 111; 32; 125],
   [inl (DText [])]);
  ([123; 111; 111; 32; 32; 125],
   [inl (DText [32])]);
  ([123; 111; 111; 123; 125; 125],
   [inl (DText [123; 125])]);
  ([123; 111; 111; 32; 122; 97; 98; 32; 123; 122; 122; 125; 32; 121; 111; 125],
   [inl (DText [122; 97; 98; 32; 123; 122; 122; 125; 32; 121; 111])]);
  ([123; 10; 32; 111; 111; 32; 32; 123; 10; 32; 122; 97; 98; 32; 123; 123; 125; 32; 121; 111; 125; 125; 125],
   [inl (DText [32; 123; 10; 32; 122; 97; 98; 32; 123; 123; 125; 32; 121; 111; 125; 125])]);
  ([123; 117; 32; 123; 111; 111; 32; 122; 97; 98; 32; 123; 122; 122; 125; 32; 121; 111; 125; 125],
   [inl (DComb (DText [117]) (DList (DText [122; 97; 98; 32; 123; 122; 122; 125; 32; 121; 111]) DEmptyList))]);
  ([123; 123; 111; 111; 125; 125],
   [inl (DComb (DText []) DEmptyList)]);
  ([123; 123; 111; 111; 32; 122; 122; 125; 32; 121; 121; 125],
   [inl (DComb (DText [122; 122]) (DList (DText [121; 121]) DEmptyList))]);
  ([123; 123; 111; 111; 32; 111; 111; 125; 32; 121; 121; 125],
   [inl (DText [121; 121])]);
  ([123; 123; 123; 111; 111; 32; 111; 111; 125; 32; 111; 111; 125; 32; 121; 121; 125],
   [inl (DText [121; 121])]);
  ([123; 111; 111; 32; 123; 125],
   [inr MissingEndChar]);
  ([123; 111; 111; 32; 123],
   [inr MissingEndChar]);
  ([123; 111; 111; 125; 125],
   [inl (DText []); inr (UnbalancedEndChar tt)]);
  ([123; 97; 97; 125],
   [inl DEmptyList]);
  ([123; 97; 97; 32; 125],
   [inl DEmptyList]);
  ([123; 97; 97; 32; 32; 125],
   [inl (DList (DText [32]) DEmptyList)]);
  ([123; 97; 97; 123; 125; 125],
   [inl (DList DEmptyNest DEmptyList)]);
  ([123; 97; 97; 32; 122; 97; 98; 32; 123; 122; 122; 125; 32; 121; 111; 125],
   [inl (DList (DText [122; 97; 98; 32]) (DList (DComb (DText [122; 122]) DEmptyList) (DList (DText [32; 121; 111]) DEmptyList)))]);
  ([123; 10; 32; 97; 97; 32; 32; 123; 10; 32; 122; 97; 98; 32; 123; 123; 125; 32; 121; 111; 125; 125; 125],
   [inl (DList (DText [32]) (DList (DComb (DText [122; 97; 98]) (DList (DComb DEmptyNest (DList (DText [121; 111]) DEmptyList)) DEmptyList)) DEmptyList))]);
  ([123; 117; 32; 123; 97; 97; 32; 122; 97; 98; 32; 123; 122; 122; 125; 32; 121; 111; 125; 125],
   [inl (DComb (DText [117]) (DList (DList (DText [122; 97; 98; 32]) (DList (DComb (DText [122; 122]) DEmptyList) (DList (DText [32; 121; 111]) DEmptyList))) DEmptyList))]);
  ([123; 123; 97; 97; 125; 125],
   [inl (DComb DEmptyList DEmptyList)]);
  ([123; 123; 97; 97; 32; 122; 122; 125; 32; 121; 121; 125],
   [inl (DComb (DList (DText [122; 122]) DEmptyList) (DList (DText [121; 121]) DEmptyList))]);
  ([123; 123; 97; 97; 32; 111; 111; 125; 32; 121; 121; 125],
   [inl (DComb (DList (DText [111; 111]) DEmptyList) (DList (DText [121; 121]) DEmptyList))]);
  ([123; 123; 111; 111; 32; 97; 97; 125; 32; 121; 121; 125],
   [inl (DList (DText [121; 121]) DEmptyList)]);
  ([123; 123; 123; 97; 97; 32; 97; 97; 125; 32; 97; 97; 125; 32; 121; 121; 125],
   [inl (DComb (DComb (DList (DText [97; 97]) DEmptyList) (DList (DText [97; 97]) DEmptyList)) (DList (DText [121; 121]) DEmptyList))]);
  ([123; 123; 123; 111; 111; 32; 97; 97; 125; 32; 111; 111; 125; 32; 121; 121; 125],
   [inl (DComb (DList (DText [111; 111]) DEmptyList) (DList (DText [121; 121]) DEmptyList))]);
  ([123; 97; 97; 32; 123; 125],
   [inr MissingEndChar]);
  ([123; 97; 97; 32; 123],
   [inr MissingEndChar]);
  ([123; 97; 97; 125; 125],
   [inl DEmptyList; inr (UnbalancedEndChar tt)]);
  ([123; 35; 125],
   []);
  ([123; 35; 32; 102; 111; 111; 125],
   []);
  ([123; 35; 32; 123; 111; 111; 32; 122; 97; 98; 32; 123; 122; 122; 125; 32; 121; 111; 125; 125],
   []);
  ([123; 35; 32; 123; 97; 97; 32; 122; 97; 98; 32; 123; 122; 122; 125; 32; 121; 111; 125; 125],
   []);
  ([123; 35; 32; 123; 117; 32; 111; 111; 102; 125; 125],
   []);
  ([123; 111; 111; 32; 123; 35; 125; 125],
   [inl (DText [123; 35; 125])]);
  ([123; 111; 111; 32; 123; 35; 32; 123; 111; 111; 32; 122; 97; 98; 125; 125; 125],
   [inl (DText [123; 35; 32; 123; 111; 111; 32; 122; 97; 98; 125; 125])]);
  ([123; 97; 97; 32; 123; 35; 125; 125],
   [inl DEmptyList]);
  ([123; 97; 97; 32; 123; 35; 32; 123; 97; 97; 32; 98; 97; 114; 125; 125; 125],
   [inl DEmptyList]);
  ([123; 97; 97; 32; 123; 35; 125; 123; 35; 35; 125; 123; 35; 125; 125],
   [inl (DList (DComb (DText [35; 35]) DEmptyList) DEmptyList)]);
  ([123; 117; 32; 123; 35; 125; 125],
   [inl (DComb (DText [117]) DEmptyList)]);
  ([123; 117; 32; 122; 32; 123; 35; 125; 32; 121; 125],
   [inl (DComb (DText [117]) (DList (DText [122; 32]) (DList (DText [32; 121]) DEmptyList)))]);
  ([123; 123; 35; 125; 125],
   [inl DEmptyNest]);
  ([123; 123; 35; 32; 97; 97; 125; 111; 111; 32; 120; 121; 122; 125],
   [inl (DText [120; 121; 122])]);
  ([123; 123; 35; 32; 111; 111; 125; 97; 97; 32; 120; 121; 122; 125],
   [inl (DList (DText [120; 121; 122]) DEmptyList)]);
  ([123; 123; 35; 32; 123; 111; 111; 32; 123; 35; 125; 125; 125; 32; 117; 125],
   [inl (DComb (DText [117]) DEmptyList)]);
  ([123; 32; 123; 35; 125; 32; 32; 117; 125],
   [inl (DComb (DText [117]) DEmptyList)]);
  ([123; 32; 32; 123; 35; 125; 32; 32; 123; 35; 125; 32; 32; 117; 125],
   [inl (DComb (DText [117]) DEmptyList)]);
  ([123; 32; 32; 123; 35; 125; 32; 32; 123; 35; 125; 32; 32; 117; 123; 35; 32; 117; 125; 120; 123; 35; 125; 10; 123; 35; 32; 121; 125; 123; 35; 125; 123; 35; 32; 122; 125; 122; 125],
   [inl (DComb (DText [117]) (DList (DText [120]) (DList (DText [10]) (DList (DText [122]) DEmptyList))))]);
  ([120; 123; 35; 125; 88],
   [inl (DText [120]); inl (DText [88])]);
  ([32; 123; 35; 32; 111; 111; 125; 32; 32; 120; 32; 123; 35; 32; 97; 97; 125; 32; 88; 32; 32; 123; 35; 125],
   [inl (DText [32]); inl (DText [32; 32; 120; 32]); inl (DText [32; 88; 32; 32])]);
  ([123; 99; 99; 125],
   [inl (DComb DEmptyNest DEmptyList)]);
  ([123; 99; 99; 125; 32; 123; 99; 99; 125],
   [inl (DComb DEmptyNest DEmptyList); inl (DText [32]); inl (DComb DEmptyNest DEmptyList)]);
  ([123; 111; 111; 32; 123; 99; 99; 32; 97; 32; 98; 125; 125],
   [inl (DText [123; 99; 99; 32; 97; 32; 98; 125])]);
  ([123; 97; 97; 32; 123; 99; 99; 32; 49; 32; 50; 125; 123; 99; 99; 32; 51; 32; 52; 32; 53; 125; 125],
   [inl (DList (DComb DEmptyNest DEmptyList) (DList (DComb DEmptyNest DEmptyList) DEmptyList))]);
  ([123; 102; 102; 125],
   [inr (FailedAlloc AllocExhausted)]);
  ([123; 102; 102; 125; 32; 122; 97; 98],
   [inr (FailedAlloc AllocExhausted); inl (DText [32; 122; 97; 98])]);
  ([123; 111; 111; 32; 123; 102; 102; 125; 125],
   [inl (DText [123; 102; 102; 125])]);
  ([123; 97; 97; 32; 120; 123; 102; 102; 125; 121; 125],
   [inr (FailedAlloc AllocExhausted); inr (UnbalancedEndChar tt)])].
Example suite_c3_ok : forallb (check default_classifier true) suite_c3 = true.
Proof. vm_compute. reflexivity. Qed.

