(* The magic squares of the documentation. *)
From Coq Require Import ZArith List.
From Verif Require Import Base MagicModel MagicSpec MagicProofs3.
Import ListNotations.
Local Open Scope Z_scope.

Lemma three_case : magic 3 = Ok [[8; 1; 6]; [3; 5; 7]; [4; 9; 2]].
Proof. reflexivity. Qed.
Lemma four_case : magic 4 = Ok [[16; 2; 3; 13]; [5; 11; 10; 8]; [9; 7; 6; 12]; [4; 14; 15; 1]].
Proof. reflexivity. Qed.
Lemma six_case : magic 6 = Ok [[35; 1; 6; 26; 19; 24]; [3; 32; 7; 21; 23; 25]; [31; 9; 2; 22; 27; 20]; [8; 28; 33; 17; 10; 15]; [30; 5; 34; 12; 14; 16]; [4; 36; 29; 13; 18; 11]].
Proof. reflexivity. Qed.
Lemma two_case : magic 2 = Err ValueError.
Proof. reflexivity. Qed.
