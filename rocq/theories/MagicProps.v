(* C135: magic squares. *)
From Coq Require Import ZArith List.
From Verif Require Import Base MagicModel MagicSpec MagicProofs3 MagicCases.
Import ListNotations.
Local Open Scope Z_scope.

(* every order above 2 gives a magic square *)

Theorem c135_magic : forall n, 3 <= n -> exists M, magic n = Ok M /\ magic_square (Z.to_nat n) M.
Proof. exact (magic_all). Qed.
Print Assumptions c135_magic.

Theorem c135_too_small : forall n, n < 3 -> magic n = Err ValueError.
Proof. exact (magic_small). Qed.
Print Assumptions c135_too_small.

Example c135_case_3 : magic 3 = Ok [[8; 1; 6]; [3; 5; 7]; [4; 9; 2]].
Proof. exact (three_case). Qed.

Example c135_case_4 : magic 4 = Ok [[16; 2; 3; 13]; [5; 11; 10; 8]; [9; 7; 6; 12]; [4; 14; 15; 1]].
Proof. exact (four_case). Qed.

Example c135_case_6 : magic 6 = Ok [[35; 1; 6; 26; 19; 24]; [3; 32; 7; 21; 23; 25]; [31; 9; 2; 22; 27; 20]; [8; 28; 33; 17; 10; 15]; [30; 5; 34; 12; 14; 16]; [4; 36; 29; 13; 18; 11]].
Proof. exact (six_case). Qed.

Example c135_case_2 : magic 2 = Err ValueError.
Proof. exact (two_case). Qed.
