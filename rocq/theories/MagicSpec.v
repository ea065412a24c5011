(* Magic squares. *)
From Coq Require Import ZArith List Permutation.
Import ListNotations.
Local Open Scope Z_scope.

Definition total (l : list Z) : Z := fold_right Z.add 0 l.
Definition column (M : list (list Z)) (j : nat) : list Z := map (fun row => nth j row 0) M.
(* the two diagonals of a square with n rows *)
Definition diagonal (M : list (list Z)) (n : nat) : list Z := map (fun i => nth i (nth i M []) 0) (seq 0 n).
Definition antidiagonal (M : list (list Z)) (n : nat) : list Z := map (fun i => nth (n - 1 - i) (nth i M []) 0) (seq 0 n).

(* n rows of n numbers, which are the numbers 1, ..., n^2 in some order; every row, every column and both diagonals add up to n (n^2 + 1) / 2 *)
Definition magic_square (n : nat) (M : list (list Z)) : Prop :=
  let N := Z.of_nat n in let s := N * (N * N + 1) / 2 in
  List.length M = n /\ (forall row, In row M -> List.length row = n) /\
  Permutation (concat M) (map Z.of_nat (seq 1 (n * n))) /\
  (forall row, In row M -> total row = s) /\ (forall j, (j < n)%nat -> total (column M j) = s) /\
  total (diagonal M n) = s /\ total (antidiagonal M n) = s.
