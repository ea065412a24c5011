(* Specification for count matrices *)
From Coq Require Import Reals.
From Verif Require Import Base.
Local Open Scope R_scope.

(* sum of f over the indices in a list *)
Definition Rsum (l : list nat) (f : nat -> R) : R := fold_right (fun k s => f k + s) 0 l.
(* the indices a, a+1, ..., b-1 *)
Definition range (a b : nat) : list nat := seq a (b - a).
(* number of cycles with minimum level < i and maximum level > j (n levels) *)
Definition cycles_across (n : nat) (F : nat -> nat -> R) (i j : nat) : R :=
  Rsum (range 0 i) (fun p => Rsum (range (j + 1) n) (fun q => F p q)).
(* equality of n x n matrices *)
Definition mat_eq (n : nat) (A B : nat -> nat -> R) : Prop :=
  forall i j, (i < n)%nat -> (j < n)%nat -> A i j = B i j.
(* the mixed difference that inverts a double cumulative sum *)
Definition mixed_diff (A : nat -> nat -> R) (i j : nat) : R :=
  A i j + A (i + 1)%nat (j + 1)%nat - A i (j + 1)%nat - A (i + 1)%nat j.
