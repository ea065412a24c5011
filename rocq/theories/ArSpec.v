(* Linear functions of independent standard normal numbers. *)
From Coq Require Import Reals List.
Import ListNotations.
Local Open Scope R_scope.

Fixpoint sum_to (n : nat) (f : nat -> R) : R := match n with O => 0 | S k => sum_to k f + f k end.
(* the m-th number is 1, the others are 0 *)
Definition unit_draw (m k : nat) : R := if Nat.eqb m k then 1 else 0.
(* F, which makes a series of n draws, is linear *)
Definition linear_in (n : nat) (F : (nat -> R) -> list R) : Prop :=
  forall d i, nth i (F d) 0 = sum_to n (fun m => d m * nth i (F (unit_draw m)) 0).
(* the covariance of the values at i and j of a series that is linear in n independent standard normal numbers *)
Definition covariance (n : nat) (F : (nat -> R) -> list R) (i j : nat) : R := sum_to n (fun m => nth i (F (unit_draw m)) 0 * nth j (F (unit_draw m)) 0).
(* the solution of y(k+2) = - a1 y(k+1) - a2 y(k) that starts with y0, y1 *)
Fixpoint solution (a1 a2 y0 y1 : R) (k : nat) : R := match k with O => y0 | S k => solution a1 a2 y1 (- a1 * y1 - a2 * y0) k end.
(* the correlation of successive increments of a stationary series with the correlations r1, r2 *)
Definition increments (r1 r2 : R) : R := (2 * r1 - 1 - r2) / (2 * (1 - r1)).
Definition distance (i j : nat) : nat := (i - j) + (j - i).
