(* Simulation of a stationary normal series. *)
From Coq Require Import Reals List Bool.
From Verif Require Import Base ArSpec.
Import ListNotations.
Local Open Scope R_scope.

(* one of the random numbers is 1, the others are 0 *)
Definition unit_at (b : bool) (m j : nat) : bool -> nat -> nat -> R := fun b' m' j' => if Bool.eqb b b' && Nat.eqb m m' && Nat.eqb j j' then 1 else 0.
(* V is linear in two matrices of N rows and c columns *)
Definition linear3 (N c : nat) (V : (bool -> nat -> nat -> R) -> R) : Prop :=
  forall d, V d = sum_to N (fun m => sum_to c (fun j => d false m j * V (unit_at false m j) + d true m j * V (unit_at true m j))).
(* the covariance of two numbers that are linear in two matrices of independent standard normal numbers *)
Definition covariance3 (N c : nat) (V W : (bool -> nat -> nat -> R) -> R) : R :=
  sum_to N (fun m => sum_to c (fun j => V (unit_at false m j) * W (unit_at false m j) + V (unit_at true m j) * W (unit_at true m j))).
(* the eigenvalues of the circulant matrix of order N with the correlations r 0, r 1, ... on both sides of the diagonal *)
Definition eigenvalue (N : nat) (r : nat -> R) (m : nat) : R := r 0%nat + 2 * sum_to (N - 1) (fun k => r (S k) * cos (2 * PI * INR (m * S k) / INR N)).
(* the value at time p in column a of a result; 0 for an error *)
Definition value {T} (a p : nat) (r : res (T * list (list R))) : R := match r with Ok (_, x) => nth p (nth a x []) 0 | Err _ => 0 end.
(* the covariance function that is simulated if the given one ends with 0 *)
Definition averaged (acf : list R) (k : nat) : R := match k with O => nth 0 acf 0 | S _ => (nth k acf 0 + nth (S k) acf 0) / 2 end.
(* the first of the largest of N numbers *)
Definition peak_at (N : nat) (ev : nat -> R) (i : nat) : Prop :=
  (i < N)%nat /\ (forall m, (m < N)%nat -> ev m <= ev i) /\ (forall m, (m < i)%nat -> ev m < ev i).
(* the eigenvalues that are left out: the negative ones, those between a negative one beyond twice the peak and its
   mirror image, and those between the peak and its mirror image that are below 1e-5 of the peak *)
Definition left_out (N : nat) (ev : nat -> R) (i m : nat) : Prop :=
  ev m < 0 \/
  (exists k, (2 * i < k)%nat /\ ev k < 0 /\ (k <= m < N - k)%nat) \/
  ((0 < i)%nat /\ (i <= m < N - i)%nat /\ ev m < ev i / 100000).
