(* Smoothing by polynomials in a moving window. *)
From Coq Require Import Reals List.
From Verif Require Import Base ArSpec.
Import ListNotations.
Local Open Scope R_scope.

(* P is the pseudo-inverse of the p x q matrix B with independent columns *)
Definition pseudo_inverse (p q : nat) (B P : nat -> nat -> R) : Prop :=
  (forall i l, (i < q)%nat -> (l < q)%nat -> sum_to p (fun r => P i r * B r l) = if Nat.eqb i l then 1 else 0) /\
  (forall r s, (r < p)%nat -> (s < p)%nat -> sum_to q (fun i => B r i * P i s) = sum_to q (fun i => B s i * P i r)).
(* a polynomial with the coefficients c 0, ..., c n *)
Definition poly (n : nat) (c : nat -> R) (t : R) : R := sum_to (n + 1) (fun i => c i * t ^ i).
(* the values around y_k are those of the polynomial: y_(k+t) = poly t for -h <= t <= h *)
Definition follows (y : list R) (k h n : nat) (c : nat -> R) : Prop := forall j, (j <= 2 * h)%nat -> nth (k + j - h) y 0 = poly n c (INR j - INR h).
(* the squared distance of the polynomial to the values around y_k *)
Definition misfit (y : list R) (k h n : nat) (c : nat -> R) : R := sum_to (2 * h + 1) (fun j => (nth (k + j - h) y 0 - poly n c (INR j - INR h)) ^ 2).
Definition monotone (x : list R) : Prop := (forall i, (S i < List.length x)%nat -> nth i x 0 <= nth (S i) x 0) \/ (forall i, (S i < List.length x)%nat -> nth (S i) x 0 <= nth i x 0).
(* the pieces in which x is cut, with the data of each piece and its smoothed values *)
Definition cut (smooth : list R -> res (list R)) (x data z : list R) : Prop :=
  exists xs ys zs, concat xs = x /\ concat ys = data /\ concat zs = z /\ map (@List.length R) xs = map (@List.length R) ys /\
    (forall p, In p xs -> monotone p /\ (2 <= List.length p)%nat) /\ Forall2 (fun d s => smooth d = Ok s) ys zs.
