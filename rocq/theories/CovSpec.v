(* What the estimate of an autocovariance function is, without the Fourier transform. *)
From Coq Require Import Reals Lra.
From Verif Require Import Base PolyModel GridSpec CovModel.
Local Open Scope R_scope.

(* a series without missing values *)
Definition values (x : list R) : list num := map Some x.
Definition mean_of (x : list R) : R := sumR x / INR (List.length x).
Definition centred (x : list R) : list R := map (fun v => v - mean_of x) x.
(* the sum over j of x[j] * x[j + k] *)
Definition lagged (x : list R) (k : nat) : R := sumR (map (fun j => at_R x j * at_R x (j + k)) (seq 0 (List.length x - k))).
(* the biased estimate of the covariance at lag k *)
Definition biased (x : list R) (k : nat) : R := lagged (centred x) k / INR (List.length x).
(* p is the least power of two that is at least n *)
Definition least_pow2 (n p : nat) : Prop := (n <= p)%nat /\ (exists e, p = 2 ^ e)%nat /\ (forall e, n <= 2 ^ e -> p <= 2 ^ e)%nat.

(* no window, no normalization, no trend removed *)
Definition boxcar (m : nat) : list R := repeat 1 m.
Definition plain (L : nat) : options := Options (Some L) (Named boxcar false) false false None.
(* a window of a given length *)
Definition sized (get : nat -> list R) : Prop := forall m, List.length (get m) = m.

(* the series when values are missing: as the code centres it *)
Definition missing (x : list num) : nat := List.length (filter is_nan x).
Definition off_centre (x0 x1 : R) (x : list num) : R := (INR (missing x) * x0 + INR (List.length x - missing x) * x1) / INR (List.length x).
(* the number at an index of a result without missing numbers *)
Definition number (l : list num) (k : nat) : R := match nth k l None with Some v => v | None => 0 end.
(* Bartlett's large lag standard deviation at lag k >= 1 of the estimates a(0), a(1), ... from n values *)
Definition bartlett (a : nat -> R) (n : nat) (k : nat) : R := sqrt ((a 0%nat ^ 2 + 2 * sumR (map (fun i => a i ^ 2) (seq 1 (k - 1)))) / INR n).
(* the large lag deviation that the search for a lag compares with: 0 at lag 0 *)
Definition deviation (a : nat -> R) (n : nat) (k : nat) : R := match k with O => 0 | S _ => bartlett a n k end.
(* the covariance when the series is continued periodically after zeros up to length N *)
Definition wrapped (x : list R) (N k : nat) : R := (lagged (centred x) k + lagged (centred x) (N - k)) / INR (List.length x).
