(* Prediction of missing values of a stationary series. *)
From Coq Require Import Reals List.
From Verif Require Import Base ArSpec.
Import ListNotations.
Local Open Scope R_scope.

(* a series of n values, of which some are missing *)
Definition series (n : nat) (miss : nat -> bool) (x : nat -> R) : list (option R) := map (fun i => if miss i then None else Some (x i)) (seq 0 n).
Definition missing (n : nat) (miss : nat -> bool) : list nat := filter miss (seq 0 n).
Definition present (n : nat) (miss : nat -> bool) : list nat := filter (fun i => negb (miss i)) (seq 0 n).
(* the covariance of the sums of v_i X_i and of w_j X_j, X_0 ... X_{n-1} with the covariances r(|i-j|) *)
Definition cov (r : nat -> R) (n : nat) (v w : nat -> R) : R := sum_to n (fun i => sum_to n (fun j => v i * w j * r (distance i j))).
Definition semidefinite (r : nat -> R) (n : nat) : Prop := forall v, 0 <= cov r n v v.
Definition unit (k i : nat) : R := if Nat.eqb k i then 1 else 0.
Definition minus (v w : nat -> R) (i : nat) : R := v i - w i.
(* the first m values of c, then zeros *)
Definition cut (m : nat) (c : list R) (k : nat) : R := if Nat.ltb k m then nth k c 0 else 0.
(* X solves the p equations A X = B with q right hand sides *)
Definition solution_of (p q : nat) (A B X : nat -> nat -> R) : Prop := forall i u, (i < p)%nat -> (u < q)%nat -> sum_to p (fun j => A i j * X j u) = B i u.
(* P is the best prediction of X_k by the values in a set: its weights are zero elsewhere, the error is uncorrelated with the values of the
   set, and no other weights have an error with a smaller variance *)
Definition best (r : nat -> R) (n : nat) (known : nat -> Prop) (k : nat) (P : nat -> R) : Prop :=
  (forall i, ~ known i -> P i = 0) /\ (forall i, (i < n)%nat -> known i -> cov r n (minus (unit k) P) (unit i) = 0) /\
  forall P', (forall i, ~ known i -> P' i = 0) -> cov r n (minus (unit k) P) (minus (unit k) P) <= cov r n (minus (unit k) P') (minus (unit k) P').
(* the variance is multiplied by f *)
Definition raised (f : R) (r : nat -> R) (k : nat) : R := match k with O => f * r O | S _ => r k end.
(* solve finds a solution of A0 X = B0; it sees only the p rows of the matrices *)
Definition works (solve : nat -> nat -> (nat -> nat -> R) -> (nat -> nat -> R) -> nat -> nat -> R) (p q : nat) (A0 B0 : nat -> nat -> R) : Prop :=
  forall A B, (forall i j, (i < p)%nat -> (j < p)%nat -> A i j = A0 i j) -> (forall i u, (i < p)%nat -> (u < q)%nat -> B i u = B0 i u) -> solution_of p q A0 B0 (solve p q A B).
(* solve can predict the values in the places U from those in K *)
Definition predicts (solve : nat -> nat -> (nat -> nat -> R) -> (nat -> nat -> R) -> nat -> nat -> R) (r : nat -> R) (K U : list nat) : Prop :=
  works solve (List.length K) (List.length U) (fun i j => 2 * r (distance (nth i K 0%nat) (nth j K 0%nat))) (fun i u => 2 * r (distance (nth i K 0%nat) (nth u U 0%nat))).
(* the means mu, the deviations sd and the covariances C are those of the best predictions, with weights P, of the values in the places U *)
Definition predicted (r : nat -> R) (n : nat) (known : nat -> Prop) (U : list nat) (P : nat -> nat -> R) (x : nat -> R) (mu sd : list R) (C : nat -> nat -> R) : Prop :=
  List.length mu = List.length U /\ List.length sd = List.length U /\
  forall u, (u < List.length U)%nat -> best r n known (nth u U 0%nat) (P u) /\ nth u mu 0 = sum_to n (fun i => P u i * x i) /\
    nth u sd 0 = sqrt (cov r n (minus (unit (nth u U 0%nat)) (P u)) (minus (unit (nth u U 0%nat)) (P u))) /\
    forall v, (v < List.length U)%nat -> C u v = cov r n (minus (unit (nth u U 0%nat)) (P u)) (minus (unit (nth v U 0%nat)) (P v)).
