(* Curvatures, covariances and empirical densities. *)
From Coq Require Import Reals List ZArith.
From Verif Require Import ArSpec.
Import ListNotations.
Local Open Scope R_scope.

Definition shifted (theta v : list R) : list R := map (fun i => nth i theta 0 + nth i v 0) (seq 0 (List.length theta)).
Definition opposite (v : list R) : list R := map Ropp v.
(* near theta, up to K, the function f is a constant, plus an odd function, plus one half of the quadratic form of A *)
Definition nearly_quadratic (f : list R -> R) (theta : list R) (d K : R) (A : nat -> nat -> R) : Prop :=
  let n := List.length theta in
  exists c odd, (forall v, List.length v = n -> odd (opposite v) = - odd v) /\
    forall v, List.length v = n -> (forall i, Rabs (nth i v 0) <= d) ->
      Rabs (f (shifted theta v) - (c + odd v + / 2 * sum_to n (fun i => sum_to n (fun j => A i j * nth i v 0 * nth j v 0)))) <= K.
Definition symmetric (n : nat) (A : nat -> nat -> R) : Prop := forall i j, (i < n)%nat -> (j < n)%nat -> A i j = A j i.
(* M is an n x n matrix with the entries A *)
Definition is_matrix (n : nat) (M : list (list R)) (A : nat -> nat -> R) : Prop :=
  List.length M = n /\ (forall r, In r M -> List.length r = n) /\ forall i j, (i < n)%nat -> (j < n)%nat -> nth j (nth i M []) 0 = A i j.
(* B is the inverse of the n x n matrix A *)
Definition inverse_of (n : nat) (A B : nat -> nat -> R) : Prop :=
  forall i j, (i < n)%nat -> (j < n)%nat -> sum_to n (fun k => A i k * B k j) = (if Nat.eqb i j then 1 else 0) /\ sum_to n (fun k => B i k * A k j) = (if Nat.eqb i j then 1 else 0).
(* pinv returns the inverse of every n x n matrix that has one *)
Definition inverts (n : nat) (pinv : list (list R) -> list (list R)) : Prop :=
  forall M A B, is_matrix n M A -> inverse_of n A B -> is_matrix n (pinv M) B.
(* the free parameters, in increasing order *)
Definition free_of (n : nat) (fixedn : list nat) (free : list nat) : Prop :=
  (forall i, In i free <-> (i < n)%nat /\ ~ In i fixedn) /\ forall a b, (a < b < List.length free)%nat -> (nth a free 0 < nth b free 0)%nat.
(* Phi is the distribution function of a symmetric distribution, and ppf its inverse *)
Definition quantiles (Phi ppf : R -> R) : Prop :=
  (forall x y, x < y -> Phi x < Phi y) /\ (forall x, Phi (- x) = 1 - Phi x) /\ forall p, 0 < p < 1 -> Phi (ppf p) = p.
(* the mean and the variance of Moran's statistic of m spacings (Cheng and Stephens 1989), with Euler's constant to five digits *)
Definition spacings_mean (m : nat) : R := INR m * (ln (INR m) + 57722 / 100000) - 1 / 2 - 1 / (12 * INR m).
Definition spacings_var (m : nat) : R := INR m * (PI ^ 2 / 6 - 1) - 1 / 2 - 1 / (6 * INR m).
