(* What rational approximations promise. *)
From Coq Require Import Reals List.
From Verif Require Import Base PolySpec ArSpec.
Import ListNotations.
Local Open Scope R_scope.

(* den f - num starts with the power x^n *)
Definition agrees (n : nat) (f num den : list R) : Prop := exists r, forall x, peval den x * peval f x - peval num x = x ^ n * peval r x.
(* the two quotients are the same rational function *)
Definition same_quotient (num den num' den' : list R) : Prop := forall x, peval num x * peval den' x = peval num' x * peval den x.
(* a routine that solves linear systems: what it returns is a solution, and it returns one if there is exactly one *)
Definition solves (solve : nat -> (nat -> nat -> R) -> (nat -> R) -> res (nat -> R)) : Prop :=
  (forall n A b y, solve n A b = Ok y -> forall r, (r < n)%nat -> sum_to n (fun j => A r j * y j) = b r) /\
  (forall n A b y, (forall r, (r < n)%nat -> sum_to n (fun j => A r j * y j) = b r) ->
     (forall y', (forall r, (r < n)%nat -> sum_to n (fun j => A r j * y' j) = 0) -> forall j, (j < n)%nat -> y' j = 0) -> exists s, solve n A b = Ok s).
(* the largest deviation of num / den from the values f at the points x is d *)
Definition deviation (n : nat) (x f : nat -> R) (num den : list R) (d : R) : Prop :=
  (forall i, (i < n)%nat -> peval den (x i) <> 0 /\ Rabs (peval num (x i) / peval den (x i) - f i) <= d) /\
  exists i, (i < n)%nat /\ Rabs (peval num (x i) / peval den (x i) - f i) = d.
(* num and den minimise the sum of the squares of num - f den among the pairs of the same sizes with den(0) = 1 *)
Definition residual (n : nat) (x f : nat -> R) (num den : list R) : R := sum_to n (fun i => (peval num (x i) - f i * peval den (x i)) ^ 2).
Definition linear_fit (n : nat) (x f : nat -> R) (num den : list R) : Prop :=
  peval den 0 = 1 /\
  forall num' den', List.length num' = List.length num -> List.length den' = List.length den -> peval den' 0 = 1 -> residual n x f num den <= residual n x f num' den'.
