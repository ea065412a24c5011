(* What a quadrature rule is supposed to do *)
From Coq Require Import Reals.
From Coquelicot Require Import RInt Hierarchy.
From Verif Require Import Base PolySpec.
Local Open Scope R_scope.

(* the value the rule gives for f *)
Fixpoint rule_sum (nodes weights : list R) (f : R -> R) : R :=
  match nodes, weights with x :: nodes', w :: weights' => w * f x + rule_sum nodes' weights' f | _, _ => 0 end.
(* I is the integral of f from a to b (Riemann) *)
Definition integral (f : R -> R) (a b I : R) : Prop := is_RInt (V := R_NormedModule) f a b I.
(* I is the improper integral of f over the open interval (a, b): the limit of the integrals from u to v *)
Definition improper_integral (f : R -> R) (a b I : R) : Prop :=
  forall eps, 0 < eps -> exists del, 0 < del /\
    forall u v, a < u < a + del -> u < b -> b - del < v < b -> a < v ->
      exists J, integral f u v J /\ Rabs (J - I) < eps.
(* the rule integrates every polynomial with at most N coefficients exactly against the weight function *)
Definition exact_for (N : nat) (weight : R -> R) (a b : R) (rule : list R * list R) : Prop :=
  forall p, (List.length p <= N)%nat ->
    improper_integral (fun x => weight x * peval p x) a b (rule_sum (fst rule) (snd rule) (peval p)).
(* the same for the weight 1 on a closed interval *)
Definition plain_exact_for (N : nat) (a b : R) (rule : list R * list R) : Prop :=
  forall p, (List.length p <= N)%nat -> integral (peval p) a b (rule_sum (fst rule) (snd rule) (peval p)).
(* n equidistant points from a to b *)
Definition grid (a b : R) (n : nat) : list R := map (fun i => a + INR i * ((b - a) / INR (n - 1))) (seq 0 n).
