(* linear systems, natural cubic splines, the smoothing criterion *)
From Coq Require Import Reals.
From Coquelicot Require Import RInt Hierarchy.
From Verif Require Import Base OrthoModel.
Local Open Scope R_scope.

(* s solves the n by n system A s = b *)
Definition solves (n : nat) (A : nat -> nat -> R) (b s : nat -> R) : Prop :=
  forall i, (i < n)%nat -> vsum n (fun j => A i j * s j) = b i.
(* F is twice continuously differentiable with second derivative F2 *)
Definition twice_differentiable (F F2 : R -> R) : Prop :=
  exists F1, (forall t, derivable_pt_lim F t (F1 t)) /\ (forall t, derivable_pt_lim F1 t (F2 t)) /\ continuity F2.

(* the integral of the squared second derivative over [a, b] *)
Definition roughness (f2 : R -> R) (a b : R) : R := RInt (fun t => (f2 t) ^ 2) a b.
(* sum of (y_i - f(x_i))^2 / var_i over the data *)
Definition misfit (x y : list R) (var : nat -> R) (f : R -> R) : R :=
  vsum (List.length x) (fun i => (nth i y 0 - f (nth i x 0)) ^ 2 / var i).
(* p * misfit + (1 - p) * roughness between the first and the last point *)
Definition criterion (p : R) (x y : list R) (var : nat -> R) (f f2 : R -> R) : R :=
  p * misfit x y var f + (1 - p) * roughness f2 (hd 0 x) (last x 0).
