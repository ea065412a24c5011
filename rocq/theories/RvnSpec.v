(* What a user expects of a distribution function and its density where the class has no quantile function of its own *)
From Coq Require Import Reals.
From Coquelicot Require Import Coquelicot.
Local Open Scope R_scope.

(* on the set where P holds, f is a positive density and F its distribution function *)
Definition has_density (P : R -> Prop) (f F : R -> R) : Prop := forall x, P x -> 0 < f x /\ is_derive F x (f x).
