(* Least squares *)
From Coq Require Import Reals.
From Verif Require Import Base PolySpec.
Local Open Scope R_scope.

(* sum over the sample points of the squared error of the function f *)
Fixpoint squared_error (x y : list R) (f : R -> R) : R :=
  match x, y with
  | a :: x', b :: y' => (b - f a) ^ 2 + squared_error x' y' f
  | _, _ => 0
  end.
(* the list x has at least m different values *)
Definition distinct_values (m : nat) (x : list R) : Prop :=
  exists l, NoDup l /\ incl l x /\ List.length l = m.
