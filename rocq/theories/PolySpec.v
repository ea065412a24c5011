(* Specification of polynomials given by their coefficients, highest degree first *)
From Coq Require Import Reals.
From Verif Require Import Base.
Local Open Scope R_scope.

(* the value of  c_0 x^n + c_1 x^(n-1) + ... + c_n *)
Fixpoint peval (p : list R) (x : R) : R :=
  match p with [] => 0 | c :: p' => c * x ^ List.length p' + peval p' x end.

(* g is the m-th derivative of f *)
Fixpoint nth_derivative (m : nat) (f g : R -> R) : Prop :=
  match m with
  | O => forall x, f x = g x
  | S m' => exists h, (forall x, derivable_pt_lim f x (h x)) /\ nth_derivative m' h g
  end.
(* g is obtained from f by taking primitives |k| times, the i-th one with value k_i at 0 *)
Fixpoint primitives (k : list R) (f g : R -> R) : Prop :=
  match k with
  | [] => forall x, f x = g x
  | k0 :: k' => exists h, (forall x, derivable_pt_lim h x (f x)) /\ h 0 = k0 /\ primitives k' h g
  end.
(* the constants used: none given = zeros, one given = that one every time *)
Definition constants (k : option (list R)) (m : nat) (ks : list R) : Prop :=
  match k with
  | None => ks = repeat 0 m
  | Some [k0] => ks = repeat k0 m
  | Some k => (m <= List.length k)%nat /\ ks = firstn m k
  end.
