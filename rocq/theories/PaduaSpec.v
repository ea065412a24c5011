(* Padua points, polynomials in two variables and the Chebyshev basis *)
From Coq Require Import Reals Lra.
From Verif Require Import Base PolyModel OrthoModel ChebSpec PaduaModel.
Local Open Scope R_scope.

(* the node (j, i) of degree n in the rectangle, 0 <= j <= n and 0 <= i <= n + 1 *)
Definition padua_node (n : nat) (dom : domain) (j i : nat) : R * R :=
  let '(a, b, c, d) := dom in (map_to_interval (cos (INR j * PI / INR n)) a b, map_to_interval (cos (INR i * PI / INR (n + 1))) c d).
Definition rectangle (dom : domain) : Prop := let '(a, b, c, d) := dom in a < b /\ c < d.
Definition inside (dom : domain) (x y : R) : Prop := let '(a, b, c, d) := dom in a <= x <= b /\ c <= y <= d.
(* polynomials of total degree at most n: sum of d(k, l) x^k y^l for k + l <= n *)
Definition poly2 (n : nat) (f : R -> R -> R) : Prop :=
  exists d : nat -> nat -> R, forall x y, f x y = vsum (n + 1) (fun k => vsum (n + 1 - k) (fun l => d k l * (x ^ k * y ^ l))).
(* orthonormal Chebyshev polynomials of the interval [a, b] *)
Definition that (k : nat) (x a b : R) : R := match k with O => 1 | _ => sqrt 2 * chebT k (map_from_interval x a b) end.
(* the series with the coefficients c *)
Definition cheb_series (n : nat) (c : nat -> nat -> R) (dom : domain) (x y : R) : R :=
  let '(a1, b1, c1, d1) := dom in vsum (n + 1) (fun k => vsum (n + 1) (fun l => c k l * (that k x a1 b1 * that l y c1 d1))).
Definition square_matrix (m : nat) (c : list (list R)) : Prop := List.length c = m /\ forall r, In r c -> List.length r = m.
(* a number moved into the interval *)
Definition into (x a b : R) : R := if Rlt_dec x a then a else if Rlt_dec b x then b else x.
