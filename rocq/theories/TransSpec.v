(* What the transformation models promise (documentation of src/wafo/transform/models.py). *)
From Coq Require Import Reals List.
From Verif Require Import Base TransModel.
Import ListNotations.
Local Open Scope R_scope.

Definition strictly_increasing (f : R -> R) : Prop := forall a b, a < b -> f a < f b.

(* models.py:412-423: g(x) = ((1 - exp(-gamma (x - mean) / sigma)) / gamma - mean2) / sigma2 with gamma = 1.28 a for x >= mean and 3 a otherwise;
   for a = 0 the quotient is its limit *)
Definition ochi_g (a sigma2 mean2 xn : R) : R :=
  let gamma := if Rle_dec 0 xn then 1.28 * a else 3 * a in
  ((if Req_EM_T gamma 0 then xn else (1 - exp (- gamma * xn)) / gamma) - mean2) / sigma2.
(* models.py:428-430 *)
Definition ochi_mean_equation (a sigma2 mean2 : R) : Prop := a * (sigma2 ^ 2 + mean2 ^ 2) + mean2 = 0.
Definition ochi_variance_equation (a sigma2 : R) : Prop := sigma2 ^ 2 - 2 * a ^ 2 * sigma2 ^ 4 = 1.
Definition ochi_skewness_equation (a sigma2 skew : R) : Prop := 2 * a * sigma2 ^ 4 * (3 - 8 * a ^ 2 * sigma2 ^ 2) = skew.

(* models.py:95-106 *)
Definition hardening (c3 c4 xn : R) : R := xn - c3 * (xn ^ 2 - 1) - c4 * (xn ^ 3 - 3 * xn).
Definition softening (c3 c4 y : R) : R := 1 / sqrt (1 + 2 * c3 ^ 2 + 6 * c4 ^ 2) * (y + c3 * (y ^ 2 - 1) + c4 * (y ^ 3 - 3 * y)).

(* moments of the standard normal distribution: 0 for odd n and (n-1)(n-3)...1 for even n *)
Fixpoint normal_moment (n : nat) : R :=
  match n with O => 1 | S O => 0 | S (S n') => INR (S n') * normal_moment n' end.
(* expectation of c0 + c1 Y + c2 Y^2 + ... and of its square for Y standard normal *)
Fixpoint expect (c : list R) (k : nat) : R := match c with [] => 0 | a :: c' => a * normal_moment k + expect c' (S k) end.
Fixpoint expect_square (c d : list R) (k : nat) : R := match c with [] => 0 | a :: c' => a * expect d k + expect_square c' d (S k) end.

(* what scipy's brentq is relied on for: a root of the function it is given in the interval it is given *)
Definition finds_root (brentq : (R -> R) -> R -> R -> R) (skew : R) : Prop :=
  1 <= brentq (g2 skew) 1 2 <= 2 /\ g2 skew (brentq (g2 skew) 1 2) = 0.

(* the parametrisation in use: the hardening model for kurt <= 3, otherwise the one selected by pardef; and the polynomial it belongs to *)
Definition parameters (eps : R) (pardef : Z) (s : stats) : res (R * R) :=
  if Rle_dec (kurt s) 3 then hardening_parameters eps (skew s) (kurt s - 3)
  else (if Z.eqb pardef 2 then winterstein1988 else winterstein1994) eps (skew s) (kurt s - 3).
Definition formula (s : stats) (c3 c4 x : R) : R := if Rle_dec (kurt s) 3 then hardening c3 c4 x else softening c3 c4 x.

(* the documented parameters, models.py:100-116 *)
Definition c4_1988 (ek : R) : R := (sqrt (1 + 1.5 * ek) - 1) / 18.
Definition c3_1988 (skew ek : R) : R := skew / (6 * (1 + 6 * c4_1988 ek)).
Definition c3_1994 (skew ek : R) : R := skew / 6 * (1 - 0.015 * Rabs skew + 0.3 * skew ^ 2) / (1 + 0.2 * ek).
Definition c4_1994 (skew ek : R) : R := 0.1 * (Rpower (1 + 1.25 * ek) (1 / 3) - 1) * Rpower (1 - 1.43 * skew ^ 2 / ek) (1 - 0.1 * Rpower (ek + 3) 0.8).
(* coefficients below the square root of the machine precision are set to zero *)
Definition chop (eps c : R) : R := if Rlt_dec (Rabs c) (sqrt eps) then 0 else c.
