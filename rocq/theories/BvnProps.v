(* Theorems about bivariate normal probabilities and the distribution of local maxima (C152). *)
From Coq Require Import Reals ZArith List Bool.
From Coquelicot Require Import Coquelicot.
From Verif Require Import RvnModel BvnModel BvnSpec BvnProofs BvnProofs2 BvnProofs3 BvnProofs4 BvnCases.
Import ListNotations.
Local Open Scope R_scope.

(* Numbers: the cases where the probability is known exactly. *)

Theorem c152_independent : forall b1 b2, cdfnorm2 b1 b2 0 = Some (ndtr b1 * ndtr b2).
Proof. exact (at_zero). Qed.
Print Assumptions c152_independent.

Theorem c152_equal : forall b1 b2, cdfnorm2 b1 b2 1 = Some (ndtr (Rmin b1 b2)).
Proof. exact (at_one). Qed.
Print Assumptions c152_equal.

Theorem c152_opposite : forall b1 b2, cdfnorm2 b1 b2 (-1) = Some (Rmax 0 (ndtr b1 - ndtr (- b2))).
Proof. exact (at_minus_one). Qed.
Print Assumptions c152_opposite.

Theorem c152_invalid : forall b1 b2 r, 1 < Rabs r -> cdfnorm2 b1 b2 r = None.
Proof. exact (at_invalid). Qed.
Print Assumptions c152_invalid.

Theorem c152_symmetric : forall b1 b2 r, cdfnorm2 b1 b2 r = cdfnorm2 b2 b1 r.
Proof. exact (symmetric). Qed.
Print Assumptions c152_symmetric.

Theorem c152_marginals : forall r, covered r -> marginals (fun x y r => value (cdfnorm2 x y r)) r.
Proof. exact (split_both). Qed.
Print Assumptions c152_marginals.

Theorem c152_dependence : forall b1 b2 r, Rabs r < 925 / 1000 ->
  (0 < r -> ndtr b1 * ndtr b2 < value (cdfnorm2 b1 b2 r)) /\ (r < 0 -> value (cdfnorm2 b1 b2 r) < ndtr b1 * ndtr b2).
Proof. exact (dependence). Qed.
Print Assumptions c152_dependence.

Theorem c152_median : forall r, Rabs r < 925 / 1000 -> Rabs (value (cdfnorm2 0 0 r) - (1 / 4 + asin r / (2 * PI))) <= 1 / 10 ^ 15.
Proof. exact (median). Qed.
Print Assumptions c152_median.

Theorem c152_quadrature : forall b1 b2 r, Rabs r < 925 / 1000 -> exists X W, exact_rule (2 / 10 ^ 15) 12 X W /\
  value (cdfnorm2 b1 b2 r) = ndtr b1 * ndtr b2 + 1 / (2 * PI) * (asin r / 2 *
    fold_right Rplus 0 (map (fun xw => snd xw * (bend b1 b2 (asin r * (- fst xw + 1) / 2) + bend b1 b2 (asin r * (fst xw + 1) / 2))) (combine X W))).
Proof. exact (quadrature). Qed.
Print Assumptions c152_quadrature.

Example c152_dependence_case : 1 / 4 < value (cdfnorm2 0 0 (9 / 10)).
Proof. exact (dependence_case). Qed.

(* The nodes and the weights. *)

Theorem c152_rule_6 : exact_rule (2 / 10 ^ 15) 12 X6 W6.
Proof. exact (exact6). Qed.
Print Assumptions c152_rule_6.

Theorem c152_rule_12 : exact_rule (3 / 10 ^ 16) 24 X12 W12.
Proof. exact (exact12). Qed.
Print Assumptions c152_rule_12.

Theorem c152_rule_20 : exact_rule (1 / 10 ^ 16) 40 X20 W20.
Proof. exact (exact20). Qed.
Print Assumptions c152_rule_20.

(* Arrays: a number depends on its neighbours. *)

Theorem c152_arrays : forall bs, (forall q, In q bs -> ~ near_one (snd q)) \/ (forall q, In q bs -> 925 / 1000 <= Rabs (snd q) <= 1) ->
  cdfnorm2d bs = map (fun q : R * R * R => let '(b1, b2, r) := q in cdfnorm2 b1 b2 r) bs.
Proof. exact (elementwise). Qed.
Print Assumptions c152_arrays.

Theorem c152_arrays_refuted : exists b b' v w, cdfnorm2d [b; b'] = [Some v; w] /\ v < 0 /\ (let '(b1, b2, r) := b in cdfnorm2 b1 b2 r) = Some (1 / 4).
Proof. exact (not_elementwise). Qed.
Print Assumptions c152_arrays_refuted.

Example c152_arrays_case : cdfnorm2d [(1, 2, 1); (2, 1, 95 / 100); (0, 3, -1)] = [Some (ndtr 1); cdfnorm2 2 1 (95 / 100); Some (Rmax 0 (ndtr 0 - ndtr (- (3))))].
Proof. exact (arrays_case). Qed.

(* Rectangles. *)

Theorem c152_rectangle : forall F r a0 a1 b0 b1, marginals F r -> ~ (everything a0 b0 \/ everything a1 b1) -> a0 < b0 -> a1 < b1 ->
  ~ (a0 <= - 37 /\ 37 <= b0 /\ a1 <= - 37 /\ 37 <= b1) ->
  prbnorm2d (fun x y r => Some (F x y r)) a0 a1 b0 b1 r = Some (rectangle (fun x y => F x y r) (lower a0) (upper b0) (lower a1) (upper b1)).
Proof. exact (rect_value). Qed.
Print Assumptions c152_rectangle.

Theorem c152_own : forall r a0 a1 b0 b1, covered r -> ~ (everything a0 b0 \/ everything a1 b1) -> a0 < b0 -> a1 < b1 ->
  ~ (a0 <= - 37 /\ 37 <= b0 /\ a1 <= - 37 /\ 37 <= b1) ->
  prbnorm2d cdfnorm2 a0 a1 b0 b1 r = Some (rectangle (fun x y => value (cdfnorm2 x y r)) (lower a0) (upper b0) (lower a1) (upper b1)).
Proof. exact (rect_own). Qed.
Print Assumptions c152_own.

Theorem c152_empty : forall cdf r a0 a1 b0 b1, b0 <= a0 \/ b1 <= a1 -> prbnorm2d cdf a0 a1 b0 b1 r = Some 0.
Proof. exact (rect_empty). Qed.
Print Assumptions c152_empty.

Theorem c152_all : forall cdf r a0 a1 b0 b1, everything a0 b0 -> everything a1 b1 -> prbnorm2d cdf a0 a1 b0 b1 r = Some 1.
Proof. exact (rect_all). Qed.
Print Assumptions c152_all.

Theorem c152_strip_refuted : prbnorm2d cdfnorm2 (-40) 0 40 1 0 = Some 1 /\ ndtr 1 - ndtr 0 < 1.
Proof. exact (rect_strip). Qed.
Print Assumptions c152_strip_refuted.

Example c152_rectangle_case : prbnorm2d cdfnorm2 (-1) (-2) 1 50 0 = Some ((ndtr 1 - ndtr (-1)) * (1 - ndtr (-2))).
Proof. exact (rect_case). Qed.

(* Local maxima. *)

Theorem c152_maxima : forall alpha m0, Rabs alpha < 1 -> 0 < m0 -> distribution_function (fun x => value (cdflomax x alpha m0)).
Proof. exact (lomax_distribution). Qed.
Print Assumptions c152_maxima.

Theorem c152_density : forall alpha m0 x, Rabs alpha < 1 -> 0 < m0 -> is_derive (fun x => value (cdflomax x alpha m0)) x (rice alpha m0 x).
Proof. exact (lomax_density). Qed.
Print Assumptions c152_density.

Theorem c152_normal : forall m0 x, cdflomax x 0 m0 = Some (ndtr (x / sqrt m0)).
Proof. exact (lomax_normal). Qed.
Print Assumptions c152_normal.

Theorem c152_rayleigh : forall m0 x, (0 < x -> cdflomax x 1 m0 = Some (1 - exp (- x ^ 2 / 2 / m0))) /\ (x < 0 -> cdflomax x 1 m0 = Some 0) /\ cdflomax 0 1 m0 = None.
Proof. exact (lomax_rayleigh). Qed.
Print Assumptions c152_rayleigh.

Theorem c152_irregularity : forall x alpha m0, 1 < Rabs alpha -> cdflomax x alpha m0 = None.
Proof. exact (lomax_invalid). Qed.
Print Assumptions c152_irregularity.

Example c152_maxima_case : value (cdflomax 0 (1 / 2) 4) = 1 / 4.
Proof. exact (lomax_case). Qed.
