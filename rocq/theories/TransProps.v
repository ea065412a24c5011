From Coq Require Import Reals ZArith Lra Psatz.
From Coquelicot Require Import Coquelicot.
From Verif Require Import Base PolyModel TransModel TransSpec TransProofs TransProofs2 TransProofs3 TransProofs4 TransProofs5.
Local Open Scope R_scope.

(* ---- C58: round trips and monotonicity of TrLinear and TrOchi ---- *)
Theorem c58_linear : forall s x, linear_dat2gauss s x [] = Plain (map (fun v => ymean s + ysigma s * ((v - mean s) / sigma s)) x).
Proof. exact linear_formula. Qed.
Print Assumptions c58_linear.
Theorem c58_linear_roundtrip : forall s x xi, sigma s <> 0 -> ysigma s <> 0 ->
  match linear_dat2gauss s x xi with
  | Plain y => xi = [] /\ linear_gauss2dat s y [] = Plain x
  | Many [] => False
  | Many (y :: yi) => xi <> [] /\ length yi = length xi /\ linear_gauss2dat s y yi = Many (x :: xi)
  end.
Proof. exact linear_roundtrip. Qed.
Print Assumptions c58_linear_roundtrip.
Theorem c58_linear_roundtrip_back : forall s y yi, sigma s <> 0 -> ysigma s <> 0 ->
  match linear_gauss2dat s y yi with
  | Plain x => yi = [] /\ linear_dat2gauss s x [] = Plain y
  | Many [] => False
  | Many (x :: xi) => yi <> [] /\ length xi = length yi /\ linear_dat2gauss s x xi = Many (y :: yi)
  end.
Proof. exact linear_roundtrip'. Qed.
Print Assumptions c58_linear_roundtrip_back.
(* the transformed derivatives are the derivatives of the transformed record *)
Theorem c58_linear_derivative : forall s (x x1 : R -> R) t, is_derive x t (x1 t) ->
  exists y y1, (forall u, linear_dat2gauss s [x u] [[x1 u]] = Many [[y u]; [y1 u]]) /\ is_derive y t (y1 t).
Proof. exact linear_derivative. Qed.
Print Assumptions c58_linear_derivative.
Theorem c58_linear_is_gaussian : forall s x, sigma s <> 0 -> ysigma s <> 0 -> dist2gauss s (fun x => match linear_dat2gauss s x [] with Plain y => y | Many _ => [] end) x = 0.
Proof. exact linear_dist. Qed.
Print Assumptions c58_linear_is_gaussian.
Theorem c58_distance : forall s g x, 0 < sigma s -> (forall i, (S i < length x)%nat -> nth i x 0 <= nth (S i) x 0) -> 0 <= dist2gauss s g x.
Proof. exact dist_nonneg. Qed.
Print Assumptions c58_distance.
(* TrOchi: the documented formula, strictly increasing, continuous; gauss2dat returns the preimage when there is one and only then *)
Theorem c58_ochi : forall brentq s o, finds_root brentq (skew s) \/ skew s = 0 -> sigma s <> 0 -> ysigma s <> 0 -> ochi_init brentq s = Ok o ->
  exists f a sigma2 mean2, (forall x, ochi_dat2gauss brentq o x [] = Ok (map (fun v => Some (f v)) x)) /\
    (forall x, f x = ymean s + ysigma s * ochi_g a sigma2 mean2 ((x - mean s) / sigma s)) /\
    (0 < sigma s -> 0 < ysigma s -> strictly_increasing f) /\ (forall x, continuous f x) /\
    (exists g, (forall y, ochi_gauss2dat brentq o y [] = Ok (map g y)) /\ forall x y, g y = Some x <-> f x = y) /\
    1 <= sigma2 /\ ochi_variance_equation a sigma2 /\ ochi_skewness_equation a sigma2 (skew s).
Proof. exact ochi_spec. Qed.
Print Assumptions c58_ochi.
Theorem c58_ochi_roundtrip : forall brentq s o x, finds_root brentq (skew s) \/ skew s = 0 -> sigma s <> 0 -> ysigma s <> 0 -> ochi_init brentq s = Ok o ->
  exists y, ochi_dat2gauss brentq o x [] = Ok (map Some y) /\ ochi_gauss2dat brentq o y [] = Ok (map Some x).
Proof. exact ochi_roundtrip. Qed.
Print Assumptions c58_ochi_roundtrip.
Theorem c58_ochi_derivatives : forall brentq o x x1 xi, (exists p, get_par brentq o = Ok p) -> ochi_dat2gauss brentq o x (x1 :: xi) = Err ValueError /\ ochi_gauss2dat brentq o x (x1 :: xi) = Err ValueError.
Proof. exact ochi_derivatives. Qed.
Print Assumptions c58_ochi_derivatives.
(* the parameters are not recomputed when the skewness changes *)
Theorem c58_stale_refuted : forall brentq s o o' k, finds_root brentq (skew s) \/ skew s = 0 -> finds_root brentq k \/ k = 0 -> sigma s <> 0 -> ysigma s <> 0 -> skew s <> k ->
  ochi_init brentq s = Ok o -> ochi_init brentq (Stats (mean s) (sigma s) k (kurt s) (ymean s) (ysigma s)) = Ok o' ->
  exists x, ochi_dat2gauss brentq o' x [] <> ochi_dat2gauss brentq (set_stats o (Stats (mean s) (sigma s) k (kurt s) (ymean s) (ysigma s))) x [].
Proof. exact ochi_stale_differs. Qed.
Print Assumptions c58_stale_refuted.
Example c58_case : let s := Stats 1 2 0.16 3.04 0 1 in exists o, ochi_init a_brentq s = Ok o /\ finds_root a_brentq (skew s) /\ sigma s <> 0 /\ ysigma s <> 0.
Proof.
  intros s. assert (B : ochi_bracket 0.16) by (unfold ochi_bracket; rewrite Rabs_pos_eq; lra). pose proof (a_brentq_ok 0.16 B) as F.
  destruct (ochi_init_iff a_brentq s (or_introl F)) as [H _]. destruct (H (proj2 B)) as [o Ho]. exists o. cbn. repeat split; auto; try (apply F); lra.
Qed.

(* ---- C59: the parameters of TrOchi ---- *)
(* the equation handed to brentq has exactly one root in its interval *)
Theorem c59_root : forall skew, 0 < Rabs skew <= 2.82842712474619 -> exists r, 1 <= r <= 2 /\ g2 skew r = 0 /\ forall r', 1 <= r' <= 2 -> g2 skew r' = 0 -> r' = r.
Proof. exact root_exists. Qed.
Print Assumptions c59_root.
Theorem c59_accepted : forall brentq s, finds_root brentq (skew s) \/ skew s = 0 ->
  (Rabs (skew s) <= 2.82842712474619 -> exists o, ochi_init brentq s = Ok o) /\ (2.82842712474619 < Rabs (skew s) -> ochi_init brentq s = Err ValueError).
Proof. exact ochi_init_iff. Qed.
Print Assumptions c59_accepted.
(* two of the three documented equations hold; the third holds for m, where the code stores a / 2 * m *)
Theorem c59_equations : forall brentq s p, finds_root brentq (skew s) \/ skew s = 0 -> par_from_stats brentq s = Ok p ->
  Rabs (skew s) <= 2.82842712474619 /\ exists a, gam_a p = 1.28 * a /\ gam_b p = 3 * a /\ 1 <= sigma2 p /\ (skew s = 0 -> a = 0 /\ sigma2 p = 1 /\ mean2 p = 0) /\ (skew s <> 0 -> 0 < a * skew s) /\
       ochi_variance_equation a (sigma2 p) /\ ochi_skewness_equation a (sigma2 p) (skew s) /\
       (skew s <> 0 -> exists m, ochi_mean_equation a (sigma2 p) m /\ mean2 p = a / 2 * m /\ (forall m', ochi_mean_equation a (sigma2 p) m' -> Rabs m <= Rabs m')).
Proof. exact par_ok. Qed.
Print Assumptions c59_equations.
Theorem c59_mean_refuted : forall brentq s p, finds_root brentq (skew s) -> skew s <> 0 -> par_from_stats brentq s = Ok p -> ~ ochi_mean_equation (gam_b p / 3) (sigma2 p) (mean2 p).
Proof. exact mean_equation_fails. Qed.
Print Assumptions c59_mean_refuted.
Example c59_case : finds_root a_brentq 0.16 /\ finds_root a_brentq (-2.5) /\ exists p, par_from_stats a_brentq (Stats 1 2 (-2.5) 3 0 1) = Ok p.
Proof.
  assert (B1 : ochi_bracket 0.16) by (unfold ochi_bracket; rewrite Rabs_pos_eq; lra). assert (B2 : ochi_bracket (-2.5)) by (unfold ochi_bracket; rewrite Rabs_left; lra).
  split; [apply a_brentq_ok; auto|]. split; [apply a_brentq_ok; auto|].
  destruct (par_cases a_brentq (Stats 1 2 (-2.5) 3 0 1) (or_introl (a_brentq_ok _ B2))) as [_ C]. destruct (C (proj2 B2)) as (p & Hp & _). exists p. exact Hp.
Qed.

(* ---- C60: the Hermite model ---- *)
(* when the constructor sets no limit both directions are total, inverse to each other, strictly increasing and the documented polynomial *)
Theorem c60_inverse : forall eps pardef s h, 0 < eps -> sigma s <> 0 -> ysigma s <> 0 -> hermite_init eps pardef s = Ok h -> x_limit h = None ->
  exists f g, (forall x, hermite_dat2gauss h x [] = Ok (map (fun v => Some (f v)) x)) /\ (forall y, hermite_gauss2dat h y [] = Ok (map (fun v => Some (g v)) y)) /\
    (forall x, g (f x) = x) /\ (forall y, f (g y) = y) /\ (0 < sigma s -> 0 < ysigma s -> strictly_increasing f /\ strictly_increasing g) /\
    exists c3 c4, parameters eps pardef s = Ok (c3, c4) /\
      (kurt s <= 3 -> forall x, f x = ymean s + ysigma s * hardening c3 c4 ((x - mean s) / sigma s)) /\
      (3 < kurt s -> forall y, g y = mean s + sigma s * softening c3 c4 ((y - ymean s) / ysigma s)).
Proof. exact hermite_spec. Qed.
Print Assumptions c60_inverse.
(* Cardano's formula gives the real root of any cubic with one critical-point-free branch *)
Theorem c60_cardano : forall A B C D x, A <> 0 -> B ^ 2 < 3 * A * C -> exists y, solve_third_order [A; B; C; D] x = Some y /\ polyval [A; B; C; D] y = x.
Proof. exact cardano. Qed.
Print Assumptions c60_cardano.
(* a model with a cubic term is accepted without a limit, and then strictly increasing, or the constructor raises TypeError *)
Theorem c60_accepted : forall eps pardef s c3 c4, 0 < eps -> parameters eps pardef s = Ok (c3, c4) -> c4 <> 0 ->
  (forall h, hermite_init eps pardef s = Ok h -> x_limit h = None /\ strictly_increasing (formula s c3 c4)) /\
  (~ strictly_increasing (formula s c3 c4) -> hermite_init eps pardef s = Err TypeError) /\
  ((exists h, hermite_init eps pardef s = Ok h) \/ hermite_init eps pardef s = Err TypeError).
Proof. exact init_cubic. Qed.
Print Assumptions c60_accepted.
Theorem c60_hardening_accepted : forall eps pardef s, 0 < eps <= 1 / 10 -> kurt s <= 3 -> let c3 := skew s / 6 in let c4 := (kurt s - 3) / 24 in
  sqrt eps <= - c4 -> (3 * c4 * eps) ^ 2 <= - 3 * c4 * (1 + 3 * c4) - c3 ^ 2 -> exists h, hermite_init eps pardef s = Ok h /\ x_limit h = None.
Proof. exact hardening_accepted. Qed.
Print Assumptions c60_hardening_accepted.
Example c60_case : exists h, hermite_init (1 / 1000000) 1 (Stats 1 2 0.16 2.5 0 1) = Ok h /\ x_limit h = None.
Proof.
  apply hardening_accepted; cbn [kurt skew]; try lra.
  replace (1 / 1000000) with ((1 / 1000) * (1 / 1000)) by lra. rewrite sqrt_square by lra. lra.
Qed.
(* the documented parameters *)
Theorem c60_hardening_parameters : forall eps pardef s, kurt s <= 3 -> parameters eps pardef s = Ok (skew s / 6, chop eps ((kurt s - 3) / 24)).
Proof. exact parameters_hardening. Qed.
Print Assumptions c60_hardening_parameters.
Theorem c60_parameters_1988 : forall eps s, 3 < kurt s -> parameters eps 2 s = Ok (c3_1988 (skew s) (kurt s - 3), chop eps (c4_1988 (kurt s - 3))).
Proof. exact parameters_1988. Qed.
Print Assumptions c60_parameters_1988.
Theorem c60_parameters_1994 : forall eps pardef s, pardef <> 2%Z -> 3 < kurt s ->
  (1.43 * skew s ^ 2 < kurt s - 3 -> parameters eps pardef s = Ok (c3_1994 (skew s) (kurt s - 3), chop eps (c4_1994 (skew s) (kurt s - 3)))) /\
  (kurt s - 3 < 1.43 * skew s ^ 2 -> 1 - 0.1 * Rpower (kurt s) 0.8 <> 0 -> parameters eps pardef s = Err ValueError).
Proof. exact parameters_1994. Qed.
Print Assumptions c60_parameters_1994.
(* the softening model has the mean and the variance it is built for *)
Theorem c60_moments : forall eps pardef s h, 0 < eps -> 3 < kurt s -> hermite_init eps pardef s = Ok h -> expect (rev (h_poly h)) 0 = 0 /\ expect_square (rev (h_poly h)) (rev (h_poly h)) 0 = 1.
Proof. exact softening_moments. Qed.
Print Assumptions c60_moments.
(* with a limit (vanishing cubic term): the solutions on the increasing branch *)
Theorem c60_quadratic : forall eps pardef s h x y, 0 < eps -> 3 < kurt s -> sigma s <> 0 -> ysigma s <> 0 -> hermite_init eps pardef s = Ok h -> x_limit h <> None -> hermite_dat2gauss h x [] = Ok y ->
  length y = length x /\ forall i, (i < length x)%nat -> forall v, nth i y None = Some v <->
    hermite_gauss2dat h [v] [] = Ok [Some (nth i x 0)] /\ (forall A B C, h_poly h = [A; B; C] -> 0 <= 2 * A * ((v - ymean s) / ysigma s) + B).
Proof. exact hermite_quadratic. Qed.
Print Assumptions c60_quadratic.
Theorem c60_derivatives : forall h x x1 xi, hermite_dat2gauss h x (x1 :: xi) = Err ValueError /\ hermite_gauss2dat h x (x1 :: xi) = Err ValueError.
Proof. exact hermite_derivatives. Qed.
Print Assumptions c60_derivatives.
(* only the ends of a record are compared with the limit *)
Theorem c60_folds_refuted : forall eps pardef s h x0, 0 < eps -> kurt s = 3 -> skew s <> 0 -> sigma s <> 0 -> hermite_init eps pardef s = Ok h -> x_limit h <> Some [x0] ->
  exists a b, a <> b /\ hermite_dat2gauss h [x0; a; x0] [] = hermite_dat2gauss h [x0; b; x0] [] /\ exists y, hermite_dat2gauss h [x0; a; x0] [] = Ok y.
Proof. exact hermite_folds. Qed.
Print Assumptions c60_folds_refuted.
(* and the limit of the hardening model is not in the units of the record *)
Theorem c60_limit_refuted : forall eps pardef, 0 < eps -> let s := Stats 3 1 1 3 0 1 in exists h, hermite_init eps pardef s = Ok h /\ hermite_dat2gauss h [3; 3.5] [] = Err ValueError /\
  (forall a b, a < b <= 3 -> polyval (h_poly h) a < polyval (h_poly h) b) /\ (3.5 - mean s) / sigma s < 3.
Proof. exact hermite_refuses. Qed.
Print Assumptions c60_limit_refuted.
