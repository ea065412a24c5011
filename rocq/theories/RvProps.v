(* The methods of the continuous distributions with closed forms agree with each other *)
From Coq Require Import Reals.
From Coquelicot Require Import Coquelicot.
From Verif Require Import RvModel RvSpec RvProofs RvProofs2 RvProofs3 RvProofs4 RvProofs5 RvCases.
Local Open Scope R_scope.

(* Every coherent distribution: increasing cdf and ppf, all of the mass inside the support, probabilities are integrals of the density. *)

Theorem c130_increasing : forall d x y, coherent d -> inside d x -> inside d y -> (x < y <-> cdf d x < cdf d y).
Proof. exact (cdf_increasing). Qed.
Print Assumptions c130_increasing.

Theorem c130_quantiles_increasing : forall d p q, coherent d -> 0 < p < 1 -> 0 < q < 1 -> (p < q <-> ppf d p < ppf d q).
Proof. exact (ppf_increasing). Qed.
Print Assumptions c130_quantiles_increasing.

Theorem c130_whole_mass : forall d e, coherent d -> 0 < e < 1 -> exists a b, inside d a /\ inside d b /\ (forall x, inside d x -> x < a -> cdf d x < e) /\ (forall x, inside d x -> b < x -> 1 - e < cdf d x).
Proof. exact (whole_mass). Qed.
Print Assumptions c130_whole_mass.

Theorem c130_interval : forall d a b, coherent d -> inside d a -> inside d b -> a <= b -> (forall x, a <= x <= b -> continuous (pdf d) x) -> is_RInt (pdf d) a b (cdf d b - cdf d a).
Proof. exact (interval_mass). Qed.
Print Assumptions c130_interval.

Example c130_interval_case : ppf expon (1 / 2) = ln 2 /\ is_RInt (pdf expon) (ln 2) (2 * ln 2) (1 / 4).
Proof. exact (median_case). Qed.

(* The distributions. *)

Theorem c130_expon : coherent expon.
Proof. exact (expon_coherent). Qed.
Print Assumptions c130_expon.

Theorem c130_weibull_min : forall c, 0 < c -> coherent (weibull_min c).
Proof. exact (weibull_min_coherent). Qed.
Print Assumptions c130_weibull_min.

Theorem c130_weibull_max : forall c, 0 < c -> coherent (weibull_max c).
Proof. exact (weibull_max_coherent). Qed.
Print Assumptions c130_weibull_max.

Theorem c130_exponweib : forall a c, 0 < a -> 0 < c -> coherent (exponweib a c).
Proof. exact (exponweib_coherent). Qed.
Print Assumptions c130_exponweib.

Theorem c130_exponpow : forall b, 0 < b -> coherent (exponpow b).
Proof. exact (exponpow_coherent). Qed.
Print Assumptions c130_exponpow.

Theorem c130_gompertz : forall c, 0 < c -> coherent (gompertz c).
Proof. exact (gompertz_coherent). Qed.
Print Assumptions c130_gompertz.

Theorem c130_gumbel_r : coherent gumbel_r.
Proof. exact (gumbel_r_coherent). Qed.
Print Assumptions c130_gumbel_r.

Theorem c130_gumbel_l : coherent gumbel_l.
Proof. exact (gumbel_l_coherent). Qed.
Print Assumptions c130_gumbel_l.

Theorem c130_invweibull : forall c, 0 < c -> coherent (invweibull c).
Proof. exact (invweibull_coherent). Qed.
Print Assumptions c130_invweibull.

Theorem c130_genlogistic : forall c, 0 < c -> coherent (genlogistic c).
Proof. exact (genlogistic_coherent). Qed.
Print Assumptions c130_genlogistic.

Theorem c130_logistic : coherent logistic.
Proof. exact (logistic_coherent). Qed.
Print Assumptions c130_logistic.

Theorem c130_genpareto : forall c, coherent (genpareto c).
Proof. exact (genpareto_coherent). Qed.
Print Assumptions c130_genpareto.

Example c130_genpareto_case : coherent (genpareto (- 1 / 2)) /\ high (genpareto (- 1 / 2)) <> None /\ inside (genpareto (- 1 / 2)) 1 /\ ~ inside (genpareto (- 1 / 2)) 2.
Proof. exact (bounded_tail_case). Qed.

Theorem c130_genextreme : forall c, coherent (genextreme c).
Proof. exact (genextreme_coherent). Qed.
Print Assumptions c130_genextreme.

Theorem c130_pareto : forall b, 0 < b -> coherent (pareto b).
Proof. exact (pareto_coherent). Qed.
Print Assumptions c130_pareto.

Theorem c130_lomax : forall c, 0 < c -> coherent (lomax c).
Proof. exact (lomax_coherent). Qed.
Print Assumptions c130_lomax.

Theorem c130_burr : forall c d, 0 < c -> 0 < d -> coherent (burr c d).
Proof. exact (burr_coherent). Qed.
Print Assumptions c130_burr.

Theorem c130_fisk : forall c, 0 < c -> coherent (fisk c).
Proof. exact (fisk_coherent). Qed.
Print Assumptions c130_fisk.

Theorem c130_burr12 : forall c d, 0 < c -> 0 < d -> coherent (burr12 c d).
Proof. exact (burr12_coherent). Qed.
Print Assumptions c130_burr12.

Theorem c130_mielke : forall k s, 0 < k -> 0 < s -> coherent (mielke k s).
Proof. exact (mielke_coherent). Qed.
Print Assumptions c130_mielke.

Theorem c130_kappa3 : forall a, 0 < a -> coherent (kappa3 a).
Proof. exact (kappa3_coherent). Qed.
Print Assumptions c130_kappa3.

Theorem c130_powerlaw : forall a, 0 < a -> coherent (powerlaw a).
Proof. exact (powerlaw_coherent). Qed.
Print Assumptions c130_powerlaw.

Theorem c130_uniform : coherent uniform.
Proof. exact (uniform_coherent). Qed.
Print Assumptions c130_uniform.

Theorem c130_rayleigh : coherent rayleigh.
Proof. exact (rayleigh_coherent). Qed.
Print Assumptions c130_rayleigh.

Theorem c130_truncrayleigh : forall c, 0 <= c -> coherent (truncrayleigh c).
Proof. exact (truncrayleigh_coherent). Qed.
Print Assumptions c130_truncrayleigh.

Theorem c130_reciprocal : forall a b, 0 < a < b -> coherent (reciprocal a b).
Proof. exact (reciprocal_coherent). Qed.
Print Assumptions c130_reciprocal.

Theorem c130_truncexpon : forall b, 0 < b -> coherent (truncexpon b).
Proof. exact (truncexpon_coherent). Qed.
Print Assumptions c130_truncexpon.

Theorem c130_bradford : forall c, 0 < c -> coherent (bradford c).
Proof. exact (bradford_coherent). Qed.
Print Assumptions c130_bradford.

Theorem c130_genhalflogistic : forall c, 0 < c -> coherent (genhalflogistic c).
Proof. exact (genhalflogistic_coherent). Qed.
Print Assumptions c130_genhalflogistic.

Theorem c130_halflogistic : coherent halflogistic.
Proof. exact (halflogistic_coherent). Qed.
Print Assumptions c130_halflogistic.

Theorem c130_cauchy : coherent cauchy.
Proof. exact (cauchy_coherent). Qed.
Print Assumptions c130_cauchy.

Theorem c130_halfcauchy : coherent halfcauchy.
Proof. exact (halfcauchy_coherent). Qed.
Print Assumptions c130_halfcauchy.

Theorem c130_hypsecant : coherent hypsecant.
Proof. exact (hypsecant_coherent). Qed.
Print Assumptions c130_hypsecant.

Theorem c130_anglit : coherent anglit.
Proof. exact (anglit_coherent). Qed.
Print Assumptions c130_anglit.

Theorem c130_arcsine : coherent arcsine.
Proof. exact (arcsine_coherent). Qed.
Print Assumptions c130_arcsine.

Theorem c130_laplace : coherent laplace.
Proof. exact (laplace_coherent). Qed.
Print Assumptions c130_laplace.

Theorem c130_loglaplace : forall c, 0 < c -> coherent (loglaplace c).
Proof. exact (loglaplace_coherent). Qed.
Print Assumptions c130_loglaplace.

Theorem c130_triang : forall c, 0 <= c <= 1 -> coherent (triang c).
Proof. exact (triang_coherent). Qed.
Print Assumptions c130_triang.

Theorem c130_trapz : forall c d, 0 <= c <= d -> d <= 1 -> coherent (trapz c d).
Proof. exact (trapz_coherent). Qed.
Print Assumptions c130_trapz.

Example c130_parameters_case : coherent (weibull_min 2) /\ coherent (weibull_max 2) /\ coherent (exponweib 2 3) /\ coherent (exponpow 3) /\ coherent (gompertz 2) /\ coherent (invweibull 2) /\ coherent (genlogistic 2) /\ coherent (genextreme (- 1 / 4)) /\ coherent (genextreme 0) /\ coherent (pareto 3) /\ coherent (lomax 3) /\ coherent (burr 2 3) /\ coherent (fisk 2) /\ coherent (burr12 2 3) /\ coherent (mielke 2 3) /\ coherent (kappa3 2) /\ coherent (powerlaw 2) /\ coherent (truncrayleigh 1) /\ coherent (reciprocal 1 10) /\ coherent (truncexpon 5) /\ coherent (bradford 2) /\ coherent (genhalflogistic (1 / 2)) /\ coherent (loglaplace 3) /\ coherent (triang 0) /\ coherent (triang (1 / 3)) /\ coherent (triang 1) /\ coherent (trapz 0 1) /\ coherent (trapz (1 / 4) (1 / 2)).
Proof. exact (parameters_case). Qed.
