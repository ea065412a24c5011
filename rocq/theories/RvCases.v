From Coq Require Import Reals Lra Lia Psatz.
From Coquelicot Require Import Coquelicot.
From Verif Require Import RvModel RvSpec RvProofs RvProofs2 RvProofs3 RvProofs4 RvProofs5.
Local Open Scope R_scope.

Lemma median_case : ppf expon (1 / 2) = ln 2 /\ is_RInt (pdf expon) (ln 2) (2 * ln 2) (1 / 4).
Proof.
  assert (L : 0 < ln 2) by (apply ln_gt0; lra). assert (E2 : exp (- ln 2) = / 2) by (rewrite exp_Ropp, exp_ln by lra; reflexivity). split.
  - cbn. unfold log1p. replace (1 + - (1 / 2)) with (/ 2) by field. rewrite ln_Rinv by lra. ring.
  - replace (1 / 4) with (cdf expon (2 * ln 2) - cdf expon (ln 2)).
    + apply interval_mass; [apply expon_coherent|unfold inside; cbn; lra|unfold inside; cbn; lra|lra|]. intros. apply expon_continuous.
    + cbn. unfold expm1. replace (- (2 * ln 2)) with (- ln 2 + - ln 2) by ring. rewrite exp_plus, E2. field.
Qed.
Lemma bounded_tail_case : coherent (genpareto (- 1 / 2)) /\ high (genpareto (- 1 / 2)) <> None /\ inside (genpareto (- 1 / 2)) 1 /\ ~ inside (genpareto (- 1 / 2)) 2.
Proof.
  split; [apply genpareto_coherent|]. unfold inside. cbn. destruct (Rlt_dec (- 1 / 2) 0); [|lra]. replace (- 1 / (- 1 / 2)) with 2 by field. repeat split; try discriminate; lra.
Qed.
Lemma parameters_case : coherent (weibull_min 2) /\ coherent (weibull_max 2) /\ coherent (exponweib 2 3) /\ coherent (exponpow 3) /\ coherent (gompertz 2) /\ coherent (invweibull 2) /\ coherent (genlogistic 2) /\ coherent (genextreme (- 1 / 4)) /\ coherent (genextreme 0) /\ coherent (pareto 3) /\ coherent (lomax 3) /\ coherent (burr 2 3) /\ coherent (fisk 2) /\ coherent (burr12 2 3) /\ coherent (mielke 2 3) /\ coherent (kappa3 2) /\ coherent (powerlaw 2) /\ coherent (truncrayleigh 1) /\ coherent (reciprocal 1 10) /\ coherent (truncexpon 5) /\ coherent (bradford 2) /\ coherent (genhalflogistic (1 / 2)) /\ coherent (loglaplace 3) /\ coherent (triang 0) /\ coherent (triang (1 / 3)) /\ coherent (triang 1) /\ coherent (trapz 0 1) /\ coherent (trapz (1 / 4) (1 / 2)).
Proof.
  repeat match goal with |- _ /\ _ => split end; (apply weibull_min_coherent || apply weibull_max_coherent || apply exponweib_coherent || apply exponpow_coherent || apply gompertz_coherent || apply invweibull_coherent || apply genlogistic_coherent || apply genextreme_coherent || apply pareto_coherent || apply lomax_coherent || apply fisk_coherent || apply burr_coherent || apply burr12_coherent || apply mielke_coherent || apply kappa3_coherent || apply powerlaw_coherent || apply truncrayleigh_coherent || apply reciprocal_coherent || apply truncexpon_coherent || apply bradford_coherent || apply genhalflogistic_coherent || apply loglaplace_coherent || apply triang_coherent || apply trapz_coherent); lra.
Qed.
