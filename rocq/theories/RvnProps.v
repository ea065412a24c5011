(* Distributions built from the normal distribution *)
From Coq Require Import Reals.
From Coquelicot Require Import Coquelicot.
From Verif Require Import RvModel RvSpec RvnModel RvnSpec RvnProofs RvnProofs2 RvnProofs3 RvnProofs4 RvnCases.
Local Open Scope R_scope.

(* The normal distribution: the error function family as scipy.special defines it. *)

Theorem c131_special : (forall x, is_derive ndtr x (exp (- x ^ 2 / 2) / sqrt (2 * PI))) /\ (forall x, 0 < ndtr x < 1) /\ (forall x, ndtr (- x) = 1 - ndtr x) /\ (forall q, 0 < q < 1 -> ndtr (ndtri q) = q) /\ (forall x, ndtri (ndtr x) = x) /\ (forall x, erfc (x / sqrt 2) = 2 * ndtr (- x)).
Proof. exact (special). Qed.
Print Assumptions c131_special.

(* Distributions with a quantile function. *)

Theorem c131_norm : coherent norm.
Proof. exact (norm_coherent). Qed.
Print Assumptions c131_norm.

Theorem c131_alpha : forall a, coherent (alpha a).
Proof. exact (alpha_coherent). Qed.
Print Assumptions c131_alpha.

Theorem c131_fatiguelife : forall c, 0 < c -> coherent (fatiguelife c).
Proof. exact (fatiguelife_coherent). Qed.
Print Assumptions c131_fatiguelife.

Theorem c131_halfnorm : coherent halfnorm.
Proof. exact (halfnorm_coherent). Qed.
Print Assumptions c131_halfnorm.

Theorem c131_johnsonsb : forall a b, 0 < b -> coherent (johnsonsb a b).
Proof. exact (johnsonsb_coherent). Qed.
Print Assumptions c131_johnsonsb.

Theorem c131_johnsonsu : forall a b, 0 < b -> coherent (johnsonsu a b).
Proof. exact (johnsonsu_coherent). Qed.
Print Assumptions c131_johnsonsu.

Theorem c131_levy : coherent levy.
Proof. exact (levy_coherent). Qed.
Print Assumptions c131_levy.

Theorem c131_levy_l : coherent levy_l.
Proof. exact (levy_l_coherent). Qed.
Print Assumptions c131_levy_l.

Theorem c131_lognorm : forall s, 0 < s -> coherent (lognorm s).
Proof. exact (lognorm_coherent). Qed.
Print Assumptions c131_lognorm.

Theorem c131_gilbrat : coherent gilbrat.
Proof. exact (gilbrat_coherent). Qed.
Print Assumptions c131_gilbrat.

Theorem c131_powernorm : forall c, 0 < c -> coherent (powernorm c).
Proof. exact (powernorm_coherent). Qed.
Print Assumptions c131_powernorm.

Theorem c131_powerlognorm : forall c s, 0 < c -> 0 < s -> coherent (powerlognorm c s).
Proof. exact (powerlognorm_coherent). Qed.
Print Assumptions c131_powerlognorm.

Theorem c131_truncnorm : forall tail a b, a < b -> (truncnorm_delta a b <= 0 -> forall q, 0 < q < 1 -> a < tail q < b /\ truncnorm_cdf a b (tail q) = q) -> coherent (truncnorm tail a b).
Proof. exact (truncnorm_coherent). Qed.
Print Assumptions c131_truncnorm.

Theorem c131_truncnorm_central : forall tail a b, a < b -> a <= 30 -> -30 <= b -> coherent (truncnorm tail a b).
Proof. exact (truncnorm_central). Qed.
Print Assumptions c131_truncnorm_central.

Example c131_truncnorm_case : forall a b, a < b -> exists tail, coherent (truncnorm tail a b).
Proof. exact (tail_case). Qed.

Example c131_far_case : truncnorm_delta 40 50 = 0 /\ truncnorm_cdf 40 50 45 = (ndtr 45 - ndtr 40) / (ndtr 50 - ndtr 40).
Proof. exact (far_case). Qed.

Theorem c131_crystalball : forall beta m, 0 < beta -> 1 < m -> coherent (crystalball beta m).
Proof. exact (crystalball_coherent). Qed.
Print Assumptions c131_crystalball.

Example c131_normal_case : coherent (alpha 2) /\ coherent (fatiguelife 3) /\ coherent (johnsonsb (-1) 2) /\ coherent (johnsonsu 1 2) /\ coherent (lognorm (1 / 2)) /\ coherent (powernorm 4) /\ coherent (powerlognorm 2 3) /\ coherent (crystalball 2 3) /\ cdf norm 0 = / 2 /\ cdf (lognorm (1 / 2)) 1 = / 2.
Proof. exact (normal_case). Qed.

(* Distributions without one. *)

Theorem c131_foldnorm_density : forall c, has_density (fun _ => True) (foldnorm_pdf c) (foldnorm_cdf c).
Proof. exact (foldnorm_density). Qed.
Print Assumptions c131_foldnorm_density.

Theorem c131_foldnorm_values : forall c x, 0 < x -> 0 < foldnorm_cdf c x < 1.
Proof. exact (foldnorm_values). Qed.
Print Assumptions c131_foldnorm_values.

Theorem c131_exponnorm_density : forall K, 0 < K -> has_density (fun _ => True) (exponnorm_pdf K) (exponnorm_cdf K).
Proof. exact (exponnorm_density). Qed.
Print Assumptions c131_exponnorm_density.

Theorem c131_exponnorm_others : forall K x, 0 < K -> exp (exponnorm_logpdf K x) = exponnorm_pdf K x /\ exponnorm_sf K x = 1 - exponnorm_cdf K x /\ exponnorm_cdf K x < 1.
Proof. exact (exponnorm_others). Qed.
Print Assumptions c131_exponnorm_others.

Theorem c131_invgauss_density : forall mu, 0 < mu -> has_density (fun x => 0 < x) (invgauss_pdf mu) (invgauss_cdf mu).
Proof. exact (invgauss_density). Qed.
Print Assumptions c131_invgauss_density.

Theorem c131_invgauss_log : forall mu x, 0 < mu -> 0 < x -> exp (invgauss_logpdf mu x) = invgauss_pdf mu x.
Proof. exact (invgauss_log). Qed.
Print Assumptions c131_invgauss_log.

Theorem c131_recipinvgauss_density : forall mu, 0 < mu -> has_density (fun x => 0 < x) (recipinvgauss_pdf mu) (recipinvgauss_cdf mu).
Proof. exact (recipinvgauss_density). Qed.
Print Assumptions c131_recipinvgauss_density.

Theorem c131_recipinvgauss_log : forall mu x, 0 < mu -> 0 < x -> exp (recipinvgauss_logpdf mu x) = recipinvgauss_pdf mu x.
Proof. exact (recipinvgauss_log). Qed.
Print Assumptions c131_recipinvgauss_log.

Example c131_density_case : 0 < foldnorm_pdf 2 1 /\ 0 < exponnorm_pdf 2 1 /\ 0 < invgauss_pdf 2 1 /\ 0 < recipinvgauss_pdf 2 1.
Proof. exact (density_case). Qed.
