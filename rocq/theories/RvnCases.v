From Coq Require Import Reals Lra Lia Psatz.
From Coquelicot Require Import Coquelicot.
From Verif Require Import RvModel RvSpec RvProofs RvProofs2 RvProofs3 RvnModel RvnSpec RvnProofs RvnProofs2 RvnProofs3 RvnProofs4.
Local Open Scope R_scope.

Lemma normal_case : coherent (alpha 2) /\ coherent (fatiguelife 3) /\ coherent (johnsonsb (-1) 2) /\ coherent (johnsonsu 1 2) /\ coherent (lognorm (1 / 2)) /\ coherent (powernorm 4) /\ coherent (powerlognorm 2 3) /\ coherent (crystalball 2 3) /\ cdf norm 0 = / 2 /\ cdf (lognorm (1 / 2)) 1 = / 2.
Proof.
  repeat match goal with |- _ /\ _ => split end; try (apply alpha_coherent); try (apply fatiguelife_coherent; lra); try (apply johnsonsb_coherent; lra); try (apply johnsonsu_coherent; lra); try (apply lognorm_coherent; lra); try (apply powernorm_coherent; lra); try (apply powerlognorm_coherent; lra); try (apply crystalball_coherent; lra); cbn; unfold norm_cdf.
  - apply ndtr_0.
  - rewrite ln_1. unfold Rdiv. rewrite Rmult_0_l. apply ndtr_0.
Qed.
(* far tails: an exact solver exists *)
Lemma tail_case a b : a < b -> exists tail, coherent (truncnorm tail a b).
Proof.
  intros L. assert (L' := L). apply ndtr_increasing in L'. pose proof (ndtr_values a). pose proof (ndtr_values b). exists (fun q => ndtri (ndtr a + q * (ndtr b - ndtr a))). apply truncnorm_coherent; [exact L|]. intros _ q Hq. pose proof (ndtr_ndtri (ndtr a + q * (ndtr b - ndtr a)) ltac:(nra)) as E.
  assert (B : a < ndtri (ndtr a + q * (ndtr b - ndtr a)) < b) by (split; apply ndtr_iff; rewrite E; nra). split; [exact B|]. rewrite truncnorm_cdf_eq, E by exact B. field. lra.
Qed.
Lemma far_case : truncnorm_delta 40 50 = 0 /\ truncnorm_cdf 40 50 45 = (ndtr 45 - ndtr 40) / (ndtr 50 - ndtr 40).
Proof. split; [|apply truncnorm_cdf_eq; lra]. unfold truncnorm_delta. destruct (Rlt_dec TAIL_X 40) as [_|N]; [reflexivity|]. exfalso. apply N. unfold TAIL_X. lra. Qed.
Lemma density_case : 0 < foldnorm_pdf 2 1 /\ 0 < exponnorm_pdf 2 1 /\ 0 < invgauss_pdf 2 1 /\ 0 < recipinvgauss_pdf 2 1.
Proof. split; [now apply (foldnorm_density 2 1)|]. split; [apply (exponnorm_density 2 ltac:(lra) 1 I)|]. split; [apply (invgauss_density 2 ltac:(lra) 1); lra|apply (recipinvgauss_density 2 ltac:(lra) 1); lra]. Qed.
(* the special functions are what their names say *)
Lemma special : (forall x, is_derive ndtr x (exp (- x ^ 2 / 2) / sqrt (2 * PI))) /\ (forall x, 0 < ndtr x < 1) /\ (forall x, ndtr (- x) = 1 - ndtr x) /\ (forall q, 0 < q < 1 -> ndtr (ndtri q) = q) /\ (forall x, ndtri (ndtr x) = x) /\ (forall x, erfc (x / sqrt 2) = 2 * ndtr (- x)).
Proof. split; [exact ndtr_derive|]. split; [exact ndtr_values|]. split; [exact ndtr_neg|]. split; [exact ndtr_ndtri|]. split; [exact ndtri_ndtr|exact erfc_ndtr]. Qed.
