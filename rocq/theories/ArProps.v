(* Theorems about the latent process of LevelCrossings.sim (C142). *)
From Coq Require Import Reals List.
From Coquelicot Require Import Coquelicot.
From Verif Require Import PolyModel ArModel ArSpec ArProofs ArProofs2.
Import ListNotations.
Local Open Scope R_scope.

(* For a stationary normal series the mean is crossed at a rate of acos(r1)/pi and extremes occur at a rate of acos(r)/pi, r the correlation of *)

(* successive increments: the irregularity factor is alpha. *)

Theorem c142_irregularity : forall alpha, 0 < alpha < 1 -> acos (cor1 alpha) = alpha * acos (increments (cor1 alpha) (cor2 alpha)) /\ -1 < cor1 alpha < 1 /\ -1 < increments (cor1 alpha) (cor2 alpha) < 1.
Proof. exact (irregularity). Qed.
Print Assumptions c142_irregularity.

(* The correlations are those of the stationary series with these coefficients and unit variance. *)

Theorem c142_yule_walker : forall alpha, 0 < alpha < 1 -> cor1 alpha = - coef1 alpha - coef2 alpha * cor1 alpha /\ cor2 alpha = - coef1 alpha * cor1 alpha - coef2 alpha /\
  1 = - coef1 alpha * cor1 alpha - coef2 alpha * cor2 alpha + innovation alpha /\ 0 < innovation alpha.
Proof. exact (yule_walker). Qed.
Print Assumptions c142_yule_walker.

Theorem c142_recursion : forall alpha ns d, (2 <= ns)%nat -> List.length (latent alpha ns d) = ns /\ nth 0 (latent alpha ns d) 0 = d ns /\
  forall k, (S (S k) < ns)%nat -> nth (S (S k)) (latent alpha ns d) 0 = d (S (S k)) * sqrt (innovation alpha) - coef1 alpha * nth (S k) (latent alpha ns d) 0 - coef2 alpha * nth k (latent alpha ns d) 0.
Proof. exact (latent_recursion). Qed.
Print Assumptions c142_recursion.

Theorem c142_linear : forall alpha ns, linear_in (ns + 2) (latent alpha ns).
Proof. exact (latent_linear). Qed.
Print Assumptions c142_linear.

(* The covariances; the second term is due to the start. *)

Theorem c142_covariance : forall alpha ns i j, 0 < alpha < 1 -> (i < ns)%nat -> (j < ns)%nat ->
  covariance (ns + 2) (latent alpha ns) i j = solution (coef1 alpha) (coef2 alpha) 1 (cor1 alpha) (distance i j) + (cor1 alpha ^ 2 - cor2 alpha ^ 2) * (solution (coef1 alpha) (coef2 alpha) 0 1 i * solution (coef1 alpha) (coef2 alpha) 0 1 j).
Proof. exact (latent_cov). Qed.
Print Assumptions c142_covariance.

(* It dies out. *)

Theorem c142_stationary_limit : forall alpha j, 0 < alpha < 1 -> is_lim_seq (fun i => covariance (i + j + 3) (latent alpha (i + j + 1)) i (i + j)) (solution (coef1 alpha) (coef2 alpha) 1 (cor1 alpha) j).
Proof. exact (latent_lim). Qed.
Print Assumptions c142_stationary_limit.

Theorem c142_start : forall alpha ns, 0 < alpha < 1 -> (2 <= ns)%nat -> covariance (ns + 2) (latent alpha ns) 0 0 = 1 /\ (forall k, (k < ns)%nat -> covariance (ns + 2) (latent alpha ns) 0 k = solution (coef1 alpha) (coef2 alpha) 1 (cor1 alpha) k) /\ covariance (ns + 2) (latent alpha ns) 1 1 = 1 + cor1 alpha ^ 2 - cor2 alpha ^ 2.
Proof. exact (latent_start). Qed.
Print Assumptions c142_start.

(* The second value does not have unit variance: sqrt(1 - r2^2) is used for sqrt(1 - r1^2). *)

Theorem c142_start_refuted : forall ns, (2 <= ns)%nat -> covariance (ns + 2) (latent (1 / 2) ns) 1 1 <> 1.
Proof. exact (start_wrong). Qed.
Print Assumptions c142_start_refuted.

Example c142_case : 0 < 1 / 2 < 1 /\ (2 <= 3)%nat /\ covariance (3 + 2) (latent (1 / 2) 3) 0 1 = cor1 (1 / 2).
Proof. exact (half_case). Qed.
