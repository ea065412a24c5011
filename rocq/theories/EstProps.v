(* Theorems about covariances, intervals, p-values and densities of fitted distributions (C150). *)
From Coq Require Import Reals ZArith List Bool.
From Verif Require Import Base KdeModel ProcModel PolyModel HistModel HistSpec ArSpec EstModel EstSpec EstProofs EstProofs2 EstProofs3 EstProofs4 EstCases.
Import ListNotations.
Local Open Scope R_scope.

(* The matrix of second derivatives of the fitted function. *)

Theorem c150_hessian : forall f theta d K A, 0 < d -> symmetric (List.length theta) A -> nearly_quadratic f theta d K A ->
  exists B, is_matrix (List.length theta) (hessian f theta (Some d)) B /\
    forall i j, (i < List.length theta)%nat -> (j < List.length theta)%nat -> Rabs (B i j + A i j) <= (if (i =? j)%nat then 4 else 1) * K / d ^ 2.
Proof. exact (hessian_near). Qed.
Print Assumptions c150_hessian.

Theorem c150_symmetric : forall f theta eps, exists B, is_matrix (List.length theta) (hessian f theta eps) B /\ symmetric (List.length theta) B.
Proof. exact (hessian_symmetric). Qed.
Print Assumptions c150_symmetric.

(* The covariances: zero for fixed parameters, for the others the inverse of the curvature. *)

Theorem c150_covariance : forall pinv f par fixedn free, (forall i, In i fixedn -> (i < List.length par)%nat) -> free_of (List.length par) fixedn free ->
  exists H cov, is_matrix (List.length par) (hessian f par None) H /\ compute_cov pinv f par (Some fixedn) = Ok cov /\
    (forall i j, (i < List.length par)%nat -> (j < List.length par)%nat -> In i fixedn \/ In j fixedn -> nth j (nth i cov []) 0 = 0) /\
    forall B, inverts (List.length free) pinv -> inverse_of (List.length free) (fun r c => - H (nth r free 0%nat) (nth c free 0%nat)) B ->
      forall r c, (r < List.length free)%nat -> (c < List.length free)%nat -> nth (nth c free 0%nat) (nth (nth r free 0%nat) cov []) 0 = B r c.
Proof. exact (covariance_ok). Qed.
Print Assumptions c150_covariance.

Theorem c150_quadratic : forall pinv f par fixedn free A B, (forall i, In i fixedn -> (i < List.length par)%nat) -> free_of (List.length par) fixedn free ->
  symmetric (List.length par) A -> nearly_quadratic f par (/ 2 ^ 13) 0 A -> inverts (List.length free) pinv ->
  inverse_of (List.length free) (fun r c => A (nth r free 0%nat) (nth c free 0%nat)) B ->
  exists cov, compute_cov pinv f par (Some fixedn) = Ok cov /\
    (forall i j, (i < List.length par)%nat -> (j < List.length par)%nat -> In i fixedn \/ In j fixedn -> nth j (nth i cov []) 0 = 0) /\
    forall r c, (r < List.length free)%nat -> (c < List.length free)%nat -> nth (nth c free 0%nat) (nth (nth r free 0%nat) cov []) 0 = B r c.
Proof. exact (covariance_quadratic). Qed.
Print Assumptions c150_quadratic.

Theorem c150_errors : forall pinv f par fixedn, compute_cov pinv f par None = Err TypeError /\
  ((exists i, In i fixedn /\ (List.length par <= i)%nat) -> compute_cov pinv f par (Some fixedn) = Err IndexError).
Proof. exact (covariance_errors). Qed.
Print Assumptions c150_errors.

Example c150_case : exists cov, compute_cov inverse2 demo [1; 2; 3] (Some [2%nat]) = Ok cov /\
  nth 0 (nth 0 cov []) 0 = 2 / 3 /\ nth 1 (nth 0 cov []) 0 = - 1 / 3 /\ nth 1 (nth 1 cov []) 0 = 2 / 3 /\ nth 2 (nth 2 cov []) 0 = 0 /\ nth 2 (nth 0 cov []) 0 = 0.
Proof. exact (cov_case). Qed.

Example c150_solver_case : inverts 2 inverse2.
Proof. exact (inverse2_ok). Qed.

Example c150_function_case : nearly_quadratic demo [1; 2; 3] (/ 2 ^ 13) 0 demo_A.
Proof. exact (demo_quadratic). Qed.

(* The confidence intervals. *)

Theorem c150_interval : forall Phi ppf alpha par cov i, quantiles Phi ppf -> 0 < alpha < 1 -> List.length cov = List.length par -> (i < List.length par)%nat ->
  let v := nth i (nth i cov []) 0 in let m := nth i par 0 in
  0 <= v -> exists lo hi, nth i (fst (confidence_interval ppf alpha par cov)) None = Some lo /\ nth i (snd (confidence_interval ppf alpha par cov)) None = Some hi /\
    m - lo = hi - m /\ (v = 0 -> lo = m /\ hi = m) /\ (0 < v -> lo < m < hi /\ Phi ((hi - m) / sqrt v) - Phi ((lo - m) / sqrt v) = 1 - alpha).
Proof. exact (interval_ok). Qed.
Print Assumptions c150_interval.

Theorem c150_nested : forall Phi ppf a1 a2 par cov i lo1 hi1 lo2 hi2, quantiles Phi ppf -> 0 < a1 -> a1 < a2 -> a2 < 1 -> List.length cov = List.length par -> (i < List.length par)%nat ->
  nth i (fst (confidence_interval ppf a1 par cov)) None = Some lo1 -> nth i (snd (confidence_interval ppf a1 par cov)) None = Some hi1 ->
  nth i (fst (confidence_interval ppf a2 par cov)) None = Some lo2 -> nth i (snd (confidence_interval ppf a2 par cov)) None = Some hi2 -> lo1 <= lo2 /\ hi2 <= hi1.
Proof. exact (interval_nested). Qed.
Print Assumptions c150_nested.

Theorem c150_nan : forall ppf alpha par cov i, List.length cov = List.length par -> (i < List.length par)%nat -> nth i (nth i cov []) 0 < 0 ->
  nth i (fst (confidence_interval ppf alpha par cov)) None = None /\ nth i (snd (confidence_interval ppf alpha par cov)) None = None.
Proof. exact (interval_nan). Qed.
Print Assumptions c150_nan.

Theorem c150_fixed : forall pinv f ppf alpha par fixedn i, (forall k, In k fixedn -> (k < List.length par)%nat) -> In i fixedn ->
  exists cov, compute_cov pinv f par (Some fixedn) = Ok cov /\ (List.length cov = List.length par ->
    nth i (fst (confidence_interval ppf alpha par cov)) None = Some (nth i par 0) /\ nth i (snd (confidence_interval ppf alpha par cov)) None = Some (nth i par 0)).
Proof. exact (fixed_interval). Qed.
Print Assumptions c150_fixed.

Example c150_quantiles_case : quantiles logistic (fun p => ln (p / (1 - p))).
Proof. exact (logistic_case). Qed.

(* The p-value of Moran's statistic. *)

Theorem c150_pvalue : forall chi2sf n k z theta, (1 <= n)%nat ->
  pvalue chi2sf (spacings_mean (n + 1) - INR k / 2 + z * sqrt (spacings_var (n + 1))) n theta (Some k) = Ok (chi2sf (INR n + z * sqrt (2 * INR n)) n).
Proof. exact (pvalue_moments). Qed.
Print Assumptions c150_pvalue.

Theorem c150_pvalue_order : forall chi2sf t1 t2 n k1 k2 theta, (1 <= n)%nat -> (forall x y m, x <= y -> chi2sf y m <= chi2sf x m) -> t1 <= t2 -> (k1 <= k2)%nat ->
  exists p1 p2, pvalue chi2sf t1 n theta (Some k1) = Ok p1 /\ pvalue chi2sf t2 n theta (Some k2) = Ok p2 /\ p2 <= p1.
Proof. exact (pvalue_monotone). Qed.
Print Assumptions c150_pvalue_order.

Theorem c150_pvalue_default : forall chi2sf t n theta, pvalue chi2sf t n theta None = pvalue chi2sf t n theta (Some (List.length theta)) /\ pvalue chi2sf t 0 theta None = Err ZeroDivision.
Proof. exact (pvalue_default). Qed.
Print Assumptions c150_pvalue_default.

(* The density plot. *)

Theorem c150_grid : forall x odd, (exists a b, In a x /\ In b x /\ a < b) ->
  let w := 2 * (maxR x - minR x) / IZR (ceil (4 * sqrt (sqrt (INR (List.length x))))) in let g := one_if odd / 2 in
  exists lo s K, get_grid x odd = Ok (ladder lo s K) /\ nice s /\ s <= w < 3 * s /\
    lo + (1 + g) * s <= minR x < lo + (2 + g) * s /\ lo + (INR K - g - 1) * s < maxR x <= lo + (INR K - g) * s.
Proof. exact (grid_ok). Qed.
Print Assumptions c150_grid.

Theorem c150_density : forall x, (exists a b, In a x /\ In b x /\ a < b) ->
  exists e h xx y, empirical_pdf x = Ok (xx, map Some y) /\ get_grid x false = Ok e /\ polygon e h xx (map Some y) /\ area xx y = 1 /\
    forall i, (i < List.length h)%nat -> weight_of (in_bin e i) x (repeat 1 (List.length x)) (nth i h 0 * (nth (i + 1) e 0 - nth i e 0) * INR (List.length x)).
Proof. exact (pdf_ok). Qed.
Print Assumptions c150_density.

Theorem c150_constant : forall odd x c, get_grid [] odd = Err ValueError /\ (x <> [] -> (forall v, In v x -> v = c) -> get_grid x odd = Err ValueError).
Proof. exact (grid_errors). Qed.
Print Assumptions c150_constant.

Example c150_grid_case : get_grid demo_x false = Ok [-2; 0; 2; 4; 6; 8; 10; 12; 14; 16; 18; 20; 22].
Proof. exact (grid_case). Qed.

Example c150_density_case : exists xx y, empirical_pdf demo_x = Ok (xx, map Some y) /\ area xx y = 1.
Proof. exact (pdf_case). Qed.
