(* Theorems about sum and difference frequency effects (C162). *)
From Coq Require Import Reals List Arith ZArith Lra.
From Coquelicot Require Import Coquelicot.
From Verif Require Import Base DisuModel DisuSpec DisuProofs2 DisuProofs3 DisuProofs4 DisuProofs5.
Import ListNotations.
Local Open Scope R_scope.

(* disufq. *)

Theorem c162_terms : forall rA iA w kw h g nmin nmax m n, (2 * (nmax - 1) < n)%nat ->
  exists v, disufq rA iA w kw h g nmin nmax m n = Ok v /\ List.length v = (n * m)%nat /\
  forall k i, (i < m)%nat ->
    nth (k * m + i) v (RtoC 0) = second_order (case_of rA iA m i) (plus_part w kw h g) (minus_part w kw h g) (nmin - 1) nmax k.
Proof. exact (disufq_terms). Qed.
Print Assumptions c162_terms.

Example c162_case : disufq [0; 1; 2; 0; 0] [0; 0; 1; 0; 0] [0; 1; 2] [0; 1; 4] 20000 1 2 3 1 5 =
  Ok [RtoC 0; (-12, -6); (2, 0); (20, 10); (24, 32)].
Proof. exact (disufq_case). Qed.

Theorem c162_cases : forall rA iA w kw h g nmin nmax m n i, (2 * (nmax - 1) < n)%nat -> (i < m)%nat ->
  exists v u, disufq rA iA w kw h g nmin nmax m n = Ok v /\ disufq (one_case rA m n i) (one_case iA m n i) w kw h g nmin nmax 1 n = Ok u /\
    forall k, (k < n)%nat -> nth k u (RtoC 0) = nth (k * m + i) v (RtoC 0).
Proof. exact (disufq_cases). Qed.
Print Assumptions c162_cases.

Theorem c162_scale : forall c rA iA w kw h g nmin nmax m n, (2 * (nmax - 1) < n)%nat ->
  exists v u, disufq rA iA w kw h g nmin nmax m n = Ok v /\ disufq (map (Rmult c) rA) (map (Rmult c) iA) w kw h g nmin nmax m n = Ok u /\
    forall p, (p < n * m)%nat -> nth p u (RtoC 0) = Cmult (RtoC (c * c)) (nth p v (RtoC 0)).
Proof. exact (disufq_scale). Qed.
Print Assumptions c162_scale.

Theorem c162_outside : forall rA iA w kw h g nmin nmax m n, (1 <= m)%nat -> (nmin - 1 < nmax)%nat -> (n <= 2 * (nmax - 1))%nat ->
  disufq rA iA w kw h g nmin nmax m n = Err MemoryError.
Proof. exact (disufq_outside). Qed.
Print Assumptions c162_outside.

Theorem c162_all_frequencies_refuted : ~ (forall rA iA w kw h g nmin nmax m n, List.length rA = (n * m)%nat -> List.length iA = (n * m)%nat ->
  List.length w = (n / 2 + 1)%nat -> List.length kw = (n / 2 + 1)%nat -> (1 <= nmin)%nat -> (nmax <= n / 2 + 1)%nat ->
  exists v, disufq rA iA w kw h g nmin nmax m n = Ok v).
Proof. exact (disufq_all_frequencies). Qed.
Print Assumptions c162_all_frequencies_refuted.

(* Transfer functions. *)

Theorem c162_deep_water : forall w1 w2 h g, 0 < w1 -> 0 < w2 -> 0 < g ->
  finite_Ep1 w1 (w1 ^ 2 / g) h g = deep_Ep1 (w1 ^ 2 / g) /\ finite_Ep2 w1 (w1 ^ 2 / g) w2 (w2 ^ 2 / g) h g = deep_Ep2 (w1 ^ 2 / g) (w2 ^ 2 / g).
Proof. exact (plus_agree). Qed.
Print Assumptions c162_deep_water.

Theorem c162_deep_water_limit : forall w1 w2 g, 0 < w1 < w2 -> 0 < g ->
  is_lim (fun h => finite_Ed2 w1 (w1 ^ 2 / g) w2 (w2 ^ 2 / g) h g) p_infty (deep_Ed2 (w1 ^ 2 / g) (w2 ^ 2 / g)).
Proof. exact (minus_limit). Qed.
Print Assumptions c162_deep_water_limit.

Example c162_limit_case : 0 < 1 < 2 /\ deep_Ed2 (1 ^ 2 / 1) (2 ^ 2 / 1) = - (3 / 2).
Proof. unfold deep_Ed2. split; [split|]; lra. Qed.

Theorem c162_mean_level_limit : forall w g, 0 < w -> 0 < g -> is_lim (fun h => finite_Ed1 w (w ^ 2 / g) h g) p_infty 0.
Proof. exact (own_limit). Qed.
Print Assumptions c162_mean_level_limit.

Theorem c162_transfer_functions : forall w1 k1 w2 k2 h g, 0 < w1 -> 0 < w2 -> 0 < k1 -> 0 < g ->
  finite_Ep2 w1 k1 w2 k2 h g = quadratic w1 k1 w2 k2 h g /\ finite_Ep1 w1 k1 h g = quadratic w1 k1 w1 k1 h g /\
  (w1 <> w2 -> finite_Ed2 w1 k1 w2 k2 h g = quadratic w1 k1 (- w2) (- k2) h g) /\ finite_Ed1 w1 k1 h g = mean_level w1 k1 h g.
Proof. exact (transfer). Qed.
Print Assumptions c162_transfer_functions.
