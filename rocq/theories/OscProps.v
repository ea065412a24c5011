(* Theorems about integrals of oscillating functions (C158). *)
From Coq Require Import Reals List Arith ZArith.
From Coquelicot Require Import Coquelicot.
From Verif Require Import Base ArSpec PolyModel KdeModel DftModel OscModel OscSpec OscProofs2 OscProofs4 OscProofs6 OscProofs7 OscCases.
Import ListNotations.
Local Open Scope R_scope.

(* Bases and solvers that meet the conditions below. *)

Theorem c158_bases : is_basis poly_basis /\ is_basis chebyshev_basis.
Proof. exact (bases). Qed.
Print Assumptions c158_bases.

Example c158_solver_case : exists ls, solves_systems ls.
Proof. exact (solver_exists). Qed.

(* Weights, and Levin's method on [-1, 1]. *)

Theorem c158_weights : forall ls B om g dg x c, solves_systems ls -> is_basis B -> phase g dg -> has_rule om g dg (-1) 1 x ->
  integral (oscillating om g (amplitude om dg (List.length x) c)) (-1) 1 (rule_value (fun i => nth i (evans_webster_weights ls B om g dg x) (RtoC 0)) x (amplitude om dg (List.length x) c)).
Proof. exact (weights_integral). Qed.
Print Assumptions c158_weights.

Theorem c158_levin : forall evans ls B om (f g dg : R -> R) x c, solves_systems ls -> is_basis B -> phase g dg -> has_rule om g dg (-1) 1 x -> (forall t, RtoC (f t) = amplitude om dg (List.length x) c t) ->
  integral (oscillating om g (fun t => RtoC (f t))) (-1) 1 (if evans : bool then evans_webster ls B om f g dg x else a_levin ls B om f g dg x).
Proof. exact (one_piece). Qed.
Print Assumptions c158_levin.

Theorem c158_linear_rule : forall om g dg al be a b x, (forall t, g t = al * t + be) -> (forall t, dg t = al) -> NoDup x -> has_rule om g dg a b x.
Proof. exact (linear_rule). Qed.
Print Assumptions c158_linear_rule.

(* QuadOsc. *)

Theorem c158_exact : forall ls B dea3 eps prec maxiter s (endpoints : bool) f g dg a b om c, solves_systems ls -> is_basis B -> phase g dg -> a <> b -> (2 <= maxiter)%nat -> (forall t, f t = amplitude om dg s c t) ->
  let x := if endpoints then chebyshev_extrema s else chebyshev_roots s in
  has_rule om g dg a b (nodes a b x) -> has_rule om g dg a ((a + b) / 2) (nodes a ((a + b) / 2) x) -> has_rule om g dg ((a + b) / 2) b (nodes ((a + b) / 2) b x) ->
  exists v, quad_osc ls B dea3 eps prec maxiter s endpoints f g dg a b om = Ok (v, 2 * eps, Some (3 * s)%nat) /\ integral (oscillating om g f) a b v.
Proof. exact (quad_exact). Qed.
Print Assumptions c158_exact.

Theorem c158_fourier : forall ls B dea3 eps prec maxiter s (endpoints : bool) f g dg a b om al be c m, solves_systems ls -> is_basis B -> (2 <= maxiter)%nat -> (endpoints = true -> 2 <= s)%nat ->
  (forall t, g t = al * t + be) -> (forall t, dg t = al) -> om * al <> 0 -> (m <= s)%nat -> (forall t, f t = cpoly m c t) ->
  exists v err n, quad_call ls B dea3 eps prec maxiter s endpoints f g dg a b om = Ok (v, err, n) /\ integral (oscillating om g f) a b v.
Proof. exact (quad_fourier). Qed.
Print Assumptions c158_fourier.

Example c158_saw_case : forall ls dea3 eps prec, solves_systems ls -> exists err n, quad_call ls chebyshev_basis dea3 eps prec 10 15 false (fun t => RtoC t) (fun t => t) (fun _ => 1) 0 (2 * PI) 1 = Ok ((0, - (2 * PI)), err, n).
Proof. exact (saw_case). Qed.

Theorem c158_estimate : forall ls B dea3 eps prec maxiter s (endpoints : bool) f g dg a b om, a <> b -> (2 <= maxiter)%nat ->
  let e := level ls B om f g dg (if endpoints then chebyshev_extrema s else chebyshev_roots s) a b in
  exists k q d, quad_osc ls B dea3 eps prec maxiter s endpoints f g dg a b om = Ok (q, d + 2 * eps, Some (s * (2 ^ S k - 1))%nat) /\ (1 <= k < maxiter)%nat /\
    candidates dea3 e k q d /\ (forall q' d', candidates dea3 e k q' d' -> d <= d') /\ (d <= Rpower 10 (- prec) \/ k = (maxiter - 1)%nat) /\
    forall i q' d', (1 <= i < k)%nat -> candidates dea3 e i q' d' -> Rpower 10 (- prec) < d'.
Proof. exact (quad_estimate). Qed.
Print Assumptions c158_estimate.

Theorem c158_reversed : forall ls B dea3 eps prec maxiter s (endpoints : bool) f g dg a b om v err n, a <> b -> quad_call ls B dea3 eps prec maxiter s endpoints f g dg a b om = Ok (v, err, n) -> quad_call ls B dea3 eps prec maxiter s endpoints f g dg b a om = Ok (Copp v, err, n).
Proof. exact (quad_reversed). Qed.
Print Assumptions c158_reversed.

Theorem c158_same_limits : forall ls B dea3 eps prec maxiter s endpoints f g dg a om, quad_call ls B dea3 eps prec maxiter s endpoints f g dg a a om = Ok (RtoC 0, 0, None).
Proof. exact (same_limits). Qed.
Print Assumptions c158_same_limits.

Theorem c158_few_levels : forall ls B dea3 eps prec s (endpoints : bool) f g dg a b om, a <> b -> quad_call ls B dea3 eps prec 1 s endpoints f g dg a b om = Err UnboundLocal /\ quad_call ls B dea3 eps prec 0 s endpoints f g dg a b om = Err IndexError.
Proof. exact (quad_one). Qed.
Print Assumptions c158_few_levels.

Theorem c158_maxiter_refuted : ~ (forall ls B dea3 eps prec maxiter s endpoints f g dg a b om, (1 <= maxiter)%nat -> exists r, quad_call ls B dea3 eps prec maxiter s endpoints f g dg a b om = Ok r).
Proof. exact (maxiter_one). Qed.
Print Assumptions c158_maxiter_refuted.

(* Infinite limits. *)

Theorem c158_half_line : forall f g dg a om u v w, phase g dg -> continuous_amplitude f -> u < 1 -> v < 1 -> exists f1 g1 d1, get_functions f g dg (Fin a) Pinf = Some (f1, g1, d1, 0, 1, false) /\ get_functions f g dg Pinf (Fin a) = Some (f1, g1, d1, 0, 1, true) /\
  (forall t, t < 1 -> is_derive g1 t (d1 t)) /\ (integral (oscillating om g f) (a + u / (1 - u)) (a + v / (1 - v)) w -> integral (oscillating om g1 f1) u v w).
Proof. exact (half_line). Qed.
Print Assumptions c158_half_line.

Theorem c158_half_line_down : forall f g dg b om u v w, phase g dg -> continuous_amplitude f -> -1 < u -> -1 < v -> exists f1 g1 d1, get_functions f g dg Minf (Fin b) = Some (f1, g1, d1, -1, 0, false) /\ get_functions f g dg (Fin b) Minf = Some (f1, g1, d1, -1, 0, true) /\
  (forall t, -1 < t -> is_derive g1 t (d1 t)) /\ (integral (oscillating om g f) (b + u / (1 + u)) (b + v / (1 + v)) w -> integral (oscillating om g1 f1) u v w).
Proof. exact (half_line_down). Qed.
Print Assumptions c158_half_line_down.

Theorem c158_whole_line : forall f g dg om u v w, phase g dg -> continuous_amplitude f -> -1 < u < 1 -> -1 < v < 1 -> exists f1 g1 d1, get_functions f g dg Minf Pinf = Some (f1, g1, d1, -1, 1, false) /\ get_functions f g dg Pinf Minf = Some (f1, g1, d1, -1, 1, true) /\
  (forall t, -1 < t < 1 -> is_derive g1 t (d1 t)) /\ (integral (oscillating om g f) (u / (1 - u ^ 2)) (v / (1 - v ^ 2)) w -> integral (oscillating om g1 f1) u v w).
Proof. exact (whole_line). Qed.
Print Assumptions c158_whole_line.

(* AdaptiveLevin and EvansWebster. *)

Theorem c158_adaptive : forall evans ls B crossings prec (endpoints : bool) s f g dg a b om al be m c, solves_systems ls -> is_basis B -> 0 <= prec -> a <> b -> (forall t, g t = al * t + be) -> (forall t, dg t = al) -> om * al <> 0 ->
  (forall t, RtoC (f t) = cpoly m c t) -> (m <= 2 * (if (evans && (1 <? s)%nat)%bool then 8 else 1) + 1)%nat ->
  exists v err n, levin_call evans ls B crossings prec endpoints s f g dg a b om = Ok (v, err, n) /\ integral (oscillating om g (fun t => RtoC (f t))) a b v.
Proof. exact (levin_linear). Qed.
Print Assumptions c158_adaptive.

Example c158_levin_case : forall ls crossings evans, solves_systems ls -> exists err n, levin_call evans ls chebyshev_basis crossings 10 false 1 (fun t => t) (fun t => t) (fun _ => 1) 0 (2 * PI) 1 = Ok ((0, - (2 * PI)), err, n).
Proof. exact (levin_case). Qed.

Theorem c158_limits : forall crossings dg a b om, a < b -> partition a b (integration_limits crossings dg a b om).
Proof. exact (limits_partition). Qed.
Print Assumptions c158_limits.

Theorem c158_all_limits : forall crossings dg a b om v u, a < u < b -> In v [30; 1; 0; -1; -30] -> In u (crossings (linspace a b 31) (map (fun t => (b - a) / 2 * om * dg t) (linspace a b 31)) v) -> In u (integration_limits crossings dg a b om).
Proof. exact (limits_all). Qed.
Print Assumptions c158_all_limits.

(* Points. *)

Theorem c158_levin_points : forall p delta, (1 <= p)%nat -> 1 <= delta -> exists x, adaptive_levin_points (2 * p + 1) delta = Ok x /\ List.length x = (2 * p + 1)%nat /\ increasing x /\ nth 0 x 0 = -1 /\ nth p x 0 = 0 /\ nth (2 * p) x 0 = 1.
Proof. exact (levin_points). Qed.
Print Assumptions c158_levin_points.

Theorem c158_open_points : forall p delta, 1 <= delta -> exists x, open_levin_points (2 * p + 1) delta = Ok x /\ List.length x = (2 * p + 1)%nat /\ increasing x /\ (forall t, In t x -> -1 < t < 1) /\ nth p x 0 = 0.
Proof. exact (open_points). Qed.
Print Assumptions c158_open_points.

(* Extrapolation. *)

Theorem c158_richardson : forall q Q A r k, (2 <= k)%nat -> A <> 0 -> 0 < r -> r <= 100 / 107 -> (forall j, q j = Q + A * r ^ j) -> richardson q k = Q.
Proof. exact (richardson_exact). Qed.
Print Assumptions c158_richardson.
