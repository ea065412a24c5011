From Coq Require Import Reals Lra Lia.
From Verif Require Import Base PolyModel PolySpec OrthoModel QuadModel QuadSpec
  QuadProofs QuadProofs2 QuadProofs3 QuadProofs4 QuadProofs5 QuadProofs6.
Local Open Scope R_scope.

(* C46: Boole's rule on 4 k + 1 equidistant points is exact for polynomials of degree at most 5 *)
Theorem c46_exact : forall p a b k, (1 <= k)%nat -> (List.length p <= 6)%nat ->
  integral (peval p) a b (boole (map (peval p) (grid a b (4 * k + 1))) (grid a b (4 * k + 1))).
Proof. exact boole_exact. Qed.
Print Assumptions c46_exact.
Example c46_exact_case : integral (peval [1; 0; 0; 0; 2; 3]) 0 8 (boole (map (peval [1; 0; 0; 0; 2; 3]) (grid 0 8 9)) (grid 0 8 9)).
Proof. exact (c46_exact [1; 0; 0; 0; 2; 3] 0 8 2 ltac:(lia) ltac:(cbn; lia)). Qed.

(* with another number of points it does not even integrate a constant, and raises no error *)
Theorem c46_point_count_refuted :
  ~ (forall p a b n, (3 <= n)%nat -> (List.length p <= 1)%nat -> integral (peval p) a b (boole (map (peval p) (grid a b n)) (grid a b n))).
Proof. exact (fun H => boole_three (H [1] 0 2 3%nat (le_n 3) (le_n 1))). Qed.
Print Assumptions c46_point_count_refuted.

(* C47: from the roots on one side of the origin the full rule is obtained, with n nodes *)
Theorem c47_expand : forall n x w f, (2 <= n)%nat -> List.length x = ((n + 1) / 2)%nat -> List.length w = ((n + 1) / 2)%nat ->
  let r := expand_roots x w n ((n + 1) / 2) in
  List.length (fst r) = n /\ List.length (snd r) = n /\
  rule_sum (fst r) (snd r) f = rule_sum (firstn (n / 2) x) (firstn (n / 2) w) (fun t => f t + f (- t))
                               + (if Nat.odd n then nth (n / 2) w 0 * f 0 else 0).
Proof. exact expand_spec. Qed.
Print Assumptions c47_expand.
Example c47_expand_case : forall f, rule_sum (fst (expand_roots [-1; 0] [5; 8] 3 2)) (snd (expand_roots [-1; 0] [5; 8] 3 2)) f
  = 5 * (f (-1) + f (- -1)) + 0 + 8 * f 0.
Proof. exact (fun f => proj2 (proj2 (c47_expand 3 [-1; 0] [5; 8] f ltac:(lia) eq_refl eq_refl))). Qed.

(* for n = 1 the node is duplicated: the one-point Gauss-Legendre rule, node 0 and weight 2, comes out with twice the weight *)
Theorem c47_single_node_refuted :
  plain_exact_for 2 (-1) 1 ([0], [2]) /\ ~ plain_exact_for 1 (-1) 1 (expand_roots [0] [2] 1 1).
Proof. exact expand_single_wrong. Qed.
Print Assumptions c47_single_node_refuted.

(* the linear map of p_roots carries a rule for [-1, 1] to a rule of the same order for any interval *)
Theorem c47_any_interval : forall N nodes weights a b,
  plain_exact_for N (-1) 1 (nodes, weights) -> plain_exact_for N a b (p_roots_map nodes weights a b).
Proof. exact p_roots_map_exact. Qed.
Print Assumptions c47_any_interval.
Example c47_any_interval_case : plain_exact_for 6 2 10
  (p_roots_map (fst (expand_roots [- sqrt (3/5); 0] [5/9; 8/9] 3 2)) (snd (expand_roots [- sqrt (3/5); 0] [5/9; 8/9] 3 2)) 2 10).
Proof. exact (c47_any_interval 6 _ _ 2 10 legendre3). Qed.

(* C86: the n-point rules 5 ... 9 are Gauss rules: exact for polynomials of degree at most 2 n - 1 against their weight *)
Theorem c86_chebyshev_first : forall n, (0 < n)%nat -> exact_for (2 * n) (fun x => / sqrt ((x - -1) * (1 - x))) (-1) 1 (q5_roots n).
Proof. exact q5_exact. Qed.
Print Assumptions c86_chebyshev_first.
Theorem c86_chebyshev_second : forall n, (0 < n)%nat -> exact_for (2 * n) (fun x => sqrt ((x - -1) * (1 - x))) (-1) 1 (q6_roots n).
Proof. exact q6_exact. Qed.
Print Assumptions c86_chebyshev_second.
Theorem c86_ratio : forall n, (0 < n)%nat -> exact_for (2 * n) (fun x => sqrt ((x - 0) / (1 - x))) 0 1 (q7_roots n).
Proof. exact q7_exact. Qed.
Print Assumptions c86_ratio.
Example c86_closed_form_case : exact_for 6 (fun x => / sqrt ((x - -1) * (1 - x))) (-1) 1 (q5_roots 3) /\
  exact_for 6 (fun x => sqrt ((x - 0) / (1 - x))) 0 1 (q7_roots 3).
Proof. exact (conj (c86_chebyshev_first 3 ltac:(lia)) (c86_ratio 3 ltac:(lia))). Qed.
(* rules 8 and 9 are built from the Gauss-Legendre rules with 2 n and 2 n + 1 nodes *)
Theorem c86_inverse_root : forall n x w, (1 <= n)%nat -> List.length x = n -> List.length w = n -> (forall t, In t x -> t < 0) ->
  let r := expand_roots x w (2 * n) n in plain_exact_for (2 * (2 * n)) (-1) 1 r ->
  exact_for (2 * n) (fun x => / sqrt (1 - x)) 0 1 (q8_roots (fst r) (snd r)).
Proof. exact q8_exact. Qed.
Print Assumptions c86_inverse_root.
Theorem c86_root : forall n x w, (1 <= n)%nat -> List.length x = S n -> List.length w = S n -> (forall t, In t (firstn n x) -> t < 0) ->
  let r := expand_roots x w (2 * n + 1) (S n) in plain_exact_for (2 * (2 * n + 1)) (-1) 1 r ->
  exact_for (2 * n) (fun x => sqrt (1 - x)) 0 1 (q9_roots (fst r) (snd r)).
Proof. exact q9_exact. Qed.
Print Assumptions c86_root.
Example c86_inverse_root_case : exact_for 2 (fun x => / sqrt (1 - x)) 0 1
  (q8_roots (fst (expand_roots [- / sqrt 3] [1] 2 1)) (snd (expand_roots [- / sqrt 3] [1] 2 1))).
Proof.
  refine (c86_inverse_root 1 [- / sqrt 3] [1] ltac:(lia) eq_refl eq_refl _ legendre2).
  intros t [<-|[]]. assert (0 < / sqrt 3) by (apply Rinv_0_lt_compat, sqrt_lt_R0; lra). lra.
Qed.
Example c86_root_case : exact_for 2 (fun x => sqrt (1 - x)) 0 1
  (q9_roots (fst (expand_roots [- sqrt (3/5); 0] [5/9; 8/9] 3 2)) (snd (expand_roots [- sqrt (3/5); 0] [5/9; 8/9] 3 2))).
Proof.
  refine (c86_root 1 [- sqrt (3/5); 0] [5/9; 8/9] ltac:(lia) eq_refl eq_refl _ legendre3).
  intros t [<-|[]]. assert (0 < sqrt (3/5)) by (apply sqrt_lt_R0; lra). lra.
Qed.

(* C87: Clenshaw-Curtis quadrature with 2 n + 1 points is exact for polynomials of degree at most 2 n + 1 *)
Theorem c87_exact : forall n p a b, (1 <= n)%nat -> (List.length p <= 2 * n + 2)%nat ->
  integral (peval p) a b (fst (clencurt (fun v => v) (peval p) a b n)).
Proof. exact clencurt_exact. Qed.
Print Assumptions c87_exact.
Example c87_exact_case : integral (peval [1; -4; 0; 2]) 3 (-5) (fst (clencurt (fun v => v) (peval [1; -4; 0; 2]) 3 (-5) 1)).
Proof. exact (c87_exact 1 [1; -4; 0; 2] 3 (-5) ltac:(lia) ltac:(cbn; lia)). Qed.
(* an integrand that returns an array of integers is truncated at the two ends: even a constant is integrated wrongly *)
Theorem c87_integer_integrand_refuted :
  ~ (forall n p a b, (1 <= n)%nat -> (List.length p <= 1)%nat -> integral (peval p) a b (fst (clencurt trunc (peval p) a b n))).
Proof. exact (fun H => clencurt_int_wrong' (H 1%nat [1] (-1) 1 (le_n 1) (le_n 1))). Qed.
Print Assumptions c87_integer_integrand_refuted.
