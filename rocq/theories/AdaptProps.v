From Coq Require Import Reals Lra Lia.
From Verif Require Import Base PolyModel PolySpec OrthoModel ChebSpec QuadModel QuadSpec QuadProofs2 QuadProofs6 AdaptModel AdaptSpec
  AdaptProofs AdaptProofs2 AdaptProofs3 AdaptProofs4 AdaptProofs5 AdaptProofs6.
Local Open Scope R_scope.

(* C88: gaussq integrates polynomials of degree at most 3 exactly against the documented weight over any
   interval, for any tolerances, and reports the error 0 *)
Theorem c88_exact : forall wfun alpha beta rules releps abseps max_iter p a b, finite_interval_weight wfun -> wfun <> 4%nat -> a < b -> (List.length p <= 4)%nat ->
  (forall n, (0 < n)%nat -> exact_for (2 * n) (doc_weight wfun alpha beta (rule_lo wfun) 1) (rule_lo wfun) 1 (rules n)) -> (1 <= max_iter)%nat ->
  exists I e, gaussq (fun v => v) rules wfun alpha beta releps abseps max_iter [(fun x => Some (peval p x), a, b)] = [(Some I, e)] /\
    improper_integral (fun x => doc_weight wfun alpha beta a b x * peval p x) a b I /\
    ((3 <= max_iter)%nat -> abseps < 10 ^ 100 -> Rabs (releps * I) < 10 ^ 100 -> e = Some 0).
Proof. exact gaussq_cubic_doc. Qed.
Print Assumptions c88_exact.
Example c88_exact_case : exists I e, gaussq (fun v => v) q5_roots 5 0 0 (1/1000) (1/1000) 11 [(fun x => Some (peval [2; 0; 1; 1] x), 3, 7)] = [(Some I, e)] /\
    improper_integral (fun x => / sqrt ((x - 3) * (7 - x)) * peval [2; 0; 1; 1] x) 3 7 I.
Proof.
  destruct (c88_exact 5 0 0 q5_roots (1/1000) (1/1000) 11 [2; 0; 1; 1] 3 7) as (I & e & H1 & H2 & _); [cbn; tauto|lia|lra|cbn; lia| |lia|].
  - intros n Hn. exact (q5_exact n Hn).
  - exists I, e. split; [exact H1|exact H2].
Qed.
(* with n nodes the estimate is exact up to degree 2 n - 1 *)
Theorem c88_estimate : forall wfun alpha beta N rule p a b, finite_interval_weight wfun -> a < b -> (List.length p <= N)%nat ->
  exact_for N (base_weight wfun alpha beta) (rule_lo wfun) 1 rule ->
  exists I, gq_estimate wfun alpha beta rule (fun x => Some (peval p x)) a b = Some I /\
    improper_integral (fun x => real_weight wfun alpha beta a b x * peval p x) a b I.
Proof. exact estimate_exact. Qed.
Print Assumptions c88_estimate.
Example c88_estimate_case : exists I, gq_estimate 7 0 0 (q7_roots 5) (fun x => Some (peval [1; 0; 0; 0; 0; 2; 0] x)) 0 9 = Some I.
Proof.
  destruct (c88_estimate 7 0 0 10 (q7_roots 5) [1; 0; 0; 0; 0; 2; 0] 0 9) as (I & H & _); [cbn; tauto|lra|cbn; lia| |exists I; exact H].
  exact (QuadProofs3.q7_exact 5 ltac:(lia)).
Qed.
(* for wfun = 4 the rule of j_roots is for (1 - x)^alpha (1 + x)^beta: gaussq then integrates against (b - x)^alpha (x - a)^beta *)
Theorem c88_jacobi : forall alpha beta rules releps abseps max_iter p a b, a < b -> (List.length p <= 4)%nat ->
  (forall n, (0 < n)%nat -> exact_for (2 * n) (fun x => Rpower (1 - x) alpha * Rpower (x - -1) beta) (-1) 1 (rules n)) -> (1 <= max_iter)%nat ->
  exists I e, gaussq (fun v => v) rules 4 alpha beta releps abseps max_iter [(fun x => Some (peval p x), a, b)] = [(Some I, e)] /\
    improper_integral (fun x => Rpower (b - x) alpha * Rpower (x - a) beta * peval p x) a b I /\
    ((3 <= max_iter)%nat -> abseps < 10 ^ 100 -> Rabs (releps * I) < 10 ^ 100 -> e = Some 0).
Proof. exact gaussq_cubic_jacobi. Qed.
Print Assumptions c88_jacobi.
(* whereas the documented weight is (x - a)^alpha (b - x)^beta *)
Theorem c88_jacobi_documented_refuted : forall rules releps abseps max_iter, (1 <= max_iter)%nat ->
  (forall n, (0 < n)%nat -> exact_for (2 * n) (fun x => Rpower (1 - x) 1 * Rpower (x - -1) 0) (-1) 1 (rules n)) ->
  exists I e, gaussq (fun v => v) rules 4 1 0 releps abseps max_iter [(fun x => Some (peval [1; 0] x), -1, 1)] = [(Some I, e)] /\
    ~ improper_integral (fun x => doc_weight 4 1 0 (-1) 1 x * peval [1; 0] x) (-1) 1 I.
Proof. exact jacobi_doc_wrong. Qed.
Print Assumptions c88_jacobi_documented_refuted.
(* and an integrand with integer values is integrated in integer arithmetic: 1 over [0, 1/2] gives 0 with error 0 *)
Theorem c88_integer_refuted : forall rules max_iter, (3 <= max_iter)%nat ->
  (forall n, (0 < n)%nat -> exact_for (2 * n) (doc_weight 1 0 0 (-1) 1) (-1) 1 (rules n)) ->
  gaussq trunc rules 1 0 0 (1/1000) (1/1000) max_iter [(fun x => Some 1, 0, 1/2)] = [(Some 0, Some 0)].
Proof. exact gaussq_int_wrong. Qed.
Print Assumptions c88_integer_refuted.

(* C89: the vectorised call gives each integral what a call with that integral alone gives *)
Theorem c89_elementwise : forall store rules wfun alpha beta releps abseps max_iter integrals, (1 <= max_iter)%nat ->
  gaussq store rules wfun alpha beta releps abseps max_iter integrals =
  flat_map (fun q => gaussq store rules wfun alpha beta releps abseps max_iter [q]) integrals.
Proof. exact gaussq_elementwise. Qed.
Print Assumptions c89_elementwise.
Example c89_elementwise_case : forall f g, gaussq (fun v => v) q5_roots 5 0 0 1 1 11 [(f, 0, 1); (g, 2, 5)] =
  gaussq (fun v => v) q5_roots 5 0 0 1 1 11 [(f, 0, 1)] ++ gaussq (fun v => v) q5_roots 5 0 0 1 1 11 [(g, 2, 5)] ++ [].
Proof. exact (fun f g => c89_elementwise (fun v => v) q5_roots 5 0 0 1 1 11 [(f, 0, 1); (g, 2, 5)] ltac:(lia)). Qed.

(* C90: the rule used does not depend on the calls made before, if the shape parameters have at most five decimals (in [1, 10)) *)
Theorem c90_history : forall A (qrule : nat -> nat -> Z -> Z -> A) history n w al be, Forall five_decimals history -> five_decimals (n, w, al, be) ->
  fst (nodes_and_weights fmt_g qrule (cache_after fmt_g qrule history) n w al be) = qrule n w al be.
Proof. exact @cache_history. Qed.
Print Assumptions c90_history.
Example c90_history_case : forall A (qrule : nat -> nat -> Z -> Z -> A),
  fst (nodes_and_weights fmt_g qrule (cache_after fmt_g qrule [(2, 3, 15000000%Z, 0%Z); (2, 3, 15000100%Z, 0%Z)]%nat) 2 3 15000100 0) = qrule 2%nat 3%nat 15000100%Z 0%Z.
Proof. intros. apply c90_history; repeat constructor; try (exists 150000%Z; reflexivity); try (exists 0%Z; reflexivity); exists 150001%Z; reflexivity. Qed.
(* with more decimals the rule of an earlier call is used: alpha = 1.0000002 after alpha = 1.0000001 *)
Theorem c90_digits_refuted : forall A (qrule : nat -> nat -> Z -> Z -> A),
  fst (nodes_and_weights fmt_g qrule (cache_after fmt_g qrule [(2%nat, 3%nat, 10000001%Z, 0%Z)]) 2 3 10000002 0) = qrule 2%nat 3%nat 10000001%Z 0%Z.
Proof. exact @cache_wrong. Qed.
Print Assumptions c90_digits_refuted.

(* C91: if the integrand is never NaN, a reported error below the initial 1e100 is the difference of the last two estimates, the value
   is the last one, and unless all iterations were used the error meets the tolerance *)
Theorem c91_error : forall rules wfun alpha beta releps abseps max_iter f a b est v e, (1 <= max_iter)%nat ->
  (forall i, gq_estimate wfun alpha beta (rules (2 ^ (i + 1))%nat) f a b = Some (est i)) ->
  gaussq (fun v => v) rules wfun alpha beta releps abseps max_iter [(f, a, b)] = [(Some v, Some e)] -> e < 10 ^ 100 ->
  exists i, (2 <= i < max_iter)%nat /\ v = est i /\ e = Rabs (est (i - 1)%nat - est i) /\
    ((i < max_iter - 1)%nat -> e <= Rmax (Rabs (releps * v)) abseps).
Proof. exact gaussq_error. Qed.
Print Assumptions c91_error.
Example c91_error_case : exists v, gaussq (fun v => v) q5_roots 5 0 0 (1/1000) (1/1000) 11 [(fun x => Some (peval [0] x), 3, 7)] = [(Some v, Some 0)].
Proof.
  destruct (c88_exact 5 0 0 q5_roots (1/1000) (1/1000) 11 [0] 3 7) as (I & e & H1 & H2 & H3); [cbn; tauto|lia|lra|cbn; lia| |lia|].
  - intros n Hn. exact (q5_exact n Hn).
  - assert (I = 0).
    { eapply (improper_unique_aux _ 3 7); [lra|exact H2|].
      eapply improper_ext; [|eapply improper_ext_in; [|exact (improper_scal _ 3 7 _ 0 (improper_one 3 7 ltac:(lra)))]]; [ring|]. intros x _. cbn [peval List.length]. ring. }
    subst I. exists 0. rewrite H1, H3; [reflexivity|lia| |].
    + assert (1 <= 10 ^ 100) by (apply pow_R1_Rle; lra). lra.
    + rewrite Rmult_0_r, Rabs_R0. apply pow_lt. lra.
Qed.
(* but a NaN at one node is replaced by the previous estimate and reported as convergence with error 0: the integral of the Chebyshev
   polynomial of degree 8 against its weight is 0, gaussq returns - pi *)
Theorem c91_nan_refuted : gaussq (fun v => v) q5_roots 5 0 0 (1/1000) (1/1000) 11 [(spoiled, -1, 1)] = [(Some (- PI), Some 0)].
Proof. exact gaussq_nan. Qed.
Print Assumptions c91_nan_refuted.

(* C92: quadgr integrates exactly every polynomial of the degree of its rule, in both directions *)
Theorem c92_exact : forall eps nodes weights M p a b abseps max_iter, (0 < M)%nat -> plain_exact_for M (-1) 1 (nodes, weights) -> (List.length p <= M)%nat ->
  (2 <= max_iter)%nat -> 0 < abseps -> a <> b ->
  exists I, quadgr false eps nodes weights (peval p) (Fin a) (Fin b) abseps max_iter = Ok (Some I, Some (2 * eps)) /\ integral (peval p) a b I.
Proof. exact quadgr_exact. Qed.
Print Assumptions c92_exact.
Example c92_exact_case : let r := expand_roots [- sqrt (3/5); 0] [5/9; 8/9] 3 2 in
  exists I, quadgr false 0 (fst r) (snd r) (peval [1; 0; 2; 0]) (Fin 5) (Fin 2) (1/100000) 17 = Ok (Some I, Some (2 * 0)) /\ integral (peval [1; 0; 2; 0]) 5 2 I.
Proof. exact (c92_exact 0 _ _ 6 [1; 0; 2; 0] 5 2 (1/100000) 17 ltac:(lia) legendre3 ltac:(cbn; lia) ltac:(lia) ltac:(lra) ltac:(lra)). Qed.
(* before extrapolation starts the value is the rule on 2^k equal panels and the error the difference to half as many *)
Theorem c92_composite : forall eps nodes weights f a b abseps max_iter q e, nodes <> [] -> (max_iter <= 4)%nat -> a < b ->
  quadgr false eps nodes weights f (Fin a) (Fin b) abseps max_iter = Ok (Some q, Some e) ->
  exists k, (1 <= k < max_iter)%nat /\ q = composite nodes weights f a b (2 ^ k) /\
    e = Rabs (composite nodes weights f a b (2 ^ k) - composite nodes weights f a b (2 ^ (k - 1))) + 2 * eps /\
    ((k < max_iter - 1)%nat -> e - 2 * eps < abseps).
Proof. exact quadgr_composite. Qed.
Print Assumptions c92_composite.
Theorem c92_reverse : forall int_dtype eps nodes weights f a b abseps max_iter,
  quadgr int_dtype eps nodes weights f b a abseps max_iter = neg_result (quadgr int_dtype eps nodes weights f a b abseps max_iter).
Proof. exact quadgr_reverse. Qed.
Print Assumptions c92_reverse.
(* one iteration, integer integrands and tolerance 0 *)
Theorem c92_one_iteration_refuted : forall int_dtype eps nodes weights f a b abseps, lim_eqb a b = false ->
  quadgr int_dtype eps nodes weights f a b abseps 1 = Err UnboundLocal.
Proof. exact quadgr_one_iteration. Qed.
Print Assumptions c92_one_iteration_refuted.
Theorem c92_integer_refuted : forall eps nodes weights f a b abseps max_iter, a <> b -> (2 <= max_iter)%nat ->
  quadgr true eps nodes weights f (Fin a) (Fin b) abseps max_iter = Err ValueError.
Proof. exact quadgr_int_raises. Qed.
Print Assumptions c92_integer_refuted.
Theorem c92_zero_tolerance_refuted : forall eps nodes weights M p a b max_iter, (0 < M)%nat -> plain_exact_for M (-1) 1 (nodes, weights) ->
  (List.length p <= M)%nat -> (5 <= max_iter)%nat -> a < b ->
  quadgr false eps nodes weights (peval p) (Fin a) (Fin b) 0 max_iter = Ok (None, None).
Proof. exact qg_zero_tol. Qed.
Print Assumptions c92_zero_tolerance_refuted.
Example c92_cases : (let r := expand_roots [- sqrt (3/5); 0] [5/9; 8/9] 3 2 in quadgr false 0 (fst r) (snd r) (peval [1]) (Fin 0) (Fin 1) 0 17 = Ok (None, None)) /\
  quadgr true 0 [0] [2] (peval [1]) (Fin 0) (Fin 1) 1 17 = Err ValueError /\ quadgr false 0 [0] [2] (peval [1]) (Fin 0) PosInf 1 1 = Err UnboundLocal.
Proof.
  exact (conj (c92_zero_tolerance_refuted 0 _ _ 6 [1] 0 1 17 ltac:(lia) legendre3 ltac:(cbn; lia) ltac:(lia) ltac:(lra))
    (conj (c92_integer_refuted 0 [0] [2] (peval [1]) 0 1 1 17 ltac:(lra) ltac:(lia)) (c92_one_iteration_refuted false 0 [0] [2] (peval [1]) (Fin 0) PosInf 1 eq_refl))).
Qed.

(* C93: infinite limits: exact for the functions that the change of variable turns into polynomials *)
Theorem c93_upward : forall eps nodes weights M p f a abseps max_iter, (0 < M)%nat -> plain_exact_for M (-1) 1 (nodes, weights) -> (forall t, In t nodes -> -1 < t < 1) ->
  (List.length p <= M)%nat -> (2 <= max_iter)%nat -> 0 < abseps ->
  (forall x, a <= x -> f x = / (1 + x - a) ^ 2 * peval p (1 - / (1 + x - a))) ->
  exists I, quadgr false eps nodes weights f (Fin a) PosInf abseps max_iter = Ok (Some I, Some (2 * eps)) /\ integral_to_infinity f a I.
Proof. exact quadgr_up. Qed.
Print Assumptions c93_upward.
Theorem c93_downward : forall eps nodes weights M p f b abseps max_iter, (0 < M)%nat -> plain_exact_for M (-1) 1 (nodes, weights) -> (forall t, In t nodes -> -1 < t < 1) ->
  (List.length p <= M)%nat -> (2 <= max_iter)%nat -> 0 < abseps ->
  (forall x, x <= b -> f x = / (1 + b - x) ^ 2 * peval p (/ (1 + b - x) - 1)) ->
  exists I, quadgr false eps nodes weights f NegInf (Fin b) abseps max_iter = Ok (Some I, Some (2 * eps)) /\ integral_from_infinity f b I.
Proof. exact quadgr_down. Qed.
Print Assumptions c93_downward.
Theorem c93_whole_line : forall eps nodes weights M p q f abseps max_iter, (0 < M)%nat -> plain_exact_for M (-1) 1 (nodes, weights) -> (forall t, In t nodes -> -1 < t < 1) ->
  (List.length p <= M)%nat -> (List.length q <= M)%nat -> (2 <= max_iter)%nat -> 0 < abseps ->
  (forall x, 0 <= x -> f x = / (1 + x) ^ 2 * peval p (1 - / (1 + x))) -> (forall x, x <= 0 -> f x = / (1 - x) ^ 2 * peval q (/ (1 - x) - 1)) ->
  exists I J, quadgr false eps nodes weights f NegInf PosInf abseps max_iter = Ok (Some (I + J), Some (2 * eps + 2 * eps)) /\
    integral_to_infinity f 0 I /\ integral_from_infinity f 0 J.
Proof. exact quadgr_line. Qed.
Print Assumptions c93_whole_line.
Example c93_case : let r := expand_roots [- / sqrt 3] [1] 2 1 in
  exists I, quadgr false 0 (fst r) (snd r) (fun x => / (1 + x - 4) ^ 2 * peval [3; -1] (1 - / (1 + x - 4))) (Fin 4) PosInf (1/1000) 17 = Ok (Some I, Some (2 * 0)) /\
    integral_to_infinity (fun x => / (1 + x - 4) ^ 2 * peval [3; -1] (1 - / (1 + x - 4))) 4 I.
Proof.
  refine (c93_upward 0 _ _ 4 [3; -1] _ 4 (1/1000) 17 ltac:(lia) legendre2 _ ltac:(cbn; lia) ltac:(lia) ltac:(lra) (fun x _ => eq_refl)).
  assert (1 < sqrt 3) by (rewrite <- sqrt_1; apply sqrt_lt_1; lra). assert (0 < / sqrt 3 < 1) by (split; [apply Rinv_0_lt_compat; lra|rewrite <- Rinv_1; apply Rinv_lt_contravar; lra]).
  cbn. intros t [<-|[<-|[]]]; lra.
Qed.

(* C94: Richardson extrapolation finds the limit of a geometrically converging sequence, and moves the last value by a bounded amount *)
Theorem c94_geometric : forall q L C r k, (2 <= k)%nat -> C <> 0 -> 0 < r <= 100 / 107 ->
  (forall j, q j = Some (L + C * r ^ j)) -> richardson q k = Some L.
Proof. exact richardson_geometric. Qed.
Print Assumptions c94_geometric.
Theorem c94_bounded : forall q k v x y, richardson q k = Some v -> q k = Some x -> q (k - 1)%nat = Some y -> Rabs (v - x) <= 100 / 7 * Rabs (x - y).
Proof. exact richardson_bounded. Qed.
Print Assumptions c94_bounded.
Example c94_case : richardson (fun j => Some (3 + 5 * (1/2) ^ j)) 4 = Some 3.
Proof. exact (c94_geometric (fun j => Some (3 + 5 * (1/2) ^ j)) 3 5 (1/2) 4 ltac:(lia) ltac:(lra) ltac:(lra) (fun j => eq_refl)). Qed.

(* C95: romberg extrapolates from values of which the i-th integrates polynomials of degree at most 2 i + 1 exactly *)
Theorem c95_exact : forall dea3 lg p a b releps abseps k re, (List.length p <= 2 * k + 2)%nat ->
  exists Q : nat -> R, (forall i, (k <= i)%nat -> integral (peval p) a b (Q i)) /\
    (romberg dea3 lg (peval p) a b releps abseps = Ok re ->
      exists i, (2 <= i)%nat /\ re = dea3 (Q (i - 2)%nat) (Q (i - 1)%nat) (Q i) /\ snd re <= Rmax abseps (releps * Rabs (fst re))).
Proof. exact romberg_spec. Qed.
Print Assumptions c95_exact.
Theorem c95_table : forall p a h k i, (List.length p <= 2 * k + 2)%nat -> (k <= i)%nat -> integral (peval p) a (a + h) (rom_entry (peval p) a h k i).
Proof. exact rom_entry_exact. Qed.
Print Assumptions c95_table.
Example c95_table_case : integral (peval [4; 0; 0; 2; 0; 1]) 1 (1 + 9) (rom_entry (peval [4; 0; 0; 2; 0; 1]) 1 9 2 2).
Proof. exact (c95_table [4; 0; 0; 2; 0; 1] 1 9 2 2 ltac:(cbn; lia) ltac:(lia)). Qed.
(* for intervals no longer than 1.5 it raises TypeError whatever the integrand: the size of the table is a float *)
Theorem c95_short_interval_refuted : forall dea3 lg f a b releps abseps, 6 / 10 ^ 9 <= b - a <= 3 / 2 -> nearest_log2 lg ((b - a) * 10 ^ 9) ->
  romberg dea3 lg f a b releps abseps = Err TypeError.
Proof. exact romberg_type_error. Qed.
Print Assumptions c95_short_interval_refuted.
