From Coq Require Import Reals Lra Lia.
From Verif Require Import Base PolyModel GridSpec DftModel DftProofs KdeModel KdeSpec KdeProofs KdeProofs2 KdeProofs3 KdeProofs4 KdeProofs5.
Local Open Scope R_scope.

(* ---- C54: confidence intervals ---- *)
Theorem c54_bounds : forall invnorm n p alpha, 0 <= n -> 0 <= p <= 1 -> invnorm (alpha / 2) <> 0 ->
  let (lo, up) := wilson_score invnorm n p alpha in 0 <= lo <= p /\ p <= up <= 1.
Proof. exact wilson_score_bounds. Qed.
Print Assumptions c54_bounds.
(* the interval is exactly the set of the probabilities t that the score test with n trials does not reject *)
Theorem c54_score : forall invnorm n p alpha t, 0 <= n -> 0 <= p <= 1 -> invnorm (alpha / 2) <> 0 ->
  fst (wilson_score invnorm n p alpha) <= t <= snd (wilson_score invnorm n p alpha) <-> n * (p - t) ^ 2 <= (invnorm (alpha / 2)) ^ 2 * (t * (1 - t)).
Proof. exact wilson_score_iff. Qed.
Print Assumptions c54_score.
(* more trials or a lower confidence give a smaller interval *)
Theorem c54_nested : forall invnorm n n' p alpha alpha', 0 <= n <= n' -> 0 <= p <= 1 -> invnorm (alpha / 2) <> 0 -> invnorm (alpha' / 2) <> 0 ->
  Rabs (invnorm (alpha' / 2)) <= Rabs (invnorm (alpha / 2)) ->
  fst (wilson_score invnorm n p alpha) <= fst (wilson_score invnorm n' p alpha') /\ snd (wilson_score invnorm n' p alpha') <= snd (wilson_score invnorm n p alpha).
Proof. exact wilson_score_nested. Qed.
Print Assumptions c54_nested.
Example c54_case : let invnorm := fun a => a - 1 / 2 in invnorm ((1 / 5) / 2) <> 0 /\
  wilson_score invnorm 0 (1 / 3) (1 / 5) = (0, 1).
Proof.
  cbv zeta. split; [lra|]. pose proof (c54_score (fun a => a - 1 / 2) 0 (1 / 3) (1 / 5)) as H. pose proof (c54_bounds (fun a => a - 1 / 2) 0 (1 / 3) (1 / 5) ltac:(lra) ltac:(lra) ltac:(cbn; lra)) as B.
  destruct (wilson_score _ 0 _ _) as [lo up]. cbn [fst snd] in H. assert (lo <= 0 <= up) by (apply H; lra). assert (lo <= 1 <= up) by (apply H; lra). f_equal; lra.
Qed.
(* the Bayesian interval, for a beta quantile function with values in [0, 1] that decreases in the level *)
Theorem c54_credible : forall isf a b n p alpha, (forall q a b, 0 < a -> 0 < b -> 0 <= q <= 1 -> 0 <= isf q a b <= 1) ->
  (forall q q' a b, 0 < a -> 0 < b -> 0 <= q <= q' -> q' <= 1 -> isf q' a b <= isf q a b) ->
  0 < a -> 0 < b -> 0 <= n -> 0 <= p <= 1 -> 0 <= alpha <= 1 ->
  let (lo, up) := credible_interval isf a b n p alpha in 0 <= lo <= up /\ up <= 1.
Proof. exact credible_bounds. Qed.
Print Assumptions c54_credible.
Example c54_credible_case : let isf := fun q _ _ : R => 1 - q in
  (forall q a b, 0 < a -> 0 < b -> 0 <= q <= 1 -> 0 <= isf q a b <= 1) /\ (forall q q' a b, 0 < a -> 0 < b -> 0 <= q <= q' -> q' <= 1 -> isf q' a b <= isf q a b).
Proof. cbv zeta. split; intros; lra. Qed.

(* ---- C96: the estimate at a point ---- *)
(* whichever of the two loops is used, every point receives the kernel estimate there: the other points have no influence *)
Theorem c96_value : forall k points y r, List.length y = List.length (dataset k) -> List.length (lambda_ k) = List.length (dataset k) ->
  (forall p, In p points -> List.length p = List.length (inv_hs k)) -> eval_points k points y r = Ok (map (estimate k y r) points).
Proof. exact eval_points_value. Qed.
Print Assumptions c96_value.
(* in one dimension *)
Theorem c96_value_1d : forall kern c h X lam y r x, h <> 0 -> c <> 0 -> X <> [] -> List.length lam = List.length X -> List.length y = List.length X -> (forall l, In l lam -> l <> 0) ->
  estimate (kde_1d kern c h X lam) y r [x] = estimate_1d kern c h X lam y r x.
Proof. exact estimate_1d_spec. Qed.
Print Assumptions c96_value_1d.
Theorem c96_wrong_dimension : forall k points y r p, In p points -> List.length p <> List.length (inv_hs k) -> eval_points k points y r = Err ValueError.
Proof. exact eval_points_error. Qed.
Print Assumptions c96_wrong_dimension.
Example c96_case : let k := Kde [[0; 0]; [1; 2]; [2; 1]] [[1; 0]; [0; 1/2]] [1; 2; 1] (fun x => hd 0 x) 3 in
  eval_points k [[1; 1]; [0; 1]] [1; 1; 1] 0 = Ok (map (estimate k [1; 1; 1] 0) [[1; 1]; [0; 1]]) /\
  eval_points k [[1; 1]; [0; 1]; [1; 1]; [3; 3]] [1; 1; 1] 0 = Ok (map (estimate k [1; 1; 1] 0) [[1; 1]; [0; 1]; [1; 1]; [3; 3]]).
Proof. cbv zeta. split; apply c96_value; try reflexivity; cbn; intuition (subst; reflexivity). Qed.

(* ---- C97: the fast evaluation on a grid ---- *)
(* the convolution with the Fourier transform has no wrap-around: the result is the estimate with every datum shared between two nodes *)
Theorem c97_fast : forall kern h nf data q n y r, h <> 0 -> 0 < snd q -> (2 <= n)%nat -> data <> [] -> (forall v, In v data -> node q 0 <= v < node q (n - 1)) -> List.length y = List.length data ->
  eval_grid_fast kern h nf data (map (node q) (seq 0 n)) y r =
  Ok (map (fun i => kept r (weighted (interpolant q (smooth_at kern h (used_norm kern h nf (snd q) n (List.length data)) r (node q i))) data y)) (seq 0 n)).
Proof. exact fast_spec. Qed.
Print Assumptions c97_fast.
(* for data on the nodes it is the estimate of C96 *)
Theorem c97_nodes : forall kern c h q n idx y r, h <> 0 -> c <> 0 -> 0 < snd q -> (2 <= n)%nat -> idx <> [] -> (forall b, In b idx -> (S b < n)%nat) -> List.length y = List.length idx ->
  let data := map (node q) idx in let nf := h * INR (List.length idx) * c in
  well_sampled kern h nf (snd q) n (List.length idx) ->
  eval_grid_fast kern h nf data (map (node q) (seq 0 n)) y r =
  Ok (map (fun i => kept r (estimate_1d kern c h data (repeat 1 (List.length data)) y r (node q i))) (seq 0 n)).
Proof. exact fast_exact_on_nodes. Qed.
Print Assumptions c97_nodes.
(* and otherwise its error is at most proportional to the step of the grid *)
Theorem c97_error : forall kern c h q n data y L out, 0 < h -> 0 < c -> 0 < snd q -> (2 <= n)%nat -> data <> [] -> (forall v, In v data -> node q 0 <= v < node q (n - 1)) -> List.length y = List.length data ->
  0 <= L -> lipschitz L kern -> let nf := h * INR (List.length data) * c in well_sampled kern h nf (snd q) n (List.length data) ->
  eval_grid_fast kern h nf data (map (node q) (seq 0 n)) y 0 = Ok out ->
  forall i, (i < n)%nat -> Rabs (nth i out 0 - positive_part (estimate_1d kern c h data (repeat 1 (List.length data)) y 0 (node q i))) <= sumR (map Rabs y) * (L * snd q / (2 * h * nf)).
Proof. exact fast_error. Qed.
Print Assumptions c97_error.
(* the triangular kernel on the grid 0, 1/2, 1, 3/2 with bandwidth 1 *)
Example c97_case : lipschitz 1 tent /\ well_sampled tent 1 (1 * INR 2 * 1) (1/2) 4 2 /\ forall v, In v [1/3; 1/2] -> node (0, 1/2) 0 <= v < node (0, 1/2) (4 - 1).
Proof.
  split; [|split].
  - intros a b. unfold tent, Rmax. repeat destruct Rle_dec; unfold Rabs in *; repeat destruct Rcase_abs; lra.
  - unfold well_sampled, sampled_norm. cbn [seq Nat.mul Nat.add map INR sumR fold_right].
    assert (A : forall t, t <= -1 -> tent t = 0) by (intros t H; unfold tent, Rmax; destruct Rle_dec; unfold Rabs in *; destruct Rcase_abs; lra).
    assert (B : forall t, -1 <= t <= 0 -> tent t = 1 + t) by (intros t H; unfold tent, Rmax; destruct Rle_dec; unfold Rabs in *; destruct Rcase_abs; lra).
    assert (D : forall t, 0 <= t <= 1 -> tent t = 1 - t) by (intros t H; unfold tent, Rmax; destruct Rle_dec; unfold Rabs in *; destruct Rcase_abs; lra).
    assert (E : forall t, 1 <= t -> tent t = 0) by (intros t H; unfold tent, Rmax; destruct Rle_dec; unfold Rabs in *; destruct Rcase_abs; lra).
    repeat (match goal with |- context [tent ?t] => first [rewrite (A t) by lra | rewrite (B t) by lra | rewrite (D t) by lra | rewrite (E t) by lra] end).
    apply Rabs_le. lra.
  - intros v [<-|[<-|[]]]; unfold node; cbn; lra.
Qed.
(* the transform: ifft is the inverse of fft *)
Theorem c97_inverse : forall N x j, (j < N)%nat -> ifft N (fft N x) j = x j.
Proof. exact inverse. Qed.
Print Assumptions c97_inverse.

(* ---- C98: kernel regression ---- *)
(* with p = 0 the estimate stays between the responses (and zero), for every non-negative kernel *)
Theorem c98_range : forall kern c h X lam y xs tiny lo up, 0 < h -> 0 < c -> 0 < tiny -> X <> [] -> List.length lam = List.length X -> List.length y = List.length X -> (forall l, In l lam -> 0 < l) -> (forall t, 0 <= kern t) ->
  lo <= 0 <= up -> (forall v, In v y -> lo <= v <= up) ->
  exists out, kregression tiny 0 (kde_1d kern c h X lam) y xs = Ok out /\ List.length out = List.length xs /\ forall i, (i < List.length xs)%nat -> lo <= nth i out 0 <= up.
Proof. exact kreg0_range. Qed.
Print Assumptions c98_range.
(* with p = 1 it is the value at x of the straight line that minimises the squared error weighted with the kernel *)
Theorem c98_least_squares : forall kern c h X lam y xs tiny, 0 < h -> c <> 0 -> X <> [] -> List.length lam = List.length X -> List.length y = List.length X -> (forall l, In l lam -> 0 < l) -> (forall t, 0 <= kern t) ->
  exists out, kregression tiny 1 (kde_1d kern c h X lam) y xs = Ok out /\ List.length out = List.length xs /\
  forall i, (i < List.length xs)%nat -> let x := nth i xs 0 in let w := local_weights kern h X lam x in two_data w X ->
    exists slope, forall alpha beta, weighted_error w X y x (nth i out 0) slope <= weighted_error w X y x alpha beta.
Proof. exact kreg1_least_squares. Qed.
Print Assumptions c98_least_squares.
(* so a straight line is reproduced *)
Theorem c98_line : forall kern c h X lam a b xs tiny, 0 < h -> c <> 0 -> X <> [] -> List.length lam = List.length X -> (forall l, In l lam -> 0 < l) -> (forall t, 0 <= kern t) ->
  exists out, kregression tiny 1 (kde_1d kern c h X lam) (map (fun v => a + b * v) X) xs = Ok out /\ List.length out = List.length xs /\
  forall i, (i < List.length xs)%nat -> two_data (local_weights kern h X lam (nth i xs 0)) X -> nth i out 0 = a + b * nth i xs 0.
Proof. exact kreg1_line. Qed.
Print Assumptions c98_line.
Example c98_case : (forall t, 0 <= tent t) /\ two_data (local_weights tent 1 [0; 1; 2] [1; 1; 1] (1/2)) [0; 1; 2].
Proof.
  split; [intros t; apply Rmax_l|]. exists 0%nat, 1%nat. cbn [local_weights combine map nth fst snd List.length]. repeat split; try lia; try lra; unfold tent, Rmax; destruct Rle_dec; unfold Rabs in *; destruct Rcase_abs; lra.
Qed.

(* ---- C99: the grid and the empirical probabilities of BKRegression ---- *)
Theorem c99_grid : forall x hs_e, x <> [] -> 0 < hs_e -> exists q n, get_grid x hs_e = map (node q) (seq 0 n) /\ (5 <= n)%nat /\ 0 < snd q <= hs_e /\ node q 0 = minR x - hs_e /\ node q (n - 1) = maxR x + hs_e.
Proof. exact get_grid_full. Qed.
Print Assumptions c99_grid.
Theorem c99_extremes : forall x, x <> [] -> In (minR x) x /\ In (maxR x) x /\ forall v, In v x -> minR x <= v <= maxR x.
Proof. exact min_max_spec. Qed.
Print Assumptions c99_extremes.
(* prb_empirical never raises on its default grid, and returns the fraction of successes among the observations shared by the nodes *)
Theorem c99_probability : forall tiny x y hs_e, x <> [] -> 0 < hs_e -> 0 < tiny ->
  exists q n prb c, get_grid x hs_e = map (node q) (seq 0 n) /\ prb_empirical tiny x y (get_grid x hs_e) = Ok (prb, c) /\ List.length prb = n /\ List.length c = n /\
  forall i, (i < n)%nat -> nth i c 0 = received q x i /\ nth i prb 0 = received q (successes x y) i / (received q x i + tiny) /\ 0 <= nth i prb 0 <= 1.
Proof. exact prb_empirical_full. Qed.
Print Assumptions c99_probability.
Example c99_case : successes [1; 2; 3] [1; 0; 1] = [1; 3].
Proof. cbn. repeat destruct Req_EM_T; try lra; reflexivity. Qed.
