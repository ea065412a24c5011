(* Property C43: class SmoothSpline of interpolate.py. *)
From Coq Require Import Reals Lra Lia Sorted Permutation.
From Verif Require Import Base PolyModel PolySpec OrthoModel PPModel PPSpec SplineModel SplineSpec
  SplineProofs SplineProofs2 SplineProofs3 SplineProofs4.
Local Open Scope R_scope.

(* ---- C43 -------------------------------------------------------------------------- *)
(* the linear system handed to the solver always has exactly one solution *)
Theorem c43_system : forall x y var p, StronglySorted Rlt x -> (3 <= List.length x)%nat ->
  (forall i, (i < List.length x)%nat -> 0 < var i) ->
  exists s, solves (List.length x - 2) (ss_matrix x var (ss_p x var p)) (ss_rhs x y) s /\
  forall t, solves (List.length x - 2) (ss_matrix x var (ss_p x var p)) (ss_rhs x y) t ->
    forall i, (i < List.length x - 2)%nat -> t i = s i.
Proof. exact system_unique_solution. Qed.
Print Assumptions c43_system.

(* the spline is twice continuously differentiable, straight outside the data, and no other
   twice continuously differentiable function has a smaller
   p * sum (y_i - f(x_i))^2 / var_i + (1 - p) * int (f'')^2; among the functions with the same
   values at the data points it has the smallest int (f'')^2 *)
Theorem c43_minimizes : forall x y var p s, StronglySorted Rlt x -> List.length y = List.length x ->
  (3 <= List.length x)%nat -> (forall i, (i < List.length x)%nat -> 0 < var i) ->
  solves (List.length x - 2) (ss_matrix x var (ss_p x var p)) (ss_rhs x y) s ->
  exists q F F2, smooth_spline x y var p true s = Ok q /\ (forall t, pp_call q t = Ok (F t)) /\
   twice_differentiable F F2 /\
   (forall t, t <= hd 0 x \/ last x 0 <= t -> F2 t = 0) /\
   (forall G G2, twice_differentiable G G2 ->
      criterion (ss_p x var p) x y var F F2 <= criterion (ss_p x var p) x y var G G2) /\
   (forall G G2, twice_differentiable G G2 ->
      (forall i, (i < List.length x)%nat -> G (nth i x 0) = F (nth i x 0)) ->
      roughness F2 (hd 0 x) (last x 0) <= roughness G2 (hd 0 x) (last x 0)).
Proof. exact smooth_spline_optimal. Qed.
Print Assumptions c43_minimizes.

Theorem c43_interpolates : forall x y var s, StronglySorted Rlt x -> List.length y = List.length x ->
  (3 <= List.length x)%nat ->
  solves (List.length x - 2) (ss_matrix x var 1) (ss_rhs x y) s ->
  exists q, smooth_spline x y var (Some 1) true s = Ok q /\
  forall i, (i < List.length x)%nat -> pp_call q (nth i x 0) = Ok (nth i y 0).
Proof. exact smooth_spline_interpolates. Qed.
Print Assumptions c43_interpolates.

(* p = 0: the weighted least squares straight line *)
Theorem c43_straight_line : forall x y var s, StronglySorted Rlt x -> List.length y = List.length x ->
  (3 <= List.length x)%nat -> (forall i, (i < List.length x)%nat -> 0 < var i) ->
  solves (List.length x - 2) (ss_matrix x var 0) (ss_rhs x y) s ->
  exists q a b, smooth_spline x y var (Some 0) true s = Ok q /\ (forall t, pp_call q t = Ok (a + b * t)) /\
   forall a' b', misfit x y var (fun t => a + b * t) <= misfit x y var (fun t => a' + b' * t).
Proof. exact smooth_spline_line. Qed.
Print Assumptions c43_straight_line.

(* the smoothing parameter used is always in [0, 1], and the given one when that is *)
Theorem c43_parameter : forall x var p, 0 <= ss_p x var p <= 1 /\
  forall p', p = Some p' -> 0 <= p' <= 1 -> ss_p x var p = p'.
Proof. exact parameter_spec. Qed.
Print Assumptions c43_parameter.

(* two data points pass the check of the code ("There must be >=2 data points") but raise *)
Theorem c43_two_points_refuted : forall x0 x1 y0 y1 var p lin s, x0 <> x1 ->
  smooth_spline [x0; x1] [y0; y1] var p lin s = Err IndexError.
Proof. exact two_points_raise. Qed.
Print Assumptions c43_two_points_refuted.

(* the order in which the data points are given does not matter (variances taken in order of x) *)
Theorem c43_any_order : forall x0 y0 x y var p lin s, List.length y0 = List.length x0 -> List.length y = List.length x ->
  Permutation (combine x0 y0) (combine x y) -> StronglySorted Rlt x ->
  smooth_spline x0 y0 var p lin s = smooth_spline x y var p lin s.
Proof. exact order_irrelevant. Qed.
Print Assumptions c43_any_order.
Example c43_case_order : Permutation (combine [2; 0; 1] [7; 8; 9]) (combine [0; 1; 2] [8; 9; 7]) /\ StronglySorted Rlt [0; 1; 2].
Proof. split; [cbn; apply (Permutation_middle [(0, 8); (1, 9)] [] (2, 7))|repeat (constructor; try lra)]. Qed.

(* x in decreasing order: x and y are put in order but the variances are not, so variance and
   data point no longer belong together *)
Theorem c43_variances_not_sorted_refuted : forall x y var p lin s,
  StronglySorted (fun a b => b < a) x -> List.length y = List.length x -> (2 <= List.length x)%nat ->
  smooth_spline x y var p lin s = smooth_spline (rev x) (rev y) var p lin s.
Proof. exact decreasing_reversed. Qed.
Print Assumptions c43_variances_not_sorted_refuted.

Example c43_case : StronglySorted Rlt [0; 1; 2; 4] /\ List.length [1; 3; 2; 5] = List.length [0; 1; 2; 4] /\
  (3 <= List.length [0; 1; 2; 4])%nat /\ (forall i, (i < 4)%nat -> 0 < (fun i => INR i + 1) i).
Proof. repeat split; try (cbn; lia); [repeat (constructor; try (repeat constructor; lra))|]. intros i _. pose proof (pos_INR i). lra. Qed.
Example c43_case_decreasing : StronglySorted (fun a b => b < a) [4; 2; 1; 0].
Proof. repeat (constructor; try (repeat constructor; lra)). Qed.
