From Coq Require Import Reals Lra Lia Permutation Sorted.
From Verif Require Import Base SplineSpec FilterModel FilterSpec FilterProofs FilterProofs3 FilterProofs4.
Local Open Scope R_scope.

(* ---- C48: HodrickPrescott ---- *)
(* the linear system of the filter has exactly one solution, so that the solver is asked a well-posed question *)
Theorem c48_system : forall w x, 0 <= w -> (4 <= List.length x)%nat ->
  exists s, solves (List.length x) (hp_matrix (List.length x) w) (fun i => nth i x 0) s /\
    forall t, solves (List.length x) (hp_matrix (List.length x) w) (fun i => nth i x 0) t -> forall i, (i < List.length x)%nat -> t i = s i.
Proof. exact hp_unique. Qed.
Print Assumptions c48_system.
(* the returned trend is as long as the data and beats every other series of that length *)
Theorem c48_optimal : forall spsolve w x, solver spsolve -> 0 <= w -> (4 <= List.length x)%nat ->
  List.length (hodrick_prescott spsolve w x) = List.length x /\
  forall t, List.length t = List.length x -> t <> hodrick_prescott spsolve w x ->
    hp_objective w x (hodrick_prescott spsolve w x) < hp_objective w x t.
Proof. exact hp_optimal. Qed.
Print Assumptions c48_optimal.
(* straight lines of any length are returned unchanged *)
Theorem c48_line : forall spsolve w a b n, solver spsolve -> 0 <= w ->
  hodrick_prescott spsolve w (map (fun i => a + b * INR i) (seq 0 n)) = map (fun i => a + b * INR i) (seq 0 n).
Proof. exact hp_line. Qed.
Print Assumptions c48_line.
(* the trend has the same sum and the same first moment as the data *)
Theorem c48_moments : forall spsolve w x a b, solver spsolve -> 0 <= w ->
  total (List.length x) (fun i => (a + b * INR i) * nth i (hodrick_prescott spsolve w x) 0) =
  total (List.length x) (fun i => (a + b * INR i) * nth i x 0).
Proof. exact hp_moments. Qed.
Print Assumptions c48_moments.
(* the roughness of the trend is at most the squared distance of the data from any line, divided by w *)
Theorem c48_smooth : forall spsolve w x a b, solver spsolve -> 0 <= w -> (4 <= List.length x)%nat ->
  w * total (List.length x - 2) (fun i => (nth i (hodrick_prescott spsolve w x) 0 - 2 * nth (i + 1) (hodrick_prescott spsolve w x) 0 +
                                           nth (i + 2) (hodrick_prescott spsolve w x) 0) ^ 2)
  <= total (List.length x) (fun i => (nth i x 0 - (a + b * INR i)) ^ 2).
Proof. exact hp_smooth. Qed.
Print Assumptions c48_smooth.
(* three samples are returned as they are although the objective is not minimal there *)
Theorem c48_three_points_refuted : forall spsolve, hodrick_prescott spsolve 1 [0; 1; 0] = [0; 1; 0] /\
  hp_objective 1 [0; 1; 0] [1/3; 1/3; 1/3] < hp_objective 1 [0; 1; 0] [0; 1; 0].
Proof. exact hp_three. Qed.
Print Assumptions c48_three_points_refuted.
Example c48_case : exists spsolve, solver spsolve /\
  hp_objective 1 [0; 1; 0; 4] (hodrick_prescott spsolve 1 [0; 1; 0; 4]) < hp_objective 1 [0; 1; 0; 4] [0; 1; 2; 3].
Proof.
  destruct solver_exists as [s Hs]. exists s. split; [exact Hs|]. destruct (c48_optimal s 1 [0; 1; 0; 4] Hs ltac:(lra) ltac:(cbn; lia)) as [_ H].
  apply H; [reflexivity|]. intros E. pose proof (c48_moments s 1 [0; 1; 0; 4] 1 0 Hs ltac:(lra)) as M. rewrite <- E in M. unfold total in M. cbn in M. lra.
Qed.

(* ---- C50: HampelFilter ---- *)
(* fixed windows: for every sample the local median m and scale 1.4826 MAD are reported; the sample is replaced by m exactly when it is
   more than t scales away, and kept otherwise *)
Theorem c50_fixed : forall dx t y x, List.length x = List.length y -> (2 <= List.length y)%nat -> 0 < dx ->
  exists out mask Y0 S0, hampel (Some dx) t None y (Some x) = Ok (out, mask, (Y0, S0)) /\
    List.length out = List.length y /\ List.length mask = List.length y /\
    forall i js m s, (i < List.length y)%nat -> neighbours x dx i js -> is_median (values y js) m ->
      is_median (map (fun v => Rabs (v - m)) (values y js)) s ->
      nth i Y0 0 = m /\ nth i S0 0 = 14826 / 10000 * s /\
      (nth i mask false = true <-> t * (14826 / 10000 * s) < Rabs (nth i y 0 - m)) /\
      nth i out 0 = if nth i mask false then m else nth i y 0.
Proof. exact hampel_fixed. Qed.
Print Assumptions c50_fixed.
Example c50_fixed_case : exists m s, let y := [5; 1; 9] in let x := [0; 1; 2] in
  neighbours x 2 0 [0; 1; 2]%nat /\ is_median (values y [0; 1; 2]%nat) m /\
  is_median (map (fun v => Rabs (v - m)) (values y [0; 1; 2]%nat)) s /\ m = 5 /\ s = 4.
Proof. exact hampel_example. Qed.
(* t = 0: the filter is the running median *)
Theorem c50_median : forall dx y x, List.length x = List.length y -> (2 <= List.length y)%nat -> 0 < dx ->
  exists out mask B, hampel (Some dx) 0 None y (Some x) = Ok (out, mask, B) /\ List.length out = List.length y /\
    forall i js m, (i < List.length y)%nat -> neighbours x dx i js -> is_median (values y js) m -> nth i out 0 = m.
Proof. exact hampel_zero. Qed.
Print Assumptions c50_median.
(* the output never leaves the range of the data, fixed or adaptive windows *)
Theorem c50_range : forall dx t ad y x a b out mask B, (match x with Some x => List.length x = List.length y | None => True end) ->
  (forall v, In v y -> a <= v <= b) -> hampel dx t ad y x = Ok (out, mask, B) ->
  List.length out = List.length y /\ forall v, In v out -> a <= v <= b.
Proof. exact hampel_range. Qed.
Print Assumptions c50_range.
(* a change of units of the data changes the output accordingly and the same samples are outliers, fixed or adaptive windows *)
Theorem c50_units : forall c d dx t ad y x, c <> 0 -> (match x with Some x => List.length x = List.length y | None => True end) ->
  hampel dx t ad (map (fun v => c * v + d) y) x =
  match hampel dx t ad y x with
  | Ok (out, mask, (Y0, S0)) => Ok (map (fun v => c * v + d) out, mask, (map (fun v => c * v + d) Y0, map (fun v => Rabs c * v + 0) S0))
  | Err e => Err e
  end.
Proof. exact hampel_aff. Qed.
Print Assumptions c50_units.
(* without dx three times the median spacing is used *)
Theorem c50_default_width : forall t ad y x m, (2 <= List.length x)%nat -> is_median (diffR x) m ->
  hampel None t ad y (Some x) = hampel (Some (3 * m)) t ad y (Some x).
Proof. exact hampel_default. Qed.
Print Assumptions c50_default_width.
Example c50_default_case : is_median (diffR [0; 1; 3; 6]) 2.
Proof. exists [1; 2; 3]. cbn. split; [|split; [repeat constructor; lra|lra]]. replace (1 - 0) with 1 by ring. replace (3 - 1) with 2 by ring. replace (6 - 3) with 3 by ring. reflexivity. Qed.
(* adaptive windows: the search ends when n - 1 steps of the window reach every sample *)
Theorem c50_adaptive_total : forall dx t ad y x, List.length x = List.length y -> (2 <= List.length y)%nat -> 0 < dx -> 0 <= ad ->
  (forall i j, (i < List.length y)%nat -> (j < List.length y)%nat -> Rabs (nth j x 0 - nth i x 0) <= INR (List.length y - 1) * dx) ->
  exists r, hampel (Some dx) t (Some ad) y (Some x) = Ok r.
Proof. exact hampel_adaptive_ok. Qed.
Print Assumptions c50_adaptive_total.
Example c50_adaptive_case : exists r, hampel (Some 1) 3 (Some (1/10)) [0; 1] (Some [0; 1]) = Ok r.
Proof.
  apply c50_adaptive_total; try (cbn; lia); try lra. intros i j Hi Hj. cbn in Hi, Hj. change (INR (List.length [0; 1] - 1)) with 1.
  destruct i as [|[|i]], j as [|[|j]]; try lia; cbn; unfold Rabs; destruct (Rcase_abs _); lra.
Qed.
(* otherwise it can run past the end of its tables *)
Theorem c50_adaptive_refuted : hampel (Some (1/2)) 3 (Some (1/10)) [0; 1] None = Err IndexError.
Proof. exact hampel_adaptive_fails. Qed.
Print Assumptions c50_adaptive_refuted.
(* a single sample is returned as it is if dx is given, and refused otherwise *)
Theorem c50_single : forall d t ad y, 0 < d -> exists mask B, hampel (Some d) t ad [y] None = Ok ([y], mask, B).
Proof. exact hampel_one. Qed.
Print Assumptions c50_single.
Theorem c50_single_refuted : forall y t ad, hampel None t ad [y] None = Err ValueError.
Proof. exact hampel_single. Qed.
Print Assumptions c50_single_refuted.
(* widths that are not positive are refused *)
Theorem c50_width : forall d t ad y x, d <= 0 -> hampel (Some d) t ad y x = Err ValueError.
Proof. exact hampel_refused. Qed.
Print Assumptions c50_width.
