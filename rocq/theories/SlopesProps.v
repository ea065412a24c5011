(* C44, C45, C82, C83, C84: slope estimation, cubic Hermite and Stineman interpolation *)
From Coq Require Import Reals Lra Lia Sorted.
From Verif Require Import Base PolyModel SplineModel SlopesModel SlopesSpec SlopesProofs2 SlopesProofs3 SlopesProofs5 SlopesProofs6.
Local Open Scope R_scope.

(* ---- C44 ------------------------------------------------------------------------------------------ *)
(* A cubic Hermite interpolant built from given slopes passes through the data with exactly those
   slopes and is continuously differentiable *)
Theorem c44_given_slopes : forall m x y yp, StronglySorted Rlt x -> (2 <= List.length x)%nat ->
  List.length y = List.length x -> List.length yp = List.length x ->
  exists F F1, cubic_hermite m x y (Some yp) = Ok F /\ continuously_differentiable F F1 /\
    forall i, (i < List.length x)%nat -> F (nth i x 0) = nth i y 0 /\ F1 (nth i x 0) = nth i yp 0.
Proof. exact hermite_class. Qed.
Print Assumptions c44_given_slopes.

(* the same with the slopes estimated by any of the methods *)
Theorem c44_estimated_slopes : forall m x y, StronglySorted Rlt x -> (2 <= List.length x)%nat -> List.length y = List.length x ->
  match m with Steffen => (3 <= List.length x)%nat | _ => True end ->
  exists yp F F1, slopes m false x y = Ok yp /\ cubic_hermite m x y None = Ok F /\ continuously_differentiable F F1 /\
    forall i, (i < List.length x)%nat -> F (nth i x 0) = nth i y 0 /\ F1 (nth i x 0) = nth i yp 0.
Proof. exact hermite_class_default. Qed.
Print Assumptions c44_estimated_slopes.

(* Pchip: passes through the data, is continuously differentiable, rises where the data rise, falls
   where they fall and never leaves the range of two neighbouring data values *)
Theorem c44_pchip : forall x y, StronglySorted Rlt x -> (2 <= List.length x)%nat -> List.length y = List.length x ->
  exists F F1, Pchip x y = Ok F /\ continuously_differentiable F F1 /\
    (forall i, (i < List.length x)%nat -> F (nth i x 0) = nth i y 0) /\
    (forall i, (S i < List.length x)%nat -> shape_preserving x y i F) /\
    (forall i t, (S i < List.length x)%nat -> nth i x 0 <= t <= nth (S i) x 0 ->
       Rmin (nth i y 0) (nth (S i) y 0) <= F t <= Rmax (nth i y 0) (nth (S i) y 0)).
Proof. exact pchip_class. Qed.
Print Assumptions c44_pchip.

Theorem c44_unsorted : forall m mono x y, ~ StronglySorted Rlt x -> slopes m mono x y = Err ValueError.
Proof. exact not_increasing. Qed.
Print Assumptions c44_unsorted.

Example c44_data : StronglySorted Rlt [0; 1; 3; 4] /\ (2 <= List.length [0; 1; 3; 4])%nat /\ List.length [0; 5; 5; 2] = List.length [0; 1; 3; 4].
Proof. split; [repeat (constructor; try lra)|split; cbn; lia]. Qed.
Example c44_unsorted_data : ~ StronglySorted Rlt [0; 2; 1].
Proof. intros H. inversion H as [|? ? H1 H2]; subst. inversion H1 as [|? ? H3 H4]; subst. inversion H4; subst. lra. Qed.

(* ---- C45 ------------------------------------------------------------------------------------------ *)
(* Steffen slopes: between two neighbouring inner points the interpolant follows the data, and for
   strictly increasing data it does so everywhere *)
Theorem c45_steffen : forall x y, StronglySorted Rlt x -> (3 <= List.length x)%nat -> List.length y = List.length x ->
  exists F, cubic_hermite Steffen x y None = Ok F /\
    (forall i, (1 <= i)%nat -> (S (S i) < List.length x)%nat -> shape_preserving x y i F) /\
    ((forall i, (S i < List.length x)%nat -> nth i y 0 < nth (S i) y 0) ->
     forall i, (S i < List.length x)%nat -> shape_preserving x y i F).
Proof. exact steffen_class. Qed.
Print Assumptions c45_steffen.

Example c45_data : StronglySorted Rlt [0; 1; 3] /\ (3 <= List.length [0; 1; 3])%nat /\
  forall i, (S i < List.length [0; 1; 3])%nat -> nth i [1; 2; 7] 0 < nth (S i) [1; 2; 7] 0.
Proof. split; [repeat (constructor; try lra)|split; [cbn; lia|]]. intros [|[|i]]; cbn; try lra. intros; lia. Qed.

(* On the first and the last segment this fails for decreasing data (the end slopes get the wrong
   sign, even for points on a straight line) and for a flat first segment; two points are refused *)
Theorem c45_decreasing_refuted :
  slopes Steffen false [0; 1; 2] [2; 1; 0] = Ok [1; -1; 1] /\
  ~ shape_preserving [0; 1; 2] [2; 1; 0] 0 (hermite [0; 1; 2] [2; 1; 0] [1; -1; 1]).
Proof. exact steffen_wrong_sign. Qed.
Print Assumptions c45_decreasing_refuted.
Theorem c45_flat_end_refuted :
  exists yp, slopes Steffen false [0; 1; 2] [0; 0; 1] = Ok yp /\
  ~ shape_preserving [0; 1; 2] [0; 0; 1] 0 (hermite [0; 1; 2] [0; 0; 1] yp).
Proof. exact steffen_flat. Qed.
Print Assumptions c45_flat_end_refuted.
Theorem c45_two_points_refuted : forall a b c d, a < b -> slopes Steffen false [a; b] [c; d] = Err IndexError.
Proof. exact two_points_steffen. Qed.
Print Assumptions c45_two_points_refuted.

(* ---- C82 ------------------------------------------------------------------------------------------ *)
(* Three or more points on a straight line: every method returns the slope of the line everywhere
   (Steffen for rising lines, cardinal with tension 0) *)
Theorem c82_straight_line : forall a b x y m, StronglySorted Rlt x -> on_line a b x y -> (3 <= List.length x)%nat ->
  match m with Steffen => 0 <= b | Cardinal t => t = 0 | _ => True end ->
  slopes m false x y = Ok (repeat b (List.length x)).
Proof. exact slopes_line. Qed.
Print Assumptions c82_straight_line.

(* points on a parabola, on any grid: method 'parabola' returns the exact derivative everywhere *)
Theorem c82_parabola : forall a b c x y, StronglySorted Rlt x -> on_parabola a b c x y -> (3 <= List.length x)%nat ->
  slopes Parabola false x y = Ok (map (fun t => b + 2 * c * t) x).
Proof. exact parabola_quad. Qed.
Print Assumptions c82_parabola.

Example c82_data : on_line 1 2 [0; 1; 3] [1; 3; 7] /\ on_parabola 1 2 3 [0; 1; 3] [1; 6; 34].
Proof. split; (split; [reflexivity|]; intros [|[|[|i]]]; cbn; intros; try lra; lia). Qed.

(* Akima: the slope at a point with two segments on each side lies between the smallest and the
   largest of their four chord slopes; if the two segments on one side are on a line and those on the
   other side are not (up to the relative threshold 1e-9), it is the slope of that line *)
Theorem c82_akima_between : forall x y i lo hi, StronglySorted Rlt x -> (2 <= i)%nat -> (S (S i) < List.length x)%nat ->
  (forall k, (i <= k + 2)%nat -> (k <= i + 1)%nat -> lo <= chord x y k <= hi) ->
  exists yp, slopes Akima false x y = Ok yp /\ lo <= nth i yp 0 <= hi.
Proof. exact akima_between. Qed.
Print Assumptions c82_akima_between.
Theorem c82_akima_collinear : forall x y i D, StronglySorted Rlt x -> (2 <= i)%nat -> (S (S i) < List.length x)%nat ->
  (forall j, (S (S j) < List.length x)%nat -> Rabs (chord x y (S j) - chord x y j) <= D) ->
  exists yp, slopes Akima false x y = Ok yp /\
   (chord x y (i - 2) = chord x y (i - 1) -> 2 / 1000000000 * D < Rabs (chord x y (i + 1) - chord x y i) -> nth i yp 0 = chord x y (i - 1)) /\
   (chord x y i = chord x y (i + 1) -> 2 / 1000000000 * D < Rabs (chord x y (i - 1) - chord x y (i - 2)) -> nth i yp 0 = chord x y i).
Proof. exact akima_collinear. Qed.
Print Assumptions c82_akima_collinear.
Example c82_akima_data : let x := [0; 1; 2; 3; 4] in let y := [0; 1; 2; 4; 7] in
  (forall j, (S (S j) < List.length x)%nat -> Rabs (chord x y (S j) - chord x y j) <= 1) /\
  chord x y (2 - 2) = chord x y (2 - 1) /\ 2 / 1000000000 * 1 < Rabs (chord x y (2 + 1) - chord x y 2).
Proof.
  cbv zeta. unfold chord. split; [|split].
  - intros [|[|[|j]]] Hj; [| | |cbn in Hj; lia]; cbn [nth]; apply Rabs_le; lra.
  - cbn [nth Nat.sub]. lra.
  - cbn [nth Nat.add]. rewrite Rabs_right; lra.
Qed.

(* with two points, which always are on a line, 'parabola' and 'stineman' return other slopes *)
Theorem c82_two_points_refuted : forall a b c d, a < b -> c <> d ->
  slopes Parabola false [a; b] [c; d] = Ok [2 * ((d - c) / (b - a)); 0] /\
  slopes Stineman false [a; b] [c; d] = Ok [2 * ((d - c) / (b - a)); (d - c) / (b - a) / 2].
Proof. exact two_points_slopes. Qed.
Print Assumptions c82_two_points_refuted.

(* ---- C83 ------------------------------------------------------------------------------------------ *)
(* monotone = True only shrinks slopes.  When the estimated slopes have the signs of the data and no
   two neighbouring segments are both too steep, the cubic Hermite interpolant follows the data *)
Theorem c83_monotone : forall m x y yp, StronglySorted Rlt x -> slopes m false x y = Ok yp ->
  exists yp', slopes m true x y = Ok yp' /\ List.length yp' = List.length x /\
   (forall i, (i < List.length x)%nat -> exists c, 0 <= c <= 1 /\ nth i yp' 0 = c * nth i yp 0) /\
   ((forall i, (S i < List.length x)%nat -> 0 <= nth i yp 0 * chord x y i /\ 0 <= nth (S i) yp 0 * chord x y i) ->
    (forall i, (S (S i) < List.length x)%nat -> too_steep x y yp i -> ~ too_steep x y yp (S i)) ->
    forall i, (S i < List.length x)%nat -> shape_preserving x y i (hermite x y yp')).
Proof. exact monotone_class. Qed.
Print Assumptions c83_monotone.

(* a data set with one too steep segment meets the hypotheses *)
Example c83_data : slopes Secant false [0; 1; 2] [0; 1; 11] = Ok [1; 11/2; 10] /\
  (forall i, (S i < 3)%nat -> 0 <= nth i [1; 11/2; 10] 0 * chord [0; 1; 2] [0; 1; 11] i /\ 0 <= nth (S i) [1; 11/2; 10] 0 * chord [0; 1; 2] [0; 1; 11] i) /\
  too_steep [0; 1; 2] [0; 1; 11] [1; 11/2; 10] 0 /\ ~ too_steep [0; 1; 2] [0; 1; 11] [1; 11/2; 10] 1.
Proof.
  assert (S0 : chord [0; 1; 2] [0; 1; 11] 0 = 1) by (unfold chord; cbn; field).
  assert (S1 : chord [0; 1; 2] [0; 1; 11] 1 = 10) by (unfold chord; cbn; field).
  split; [|split; [|split]].
  - rewrite slopes_ok; [|repeat (constructor; try lra)|cbn; lia|exact I]. cbv zeta. cbn [List.length seq map slope_at].
    unfold secant_at. cbn [npts List.length Nat.eqb Nat.sub].
    change (secant [0; 1; 2] [0; 1; 11] 0) with (chord [0; 1; 2] [0; 1; 11] 0). change (secant [0; 1; 2] [0; 1; 11] 1) with (chord [0; 1; 2] [0; 1; 11] 1).
    rewrite S0, S1. replace ((1 + 10) / 2) with (11 / 2) by lra. reflexivity.
  - intros [|[|i]] Hi; [rewrite S0|rewrite S1|lia]; cbn; lra.
  - unfold too_steep. rewrite S0. cbn. lra.
  - unfold too_steep. rewrite S1. cbn. lra.
Qed.

(* both conditions are needed: monotone = True does not give monotone interpolants of increasing data *)
Theorem c83_wrong_sign_refuted : exists yp, slopes Parabola true [0; 1; 2] [0; 1; 11] = Ok yp /\
   ~ shape_preserving [0; 1; 2] [0; 1; 11] 0 (hermite [0; 1; 2] [0; 1; 11] yp).
Proof. exact parabola_not_monotone. Qed.
Print Assumptions c83_wrong_sign_refuted.
Theorem c83_neighbours_refuted : exists yp, slopes Secant true [0; 1; 2; 3] [0; 1; 11; 71] = Ok yp /\
   ~ shape_preserving [0; 1; 2; 3] [0; 1; 11; 71] 0 (hermite [0; 1; 2; 3] [0; 1; 11; 71] yp).
Proof. exact secant_not_monotone. Qed.
Print Assumptions c83_neighbours_refuted.

(* ---- C84 ------------------------------------------------------------------------------------------ *)
(* Stineman interpolation with any slopes passes through the data and differs from the straight line
   between two neighbouring points by no more than the tangents at the two points do *)
Theorem c84_bounded : forall m mono x y yp, StronglySorted Rlt x -> (2 <= List.length x)%nat ->
  exists F, StinemanInterp m mono x y (Some yp) = Ok F /\
   (forall i, (i < List.length x)%nat -> F (nth i x 0) = nth i y 0) /\
   (forall i t, (S i < List.length x)%nat -> nth i x 0 <= t <= nth (S i) x 0 ->
     Rabs (F t - (nth i y 0 + chord x y i * (t - nth i x 0)))
      <= Rmin (Rabs ((nth i yp 0 - chord x y i) * (t - nth i x 0))) (Rabs ((nth (S i) yp 0 - chord x y i) * (t - nth (S i) x 0)))).
Proof. exact stineman_class. Qed.
Print Assumptions c84_bounded.

(* Stineman's slopes: convex data give a convex curve, and if the data also increase (decrease) the
   curve increases (decreases) *)
Theorem c84_convex : forall x y, StronglySorted Rlt x -> (3 <= List.length x)%nat -> convex_data x y ->
  exists F, StinemanInterp Stineman false x y None = Ok F /\
   convex_on (nth 0 x 0) (nth (List.length x - 1) x 0) F /\
   (nth 0 y 0 < nth 1 y 0 -> forall s t, nth 0 x 0 <= s -> s < t -> t <= nth (List.length x - 1) x 0 -> F s < F t) /\
   (nth (List.length x - 1) y 0 < nth (List.length x - 2) y 0 -> forall s t, nth 0 x 0 <= s -> s < t -> t <= nth (List.length x - 1) x 0 -> F t < F s).
Proof. exact stineman_convex. Qed.
Print Assumptions c84_convex.

(* slopes from parabolas: convex data give a convex curve *)
Theorem c84_parabola_convex : forall x y, StronglySorted Rlt x -> (3 <= List.length x)%nat -> convex_data x y ->
  exists F, StinemanInterp Parabola false x y None = Ok F /\ convex_on (nth 0 x 0) (nth (List.length x - 1) x 0) F.
Proof. exact stineman_parabola_convex. Qed.
Print Assumptions c84_parabola_convex.

Example c84_data : StronglySorted Rlt [0; 1; 3] /\ convex_data [0; 1; 3] [1; 2; 9] /\ nth 0 [1; 2; 9] 0 < nth 1 [1; 2; 9] 0.
Proof.
  split; [repeat (constructor; try lra)|split; [|cbn; lra]]. intros [|i] Hi; [unfold chord; cbn; lra|cbn in Hi; lia].
Qed.

(* ... but not an increasing curve for increasing data, and two points do not give a straight line *)
Theorem c84_parabola_increasing_refuted : exists F, StinemanInterp Parabola false [0; 1; 2] [0; 1; 11] None = Ok F /\ F (1/10) < F 0.
Proof. exact parabola_stineman_dips. Qed.
Print Assumptions c84_parabola_increasing_refuted.
Theorem c84_two_points_refuted : exists F, StinemanInterp Stineman false [0; 1] [0; 1] None = Ok F /\ F (1/2) = 2/3.
Proof. exact two_points_stineman. Qed.
Print Assumptions c84_two_points_refuted.
