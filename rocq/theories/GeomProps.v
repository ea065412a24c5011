(* C68, C70, C73, C85: rotation, moving average, powers of two, polar coordinates and points on a line *)
From Coq Require Import Reals Lra.
From Verif Require Import Base PolyModel GeomModel GeomSpec GeomProofs.
Local Open Scope R_scope.

(* C68: rotation_matrix is orthogonal with determinant one, for all angles *)
Theorem c68_rotation_matrix : forall h p r, orthogonal3 (rotation_matrix h p r) /\ det3 (rotation_matrix h p r) = 1.
Proof. exact rotation_orthogonal. Qed.
Print Assumptions c68_rotation_matrix.
(* C68: rotate rolls about x, then pitches about y, then turns about z, the angles being in degrees *)
Theorem c68_rotate : forall x y z h p r,
  rotate x y z h p r = about_z (about_y (about_x (x, y, z) (rad r)) (rad p)) (rad h).
Proof. exact rotate_composed. Qed.
Print Assumptions c68_rotate.
(* C68: it preserves inner products, hence lengths and angles *)
Theorem c68_rotate_isometry : forall u v h p r, let '(a, b, c) := u in let '(x, y, z) := v in
  dot (rotate a b c h p r) (rotate x y z h p r) = dot u v.
Proof. exact rotate_dot. Qed.
Print Assumptions c68_rotate_isometry.
(* C68: rotate_2d is the rotation by a heading alone; it preserves lengths, composes by adding angles,
   and turns counter clockwise *)
Theorem c68_rotate_2d_heading : forall x y z a, rotate x y z a 0 0 = (fst (rotate_2d x y a), snd (rotate_2d x y a), z).
Proof. exact rotate_heading. Qed.
Print Assumptions c68_rotate_2d_heading.
Theorem c68_rotate_2d_length : forall x y a, let '(u, v) := rotate_2d x y a in u * u + v * v = x * x + y * y.
Proof. exact rotate_2d_length. Qed.
Print Assumptions c68_rotate_2d_length.
Theorem c68_rotate_2d_add : forall x y a b, let '(u, v) := rotate_2d x y a in rotate_2d u v b = rotate_2d x y (a + b).
Proof. exact rotate_2d_add. Qed.
Print Assumptions c68_rotate_2d_add.
Theorem c68_rotate_2d_turn : forall x y, rotate_2d x y 0 = (x, y) /\ rotate_2d x y 360 = (x, y) /\ rotate_2d x y 90 = (- y, x).
Proof. intros. split; [exact (rotate_2d_zero x y)|exact (rotate_2d_turn x y)]. Qed.
Print Assumptions c68_rotate_2d_turn.

(* C85: converting to polar coordinates and back gives the point, with a radius that is not negative and
   an angle in (-pi, pi] *)
Theorem c85_cart_polar_cart : forall x y,
  polar2cart (fst (cart2polar x y)) (snd (cart2polar x y)) = (x, y) /\
  0 <= snd (cart2polar x y) /\ - PI < fst (cart2polar x y) <= PI.
Proof. exact cart_polar_cart. Qed.
Print Assumptions c85_cart_polar_cart.
Theorem c85_polar_cart_polar : forall theta rho, 0 < rho -> - PI < theta <= PI ->
  let c := polar2cart theta rho in cart2polar (fst c) (snd c) = (theta, rho).
Proof. exact polar_cart_polar. Qed.
Print Assumptions c85_polar_cart_polar.
Example c85_polar_case : 0 < 2 /\ - PI < PI <= PI.
Proof. pose proof PI_RGT_0. lra. Qed.
(* C85: spaceline(start, stop, num) has num points that divide the segment evenly, the first being start
   and the last stop; with num <= 1 it is the midpoint *)
Theorem c85_spaceline : forall start stop num, List.length start = List.length stop -> (1 < num)%Z ->
  List.length (spaceline start stop num) = Z.to_nat num /\
  forall n i, (n < Z.to_nat num)%nat -> (i < List.length start)%nat ->
    List.length (nth n (spaceline start stop num) []) = List.length start /\
    nth i (nth n (spaceline start stop num) []) 0 = nth i start 0 + INR n / IZR (num - 1) * (nth i stop 0 - nth i start 0).
Proof. exact spaceline_ok. Qed.
Print Assumptions c85_spaceline.
Theorem c85_spaceline_ends : forall start stop num, List.length start = List.length stop -> (1 < num)%Z -> start <> [] ->
  nth 0 (spaceline start stop num) [] = start /\ nth (Z.to_nat num - 1) (spaceline start stop num) [] = stop.
Proof. exact spaceline_ends. Qed.
Print Assumptions c85_spaceline_ends.
Theorem c85_spaceline_single : forall start stop num, List.length start = List.length stop -> (num <= 1)%Z ->
  exists p, spaceline start stop num = [p] /\ List.length p = List.length start /\
    forall i, (i < List.length start)%nat -> nth i p 0 = (nth i start 0 + nth i stop 0) / 2.
Proof. exact spaceline_mid. Qed.
Print Assumptions c85_spaceline_single.
Example c85_spaceline_case : List.length [2; 0; 0] = List.length [3; 0; 0] /\ (1 < 5)%Z.
Proof. split; [reflexivity|lia]. Qed.

(* C73: nextpow2 of a number that is not zero is the least m with |x| <= 2^m; nextpow2(0) is 0; of a
   vector of two or more elements it is that of its length *)
Theorem c73_nextpow2 : forall frexp x, is_frexp frexp -> x <> 0 ->
  exists m, nextpow2 frexp (Scalar x) = Ok m /\ nextpow2 frexp (Vector [x]) = Ok m /\
    Rabs x <= powerRZ 2 m /\ forall k, Rabs x <= powerRZ 2 k -> (m <= k)%Z.
Proof. exact nextpow2_scalar. Qed.
Print Assumptions c73_nextpow2.
Theorem c73_nextpow2_zero : forall frexp, is_frexp frexp -> nextpow2 frexp (Scalar 0) = Ok 0%Z.
Proof. exact nextpow2_zero. Qed.
Print Assumptions c73_nextpow2_zero.
Theorem c73_nextpow2_vector : forall frexp l, is_frexp frexp -> (2 <= List.length l)%nat ->
  exists m, nextpow2 frexp (Vector l) = Ok m /\ INR (List.length l) <= powerRZ 2 m /\
    forall k, INR (List.length l) <= powerRZ 2 k -> (m <= k)%Z.
Proof. exact nextpow2_vector. Qed.
Print Assumptions c73_nextpow2_vector.
Example c73_case : is_frexp frexp_of.
Proof. exact frexp_exists. Qed.

(* C70: what moving_average(x, L) returns for at least 2L+1 samples: the mean of the first 2L+1 samples up
   to L; then the mean of 2L samples, shifted by a constant that depends on the first 2L+1 samples; the
   last L values are repeated *)
Theorem c70_moving_average : forall x L, (0 < L)%Z -> (2 * Z.to_nat L + 1 <= List.length x)%nat ->
  let l := Z.to_nat L in let n := List.length x in
  exists y, moving_average (fun v => v) x L = Ok y /\ List.length y = n /\
    (forall i, (i <= l)%nat -> nth i y 0 = window_mean x 0 (2 * l + 1)) /\
    (forall i, (l < i < n - l)%nat -> nth i y 0 =
       window_mean x (i - l + 1) (i + l + 1) + (window_mean x 0 (2 * l + 1) - window_mean x 1 (2 * l + 1))) /\
    (forall i, (n - l <= i < n)%nat -> nth i y 0 = nth (n - l - 1) y 0).
Proof. exact moving_average_shape. Qed.
Print Assumptions c70_moving_average.
(* C70: of a straight line the inner values are the line, which there is also the mean of the 2L+1
   surrounding samples *)
Theorem c70_straight_line : forall x L a b, (0 < L)%Z -> (2 * Z.to_nat L + 1 <= List.length x)%nat ->
  (forall i, (i < List.length x)%nat -> nth i x 0 = a + b * INR i) ->
  exists y, moving_average (fun v => v) x L = Ok y /\ List.length y = List.length x /\
    forall i, (Z.to_nat L <= i < List.length x - Z.to_nat L)%nat ->
      nth i y 0 = nth i x 0 /\ window_mean x (i - Z.to_nat L) (i + Z.to_nat L + 1) = nth i x 0.
Proof. exact moving_average_line. Qed.
Print Assumptions c70_straight_line.
Example c70_line_case : (2 * Z.to_nat 1 + 1 <= List.length [1; 3; 5; 7])%nat /\ nth 2 [1; 3; 5; 7] 0 = 1 + 2 * INR 2.
Proof. split; [cbn; lia|cbn; lra]. Qed.
(* C70: of a shorter series every value is the mean of all *)
Theorem c70_short : forall x L, (0 < L)%Z -> (List.length x < 2 * Z.to_nat L + 1)%nat ->
  moving_average (fun v => v) x L = Ok (repeat (mean x) (List.length x)).
Proof. exact moving_average_short. Qed.
Print Assumptions c70_short.
Theorem c70_window_positive : forall store x L, (L <= 0)%Z -> moving_average store x L = Err ValueError.
Proof. exact moving_average_bad. Qed.
Print Assumptions c70_window_positive.
(* C70 fails in general: inner values are not the mean of the 2L+1 surrounding samples; here a large first
   sample stays in the average although all surrounding samples are zero *)
Theorem c70_window_mean_refuted : exists x L y i, (0 < L)%Z /\ (Z.to_nat L <= i < List.length x - Z.to_nat L)%nat /\
  moving_average (fun v => v) x L = Ok y /\ nth i y 0 <> window_mean x (i - Z.to_nat L) (i + Z.to_nat L + 1).
Proof.
  destruct first_sample_shift as (y & E & _ & Y & _ & W). exists [3; 0; 0; 0; 0], 1%Z, y, 3%nat.
  split; [lia|]. split; [change (Z.to_nat 1) with 1%nat; change (List.length [3; 0; 0; 0; 0]) with 5%nat; lia|]. split; [exact E|]. change (window_mean [3; 0; 0; 0; 0] (3 - Z.to_nat 1) (3 + Z.to_nat 1 + 1)) with (window_mean [3; 0; 0; 0; 0] 2 5).
  rewrite Y, W. lra.
Qed.
Print Assumptions c70_window_mean_refuted.
(* C70 fails for integer input too: the result has the type of the input, so averages are truncated *)
Theorem c70_integer_refuted : exists x L y, (0 < L)%Z /\ Forall (fun v => exists k, v = IZR k) x /\
  moving_average trunc x L = Ok y /\ nth 1 y 0 <> window_mean x 0 3 /\ List.length x = 3%nat /\ L = 1%Z.
Proof. exact integer_truncated. Qed.
Print Assumptions c70_integer_refuted.
(* C70: detrendma subtracts that average; the inner part of a straight line becomes zero *)
Theorem c70_detrendma : forall store x L t, moving_average store x L = Ok t ->
  exists y, detrendma store x L = Ok y /\ List.length y = List.length x /\ List.length t = List.length x /\
    forall i, (i < List.length x)%nat -> nth i y 0 + nth i t 0 = nth i x 0.
Proof. exact detrendma_sum. Qed.
Print Assumptions c70_detrendma.
Theorem c70_detrendma_line : forall x L a b, (0 < L)%Z -> (2 * Z.to_nat L + 1 <= List.length x)%nat ->
  (forall i, (i < List.length x)%nat -> nth i x 0 = a + b * INR i) ->
  exists y, detrendma (fun v => v) x L = Ok y /\ List.length y = List.length x /\
    forall i, (Z.to_nat L <= i < List.length x - Z.to_nat L)%nat -> nth i y 0 = 0.
Proof. exact detrendma_line. Qed.
Print Assumptions c70_detrendma_line.
