(* Theorems about savitzky_golay and savitzky_golay_piecewise (C145). *)
From Coq Require Import Reals List ZArith Bool.
From Verif Require Import Base ArSpec SgModel SgSpec SgProofs SgProofs2 SgProofs3.
Import ListNotations.
Local Open Scope R_scope.

(* One smoothed value for every value. *)

Theorem c145_length : forall pinv y h n d, (n + 2 <= 2 * h + 1)%nat -> (d <= n)%nat -> (h < List.length y)%nat -> exists z, savitzky_golay pinv y (Z.of_nat (2 * h + 1)) (Z.of_nat n) d = Ok z /\ List.length z = List.length y.
Proof. exact (same_length). Qed.
Print Assumptions c145_length.

(* Away from the ends: values of a polynomial give (-1)^d times its coefficient of order d, so they are kept for deriv = 0. *)

Theorem c145_polynomial : forall pinv y h n d z k c, (n + 2 <= 2 * h + 1)%nat -> (d <= n)%nat -> pseudo_inverse (2 * h + 1) (n + 1) (powers h) (pinv (2 * h + 1)%nat (n + 1)%nat (powers h)) ->
  savitzky_golay pinv y (Z.of_nat (2 * h + 1)) (Z.of_nat n) d = Ok z -> (h <= k)%nat -> (k + h < List.length y)%nat -> follows y k h n c -> nth k z 0 = (-1) ^ d * c d.
Proof. exact (polynomial_kept). Qed.
Print Assumptions c145_polynomial.

(* Other values: the same for the polynomial that is nearest in the sense of least squares. *)

Theorem c145_least_squares : forall pinv y h n d z k, (n + 2 <= 2 * h + 1)%nat -> (d <= n)%nat -> pseudo_inverse (2 * h + 1) (n + 1) (powers h) (pinv (2 * h + 1)%nat (n + 1)%nat (powers h)) ->
  savitzky_golay pinv y (Z.of_nat (2 * h + 1)) (Z.of_nat n) d = Ok z -> (h <= k)%nat -> (k + h < List.length y)%nat -> exists c, (forall c', misfit y k h n c <= misfit y k h n c') /\ nth k z 0 = (-1) ^ d * c d.
Proof. exact (fitted). Qed.
Print Assumptions c145_least_squares.

(* No other weights that keep polynomials give less noise. *)

Theorem c145_least_noise : forall pinv h n d, (n + 2 <= 2 * h + 1)%nat -> (d <= n)%nat -> pseudo_inverse (2 * h + 1) (n + 1) (powers h) (pinv (2 * h + 1)%nat (n + 1)%nat (powers h)) ->
  exists m, (forall y z k, savitzky_golay pinv y (Z.of_nat (2 * h + 1)) (Z.of_nat n) d = Ok z -> (h <= k)%nat -> (k + h < List.length y)%nat -> nth k z 0 = sum_to (2 * h + 1) (fun j => m j * nth (k + h - j) y 0)) /\
  forall m', (forall c, sum_to (2 * h + 1) (fun j => m' j * poly n c (INR h - INR j)) = (-1) ^ d * c d) -> sum_to (2 * h + 1) (fun j => m j ^ 2) <= sum_to (2 * h + 1) (fun j => m' j ^ 2).
Proof. exact (quiet). Qed.
Print Assumptions c145_least_noise.

(* At the ends: constants and rising straight lines are kept, ... *)

Theorem c145_constant : forall pinv y h n z a, (n + 2 <= 2 * h + 1)%nat -> pseudo_inverse (2 * h + 1) (n + 1) (powers h) (pinv (2 * h + 1)%nat (n + 1)%nat (powers h)) -> (h < List.length y)%nat -> (forall i, (i < List.length y)%nat -> nth i y 0 = a) ->
  savitzky_golay pinv y (Z.of_nat (2 * h + 1)) (Z.of_nat n) 0 = Ok z -> z = y.
Proof. exact (constant_kept). Qed.
Print Assumptions c145_constant.

Theorem c145_line : forall pinv y h n z a b, (1 <= n)%nat -> (n + 2 <= 2 * h + 1)%nat -> pseudo_inverse (2 * h + 1) (n + 1) (powers h) (pinv (2 * h + 1)%nat (n + 1)%nat (powers h)) -> (h < List.length y)%nat -> 0 <= b -> (forall i, (i < List.length y)%nat -> nth i y 0 = a + b * INR i) ->
  savitzky_golay pinv y (Z.of_nat (2 * h + 1)) (Z.of_nat n) 0 = Ok z -> z = y.
Proof. exact (line_kept). Qed.
Print Assumptions c145_line.

(* ... falling ones are not. *)

Theorem c145_falling_refuted : exists pinv y z, pseudo_inverse 3 2 (powers 1) (pinv 3%nat 2%nat (powers 1)) /\ (forall i, (i < 3)%nat -> nth i y 0 = 2 - INR i) /\ savitzky_golay pinv y 3 1 0 = Ok z /\ nth 0 z 0 = 4 / 3 /\ nth 2 z 0 = 2 / 3.
Proof. exact (decreasing_end). Qed.
Print Assumptions c145_falling_refuted.

(* The first derivative of 0, 1, 2 is given as -1. *)

Theorem c145_derivative_refuted : exists pinv y z, pseudo_inverse 3 2 (powers 1) (pinv 3%nat 2%nat (powers 1)) /\ (forall i, (i < 3)%nat -> nth i y 0 = INR i) /\ savitzky_golay pinv y 3 1 1 = Ok z /\ nth 1 z 0 = -1.
Proof. exact (derivative_sign). Qed.
Print Assumptions c145_derivative_refuted.

(* Fewer values than half a window. *)

Theorem c145_short_refuted : forall pinv, exists y z, List.length y = 2%nat /\ savitzky_golay pinv y 7 1 0 = Ok z /\ List.length z = 4%nat.
Proof. exact (short_refuted). Qed.
Print Assumptions c145_short_refuted.

(* Arguments. *)

Theorem c145_rejected : forall pinv y w n d, (savitzky_golay pinv y w n d = Err TypeError <-> (Z.even w = true \/ (Z.abs w < Z.abs n + 2)%Z)) /\
  (Z.even w = false -> (Z.abs n + 2 <= Z.abs w)%Z -> (y = [] \/ (Z.abs n < Z.of_nat d)%Z) -> savitzky_golay pinv y w n d = Err IndexError).
Proof. exact (rejected). Qed.
Print Assumptions c145_rejected.

(* The piecewise filter smooths each monotone piece of x on its own. *)

Theorem c145_pieces : forall pinv x data w n z, List.length x = List.length data -> savitzky_golay_piecewise pinv x data w n = Ok z -> cut (fun d => savitzky_golay pinv d w n 0) x data z.
Proof. exact (smoothed_pieces). Qed.
Print Assumptions c145_pieces.

Theorem c145_answers : forall pinv x data w n, savitzky_golay_piecewise pinv x data w n <> Err OutOfFuel.
Proof. exact (piecewise_answers). Qed.
Print Assumptions c145_answers.

Theorem c145_increasing : forall pinv x data w n, (2 <= List.length x)%nat -> (forall i, (S i < List.length x)%nat -> nth i x 0 < nth (S i) x 0) -> savitzky_golay_piecewise pinv x data w n = savitzky_golay pinv data w n 0.
Proof. exact (increasing_whole). Qed.
Print Assumptions c145_increasing.

Theorem c145_decreasing : forall pinv x data w n, (2 <= List.length x)%nat -> (forall i, (S i < List.length x)%nat -> nth (S i) x 0 <= nth i x 0) -> savitzky_golay_piecewise pinv x data w n = savitzky_golay pinv data w n 0.
Proof. exact (decreasing_whole). Qed.
Print Assumptions c145_decreasing.

(* A last point on its own raises IndexError. *)

Theorem c145_last_point_refuted : forall pinv a b c w n s, savitzky_golay pinv [a; b] w n 0 = Ok s -> savitzky_golay_piecewise pinv [0; 1; 0] [a; b; c] w n = Err IndexError /\ savitzky_golay_piecewise pinv [0; 0; 1] [a; b; c] w n = Err IndexError.
Proof. exact (trailing). Qed.
Print Assumptions c145_last_point_refuted.

Example c145_case : exists pinv y z c, pseudo_inverse 3 2 (powers 1) (pinv 3%nat 2%nat (powers 1)) /\ savitzky_golay pinv y 3 1 0 = Ok z /\ List.length y = 4%nat /\ follows y 1 1 1 c /\ nth 1 z 0 = 5.
Proof. exact (smooth_case). Qed.

Example c145_piece_case : exists pinv, pseudo_inverse 3 2 (powers 1) (pinv 3%nat 2%nat (powers 1)) /\ savitzky_golay_piecewise pinv [0; 1; 2; 1; 0] [0; 1; 2; 4; 5] 3 1 = Ok [0; 1; 2; 4; 5].
Proof. exact (piece_case). Qed.
