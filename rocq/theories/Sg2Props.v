(* Theorems about smoothing and differentiating surfaces (C156). *)
From Coq Require Import Reals List Arith.
From Verif Require Import Base ArSpec Sg2Model Sg2Spec Sg2Proofs4 Sg2Proofs5 Sg2Proofs6 Sg2Cases.
Import ListNotations.
Local Open Scope R_scope.

(* Every matrix has a Moore-Penrose inverse. *)

Example c156_inverse_case : exists pinv, is_inverse pinv.
Proof. exact (inverse_case). Qed.

(* Where the window lies in the image. *)

Theorem c156_smoothing : forall pinv z w order out i j c, is_inverse pinv -> sgolay2d pinv z w order NoDeriv = Ok out -> inside (rows z) (cols z) (w / 2) i j -> looks_like (px z) i j (w / 2) order c ->
  exists y, out = [y] /\ px y i j = px z i j.
Proof. exact (smoothing). Qed.
Print Assumptions c156_smoothing.

Theorem c156_row_slope : forall pinv z w order out i j c g, is_inverse pinv -> (order < w)%nat -> sgolay2d pinv z w order Col = Ok out -> inside (rows z) (cols z) (w / 2) i j -> looks_like (px z) i j (w / 2) order c -> row_rate order c g ->
  exists y, out = [y] /\ px y i j = g.
Proof. exact (row_slope). Qed.
Print Assumptions c156_row_slope.

Theorem c156_column_slope : forall pinv z w order out i j c g, is_inverse pinv -> (order < w)%nat -> sgolay2d pinv z w order Row = Ok out -> inside (rows z) (cols z) (w / 2) i j -> looks_like (px z) i j (w / 2) order c -> column_rate order c g ->
  exists y, out = [y] /\ px y i j = g.
Proof. exact (column_slope). Qed.
Print Assumptions c156_column_slope.

Theorem c156_both : forall pinv z w order out, sgolay2d pinv z w order Both = Ok out -> exists y y', out = [y; y'] /\ sgolay2d pinv z w order Col = Ok [y] /\ sgolay2d pinv z w order Row = Ok [y'].
Proof. exact (both_slopes). Qed.
Print Assumptions c156_both.

Example c156_hill_case : forall pinv, is_inverse pinv -> exists y y' y'', sgolay2d pinv hill 3 2 NoDeriv = Ok [y] /\ px y 2%nat 3%nat = 13 /\ sgolay2d pinv hill 3 2 Both = Ok [y'; y''] /\ px y' 2%nat 3%nat = 10 /\ px y'' 2%nat 3%nat = 3.
Proof. exact (hill_case). Qed.

(* Up to the border. *)

Theorem c156_constant : forall pinv z w order out a, is_inverse pinv -> (forall i j, px z i j = a) -> sgolay2d pinv z w order NoDeriv = Ok out ->
  exists y, out = [y] /\ forall i j, (i < rows z)%nat -> (j < cols z)%nat -> px y i j = a.
Proof. exact (constant_kept). Qed.
Print Assumptions c156_constant.

Theorem c156_rising : forall pinv z w order out a b c, is_inverse pinv -> (1 <= order)%nat -> plane (px z) a b c -> 0 <= b -> 0 <= c -> sgolay2d pinv z w order NoDeriv = Ok out ->
  exists y, out = [y] /\ forall i j, (i < rows z)%nat -> (j < cols z)%nat -> px y i j = px z i j.
Proof. exact (rising_plane). Qed.
Print Assumptions c156_rising.

Theorem c156_rising_slopes : forall pinv z w order out a b c, is_inverse pinv -> (order < w)%nat -> plane (px z) a b c -> 0 <= b -> 0 <= c -> sgolay2d pinv z w order Both = Ok out ->
  exists y y', out = [y; y'] /\ forall i j, (i < rows z)%nat -> (j < cols z)%nat -> px y i j = b /\ px y' i j = c.
Proof. exact (rising_slopes). Qed.
Print Assumptions c156_rising_slopes.

(* Calls that are refused, and the shape of the result. *)

Theorem c156_even : forall pinv z w order d, Nat.even w = true -> sgolay2d pinv z w order d = Err TypeError.
Proof. exact (even_window). Qed.
Print Assumptions c156_even.

Theorem c156_few : forall pinv z w order d, (2 * (w * w) + 1 < (order + 1) * (order + 2))%nat -> sgolay2d pinv z w order d = Err TypeError.
Proof. exact (few_points). Qed.
Print Assumptions c156_few.

Theorem c156_accepted : forall pinv z w order d, Nat.odd w = true -> (3 <= w)%nat -> (w / 2 < rows z)%nat -> (w / 2 < cols z)%nat -> ((order + 1) * (order + 2) <= 2 * (w * w) + 1)%nat ->
  match d with
  | Other => sgolay2d pinv z w order d = Err KeyError
  | NoDeriv => exists y, sgolay2d pinv z w order d = Ok [y] /\ rows y = rows z /\ cols y = cols z
  | Col | Row => if (order =? 0)%nat then sgolay2d pinv z w order d = Err IndexError else exists y, sgolay2d pinv z w order d = Ok [y] /\ rows y = rows z /\ cols y = cols z
  | Both => if (order =? 0)%nat then sgolay2d pinv z w order d = Err IndexError else exists y y', sgolay2d pinv z w order d = Ok [y; y'] /\ rows y = rows z /\ cols y = cols z /\ rows y' = rows z /\ cols y' = cols z
  end.
Proof. exact (accepted). Qed.
Print Assumptions c156_accepted.

(* What fails. *)

Theorem c156_order_refuted : forall pinv z w order out i j, is_inverse pinv -> (w <= order)%nat -> plane (px z) 0 1 0 -> sgolay2d pinv z w order Col = Ok out -> (i < rows z)%nat -> (j < cols z)%nat ->
  exists y, out = [y] /\ px y i j <> 1.
Proof. exact (high_order). Qed.
Print Assumptions c156_order_refuted.

Example c156_order_case : forall pinv, is_inverse pinv -> plane (px ramp) 0 1 0 /\ exists y y', sgolay2d pinv ramp 5 5 Col = Ok [y] /\ px y 3%nat 3%nat <> 1 /\ sgolay2d pinv ramp 5 4 Col = Ok [y'] /\ px y' 3%nat 3%nat = 1.
Proof. exact (ramp_case). Qed.

Theorem c156_border_refuted : forall pinv z out, is_inverse pinv -> plane (px z) 0 (-1) 0 -> (3 <= rows z)%nat -> (3 <= cols z)%nat -> sgolay2d pinv z 3 1 NoDeriv = Ok out ->
  px z 0%nat 1%nat = 0 /\ exists y, out = [y] /\ px y 0%nat 1%nat = - 2 / 3.
Proof. exact (falling_plane). Qed.
Print Assumptions c156_border_refuted.

Example c156_border_case : forall pinv, plane (px slide) 0 (-1) 0 /\ exists y, sgolay2d pinv slide 3 1 NoDeriv = Ok [y].
Proof. exact (slide_case). Qed.
