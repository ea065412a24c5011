(* Properties C41, C42 and C81: class PPform of interpolate.py. *)
From Coq Require Import Reals Lra Lia Sorted.
From Verif Require Import Base PolyModel PolySpec PPModel PPSpec PPProofs PPProofs2.
Local Open Scope R_scope.

(* ---- C41 -------------------------------------------------------------------------- *)
(* in (b_i, b_(i+1)] the value is the polynomial of piece i in x - b_i *)
Theorem c41_piece : forall cs bs fl i x, well_formed cs bs -> (i < List.length cs)%nat ->
  nth i bs 0 < x <= nth (S i) bs 0 ->
  exists p, pp_new cs bs fl = Ok p /\ pp_call p x = Ok (peval (nth i cs []) (x - nth i bs 0)).
Proof. exact call_piece. Qed.
Print Assumptions c41_piece.

Theorem c41_first_break : forall cs bs fl, well_formed cs bs ->
  exists p, pp_new cs bs fl = Ok p /\ pp_call p (hd 0 bs) = Ok (peval (hd [] cs) 0).
Proof. exact call_first. Qed.
Print Assumptions c41_first_break.

Theorem c41_outside : forall cs bs fl p x, pp_new cs bs fl = Ok p -> ~ between_breaks bs x ->
  pp_call p x = Ok fl.
Proof. exact call_outside. Qed.
Print Assumptions c41_outside.

(* derivative() is the derivative inside every piece of order at least 2 *)
Theorem c41_derivative : forall cs bs fl, well_formed cs bs -> Forall (fun c => 2 <= List.length c)%nat cs ->
  exists p q F, pp_new cs bs fl = Ok p /\ pp_derivative p = Ok q /\
  (forall x, between_breaks bs x -> pp_call p x = Ok (F x)) /\
  (forall i x, (i < List.length cs)%nat -> in_piece bs i x ->
     exists d, pp_call q x = Ok d /\ derivable_pt_lim F x d).
Proof. exact derivative_spec. Qed.
Print Assumptions c41_derivative.

(* documented: piece i holds for x_i <= x < x_(i+1).  The value at a break is the one of the
   piece to its left. *)
Theorem c41_left_closed_refuted : exists p, pp_new [[0]; [1]] [0; 1; 2] 0 = Ok p /\ pp_call p 1 = Ok 0.
Proof. exact step_at_break. Qed.
Print Assumptions c41_left_closed_refuted.

(* evaluation at an array of integers truncates the values *)
Theorem c41_integer_points_refuted : exists p, pp_new [[1/2; 0]] [0; 2] 0 = Ok p /\
  pp_call p 1 = Ok (1/2) /\ pp_call_int p 1 = Ok 0.
Proof. exact integer_points_wrong. Qed.
Print Assumptions c41_integer_points_refuted.

(* the derivative of a piecewise constant cannot be evaluated between the breaks *)
Theorem c41_constant_derivative_refuted : forall cs bs fl x, well_formed cs bs ->
  Forall (fun c => List.length c = 1%nat) cs -> between_breaks bs x ->
  exists p q, pp_new cs bs fl = Ok p /\ pp_derivative p = Ok q /\ pp_call q x = Err IndexError.
Proof. exact derivative_constant. Qed.
Print Assumptions c41_constant_derivative_refuted.

Ltac sorted_tac := repeat (constructor; try (repeat constructor; lra)).
Example c41_case : well_formed [[1; 2; 0]; [3; -1; 4]] [0; 1; 5/2] /\ (1 < 2)%nat /\
  nth 1 [0; 1; 5/2] 0 < 2 <= nth 2 [0; 1; 5/2] 0 /\ in_piece [0; 1; 5/2] 0 (1/2) /\ between_breaks [0; 1; 5/2] 2
  /\ ~ between_breaks [0; 1; 5/2] 3.
Proof.
  repeat split; cbn; try lra; try lia; try discriminate; try (unfold between_breaks; cbn; lra); sorted_tac; try discriminate.
Qed.
Example c41_case_const : well_formed [[1]; [2]] [0; 1; 2] /\ Forall (fun c => List.length c = 1%nat) [[1]; [2]].
Proof. repeat split; cbn; try discriminate; sorted_tac; try discriminate; try reflexivity. Qed.

(* ---- C42 -------------------------------------------------------------------------- *)
Theorem c42_integrate : forall cs bs fl, well_formed cs bs ->
  exists p q F, pp_new cs bs fl = Ok p /\ pp_integrate p = Ok q /\
  continuity F /\ F (hd 0 bs) = 0 /\
  (forall x, between_breaks bs x -> pp_call q x = Ok (F x)) /\
  (forall i x, (i < List.length cs)%nat -> in_piece bs i x ->
     exists d, pp_call p x = Ok d /\ derivable_pt_lim F x d).
Proof. exact integrate_spec. Qed.
Print Assumptions c42_integrate.

Theorem c42_derivative_of_integral : forall cs bs fl, well_formed cs bs ->
  exists p q, pp_new cs bs fl = Ok p /\ pp_integrate p = Ok q /\ pp_derivative q = Ok p.
Proof. exact derivative_integrate. Qed.
Print Assumptions c42_derivative_of_integral.

Example c42_case : well_formed [[1; 2]; [3; -1]; [0; 7]] [0; 1; 5/2; 9].
Proof. repeat split; cbn; try discriminate; sorted_tac; try discriminate. Qed.

(* ---- C81 -------------------------------------------------------------------------- *)
(* beyond the breaks: the tangent lines at the first and at the last break *)
Theorem c81_linear_extrapolate : forall cs bs fl k, well_formed cs bs ->
  Forall (fun c => List.length c = (k + 3)%nat) cs ->
  exists p q d0 dN, pp_new cs bs fl = Ok p /\ pp_linear_extrapolate p = Ok q /\
  derivable_pt_lim (peval (hd [] cs)) 0 d0 /\
  derivable_pt_lim (peval (last cs [])) (last bs 0 - nth (List.length bs - 2) bs 0) dN /\
  forall x, pp_call q x =
    if Rle_dec x (hd 0 bs) then Ok (peval (hd [] cs) 0 + d0 * (x - hd 0 bs))
    else if Rle_dec x (last bs 0) then pp_call p x
    else Ok (peval (last cs []) (last bs 0 - nth (List.length bs - 2) bs 0) + dN * (x - last bs 0)).
Proof. exact extrapolate_spec. Qed.
Print Assumptions c81_linear_extrapolate.

(* a piecewise linear (or constant) function is not extrapolated at all *)
Theorem c81_piecewise_linear_refuted : forall cs bs fl, well_formed cs bs ->
  Forall (fun c => List.length c <= 2)%nat cs ->
  exists p, pp_new cs bs fl = Ok p /\ pp_linear_extrapolate p = Ok p /\
  forall x, ~ between_breaks bs x -> pp_call p x = Ok fl.
Proof. exact extrapolate_low_order. Qed.
Print Assumptions c81_piecewise_linear_refuted.

(* the derivative of the extrapolated function is 0 one unit beyond the last break *)
Theorem c81_derivative_refuted : forall cs bs fl k, well_formed cs bs ->
  Forall (fun c => List.length c = (k + 3)%nat) cs ->
  exists p q q', pp_new cs bs fl = Ok p /\ pp_linear_extrapolate p = Ok q /\ pp_derivative q = Ok q' /\
  forall x, last bs 0 + 1 < x -> pp_call q' x = Ok 0.
Proof. exact extrapolated_derivative. Qed.
Print Assumptions c81_derivative_refuted.

Example c81_case : well_formed [[1; 2; 0]; [3; -1; 4]] [0; 1; 5/2] /\
  Forall (fun c => List.length c = (0 + 3)%nat) [[1; 2; 0]; [3; -1; 4]].
Proof. repeat split; cbn; try discriminate; sorted_tac; try discriminate; try reflexivity. Qed.
Example c81_case_low : well_formed [[1; 2]; [3; -1]] [0; 1; 5/2] /\ Forall (fun c => List.length c <= 2)%nat [[1; 2]; [3; -1]]
  /\ ~ between_breaks [0; 1; 5/2] 3.
Proof. repeat split; cbn; try discriminate; try (unfold between_breaks; cbn; lra); sorted_tac; try discriminate; try lia. Qed.
