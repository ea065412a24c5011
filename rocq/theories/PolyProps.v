(* Property theorems C28 - C34, C79.  Vocabulary: PolySpec.v, OrthoSpec.v. *)
From Coq Require Import Reals Lra.
From Verif Require Import Base PolyModel PolySpec PolyProofs PolyProofs2 OrthoModel OrthoSpec OrthoProofs.
Local Open Scope R_scope.

(* ---- C28 ------------------------------------------------------------------------ *)
Theorem c28_polyder : forall p m, (0 <= m)%Z ->
  exists q, polyder p m = Ok q /\ nth_derivative (Z.to_nat m) (peval p) (peval q).
Proof. exact polyder_spec. Qed.
Print Assumptions c28_polyder.

(* the m-th derivative determines the values, so nothing is left open *)
Theorem c28_derivative_unique : forall m f g g',
  nth_derivative m f g -> nth_derivative m f g' -> forall x, g x = g' x.
Proof. exact nth_derivative_unique. Qed.
Print Assumptions c28_derivative_unique.

Theorem c28_negative_order : forall p m, (m < 0)%Z -> polyder p m = Err ValueError.
Proof. exact polyder_negative. Qed.
Print Assumptions c28_negative_order.

Example c28_case : polyder [1; 1; 1; 1] 2 = Ok [INR 2 * (INR 3 * 1); INR 1 * (INR 2 * 1)].
Proof. reflexivity. Qed.

(* ---- C29 ------------------------------------------------------------------------ *)
Theorem c29_polyint : forall p m k ks, (0 <= m)%Z -> constants k (Z.to_nat m) ks ->
  exists q, polyint p m k = Ok q /\ primitives ks (peval p) (peval q) /\ polyder q m = Ok p.
Proof. exact polyint_spec. Qed.
Print Assumptions c29_polyint.

Theorem c29_too_few_constants : forall p m k, (0 <= m)%Z -> (List.length k < Z.to_nat m)%nat ->
  List.length k <> 1%nat -> polyint p m (Some k) = Err ValueError.
Proof. exact polyint_too_few. Qed.
Print Assumptions c29_too_few_constants.

Example c29_case : constants (Some [6; 5; 3]) 3 [6; 5; 3] /\ constants None 2 [0; 0] /\ constants (Some [4]) 2 [4; 4].
Proof. split; [split; [apply le_n|reflexivity]|split; reflexivity]. Qed.

(* ---- C30 ------------------------------------------------------------------------ *)
Theorem c30_polyreloc : forall p x y, p <> [] ->
  exists r, polyreloc p x y = Ok r /\ List.length r = List.length p
    /\ forall s, peval r s = peval p (s - x) + y.
Proof. exact polyreloc_spec. Qed.
Print Assumptions c30_polyreloc.

(* false for a list of integer coefficients: the intermediate results are truncated *)
Theorem c30_integer_coefficients_refuted : exists r, polyreloc_int [1; 0]%Z (1/2) 0 = Ok r /\
  peval r 0 <> peval (map IZR [1; 0]%Z) (0 - 1/2) + 0.
Proof. exact polyreloc_int_wrong. Qed.
Print Assumptions c30_integer_coefficients_refuted.

Example c30_case : [1; 2; 3] <> [] /\ peval [1; 2; 3] (5 - 4) + 1 = 7.
Proof. split; [discriminate|cbn; lra]. Qed.

(* ---- C31 ------------------------------------------------------------------------ *)
Theorem c31_polyrescl : forall p x y r, x <> 0 -> peval (polyrescl p x y) r = y * peval p (r / x).
Proof. exact polyrescl_spec. Qed.
Print Assumptions c31_polyrescl.

Example c31_case : 3 * peval [1; 2] (6 / 2) = 15.
Proof. cbn. lra. Qed.

(* ---- C32 ------------------------------------------------------------------------ *)
Theorem c32_polyshift : forall p a b, p <> [] -> a <> b -> exists q, polyshift p a b = Ok q /\
  q <> [] /\ forall x, peval q x = peval p (map_from_interval x a b).
Proof. exact polyshift_spec. Qed.
Print Assumptions c32_polyshift.

Theorem c32_polyishift : forall p a b, p <> [] -> a <> b -> exists q, polyishift p a b = Ok q /\
  q <> [] /\ forall y, peval q y = peval p (map_to_interval y a b).
Proof. exact polyishift_spec. Qed.
Print Assumptions c32_polyishift.

Theorem c32_ishift_undoes_shift : forall p a b, p <> [] -> a <> b ->
  exists q r, polyshift p a b = Ok q /\ polyishift q a b = Ok r /\ forall x, peval r x = peval p x.
Proof. exact polyshift_polyishift. Qed.
Print Assumptions c32_ishift_undoes_shift.

Theorem c32_shift_undoes_ishift : forall p a b, p <> [] -> a <> b ->
  exists q r, polyishift p a b = Ok q /\ polyshift q a b = Ok r /\ forall x, peval r x = peval p x.
Proof. exact polyishift_polyshift. Qed.
Print Assumptions c32_shift_undoes_ishift.

(* the affine maps take [a, b] to [-1, 1] and back *)
Theorem c32_interval_maps : forall a b, a <> b ->
  map_from_interval a a b = -1 /\ map_from_interval b a b = 1 /\
  map_to_interval (-1) a b = a /\ map_to_interval 1 a b = b /\
  (forall x, map_to_interval (map_from_interval x a b) a b = x) /\
  (forall y, map_from_interval (map_to_interval y a b) a b = y).
Proof. exact interval_maps. Qed.
Print Assumptions c32_interval_maps.

Example c32_case : map_from_interval 1 0 4 = - (1/2) /\ map_to_interval (1/2) 0 4 = 3.
Proof. unfold map_from_interval, map_to_interval. split; field. Qed.

(* ---- C33 ------------------------------------------------------------------------ *)
Theorem c33_polytrim : forall p, exists z, p = z ++ polytrim p /\ Forall (fun c => c = 0) z /\
  (polytrim p = [] \/ exists c q, polytrim p = c :: q /\ c <> 0).
Proof. exact polytrim_spec. Qed.
Print Assumptions c33_polytrim.

Theorem c33_value_unchanged : forall p x, peval (polytrim p) x = peval p x.
Proof. exact polytrim_value. Qed.
Print Assumptions c33_value_unchanged.

Theorem c33_matrix : forall w p, Forall (fun row => List.length row = w) p ->
  exists z, p = z ++ polytrim2 w p /\ Forall (Forall (fun c => c = 0)) z /\
  (polytrim2 w p = [] \/ exists r q, polytrim2 w p = r :: q /\ Exists (fun c => c <> 0) r).
Proof. exact polytrim2_spec. Qed.
Print Assumptions c33_matrix.

Example c33_case : Forall (fun row => List.length row = 2%nat) [[0; 0]; [1; 0]; [0; 0]].
Proof. repeat constructor. Qed.

(* ---- C34 ------------------------------------------------------------------------ *)
Theorem c34_ortho2poly : forall t, row0 t <> [] ->
  exists q, ortho2poly t = Ok q /\ forall x, orthoval t x = Ok (peval q x).
Proof. exact ortho2poly_spec. Qed.
Print Assumptions c34_ortho2poly.

Example c34_case : orthoval (Table [1; 1; 1] [0; 1; 2] [0; 0; 3]) 5
  = Ok (1 * 1 + (1 * (5 - 1) + (1 * ((5 - 2) * (5 - 1) - 3 * 1) + 0))).
Proof. reflexivity. Qed.

(* ---- C79 ------------------------------------------------------------------------ *)
Theorem c79_orthofit_least_squares : forall x y n, List.length x = List.length y -> distinct_values (S n) x ->
  exists q, (List.length q <= S n)%nat /\ (forall t, orthoval (orthofit x y n) t = Ok (peval q t)) /\
  forall q', (List.length q' <= S n)%nat -> squared_error x y (peval q) <= squared_error x y (peval q').
Proof. exact orthofit_least_squares. Qed.
Print Assumptions c79_orthofit_least_squares.

Example c79_case : distinct_values 3 [0; 1; 1; 2].
Proof.
  exists [0; 1; 2]. split; [|split; [|reflexivity]].
  - repeat constructor; cbn; intros H; repeat destruct H as [H|H]; try lra; exact H.
  - intros z H. cbn in *. tauto.
Qed.
