From Coq Require Import Reals Lra Lia.
From Coquelicot Require Import Coquelicot.
From Verif Require Import Base PolyModel OrthoModel ChebSpec PaduaModel PaduaSpec PaduaProofs PaduaProofs3 PaduaProofs4 PaduaProofs5 PaduaCases.
Local Open Scope R_scope.

(* C74: number and position of the Padua points, and the coefficients computed from them *)

Theorem c74_count : forall n dom, (List.length (padua_points n dom) = (n + 1) * (n + 2) / 2)%nat.
Proof. exact (points_length). Qed.
Print Assumptions c74_count.

Theorem c74_points : forall n dom p, (1 <= n)%nat -> (In p (padua_points n dom) <-> exists j i, (j <= n)%nat /\ (i <= n + 1)%nat /\ Nat.odd (i + j) = true /\ p = padua_node n dom j i).
Proof. exact (points_in). Qed.
Print Assumptions c74_points.

Theorem c74_degree_zero : forall a b c d, padua_points 0 (a, b, c, d) = [(a, c)].
Proof. exact (points_zero). Qed.
Print Assumptions c74_degree_zero.

Theorem c74_distinct : forall n dom, (1 <= n)%nat -> rectangle dom -> NoDup (padua_points n dom).
Proof. exact (points_NoDup). Qed.
Print Assumptions c74_distinct.

Theorem c74_inside : forall n dom x y, (1 <= n)%nat -> rectangle dom -> In (x, y) (padua_points n dom) -> inside dom x y.
Proof. exact (points_inside). Qed.
Print Assumptions c74_inside.

Theorem c74_mask : forall n dom f, (1 <= n)%nat -> exists m e, padua_fit (padua_points n dom) f = Ok (m, e) /\ square_matrix (n + 1) m /\ forall k l, (n < k + l)%nat -> at_M m k l = 0.
Proof. exact (fit_mask). Qed.
Print Assumptions c74_mask.

Theorem c74_mask_count : forall n, exists l : list (nat * nat), (List.length l = (n + 1) * (n + 2) / 2)%nat /\ NoDup l /\ forall k l', In (k, l') l <-> (k + l' <= n)%nat.
Proof. exact (tri_count). Qed.
Print Assumptions c74_mask_count.

Theorem c74_every_coefficient : forall n dom c, (1 <= n)%nat -> rectangle dom -> exists f m e, padua_fit (padua_points n dom) f = Ok (m, e) /\ forall k l, at_M m k l = if (k + l <=? n)%nat then c k l else 0.
Proof. exact (fit_onto). Qed.
Print Assumptions c74_every_coefficient.

Theorem c74_values_only : forall n dom f g, (1 <= n)%nat -> (forall x y, In (x, y) (padua_points n dom) -> f x y = g x y) -> padua_fit (padua_points n dom) f = padua_fit (padua_points n dom) g.
Proof. exact (fit_depends). Qed.
Print Assumptions c74_values_only.

Theorem c74_values_recovered : forall n dom f g, (1 <= n)%nat -> rectangle dom -> padua_fit (padua_points n dom) f = padua_fit (padua_points n dom) g -> forall x y, In (x, y) (padua_points n dom) -> f x y = g x y.
Proof. exact (fit_determines). Qed.
Print Assumptions c74_values_recovered.

(* padua_fit fails for the single point of degree 0 *)

Theorem c74_degree_zero_refuted : forall dom f, padua_fit (padua_points 0 dom) f = Err IndexError.
Proof. exact (fit_degree_0). Qed.
Print Assumptions c74_degree_zero_refuted.

Example c74_case : rectangle (0, 1, 0, 2) /\ List.length (padua_points 3 (0, 1, 0, 2)) = 10%nat /\ In (0, 2) (padua_points 1 (0, 1, 0, 2)).
Proof. exact case_points. Qed.

(* C111: the interpolant *)

Theorem c111_interpolates : forall n dom f, (1 <= n)%nat -> rectangle dom -> exists m e, padua_fit (padua_points n dom) f = Ok (m, e) /\ forall x y, In (x, y) (padua_points n dom) -> padua_val x y m dom = f x y.
Proof. exact (interpolates). Qed.
Print Assumptions c111_interpolates.

Theorem c111_reproduces : forall n dom f, (1 <= n)%nat -> rectangle dom -> poly2 n f -> exists m e, padua_fit (padua_points n dom) f = Ok (m, e) /\ forall x y, inside dom x y -> padua_val x y m dom = f x y.
Proof. exact (fit_reproduces). Qed.
Print Assumptions c111_reproduces.

Theorem c111_polynomial : forall n dom f, (1 <= n)%nat -> rectangle dom -> exists m e p, padua_fit (padua_points n dom) f = Ok (m, e) /\ poly2 n p /\ forall x y, inside dom x y -> padua_val x y m dom = p x y.
Proof. exact (fit_polynomial). Qed.
Print Assumptions c111_polynomial.

Theorem c111_unisolvent : forall n dom f g, (1 <= n)%nat -> rectangle dom -> poly2 n f -> poly2 n g -> (forall x y, In (x, y) (padua_points n dom) -> f x y = g x y) -> forall x y, f x y = g x y.
Proof. exact (unisolvent). Qed.
Print Assumptions c111_unisolvent.

Theorem c111_linear : forall n dom f g s t, (1 <= n)%nat -> exists mf mg m ef eg e, padua_fit (padua_points n dom) f = Ok (mf, ef) /\ padua_fit (padua_points n dom) g = Ok (mg, eg) /\ padua_fit (padua_points n dom) (fun x y => s * f x y + t * g x y) = Ok (m, e) /\ forall k l, at_M m k l = s * at_M mf k l + t * at_M mg k l.
Proof. exact (fit_linear). Qed.
Print Assumptions c111_linear.

Theorem c111_series : forall m a b c d x y, a < b -> c < d -> a <= x <= b -> c <= y <= d -> let n := List.length (hd [] m) in padua_val x y m (a, b, c, d) = vsum n (fun k => vsum n (fun l => at_M m k l * (that k x a b * that l y c d))).
Proof. exact (val_coefficients). Qed.
Print Assumptions c111_series.

Theorem c111_mesh : forall X Y c dom, padua_val_mesh X Y c dom = map (fun y => map (fun x => padua_val x y c dom) X) Y.
Proof. exact (mesh_value). Qed.
Print Assumptions c111_mesh.

Theorem c111_outside : forall x y m a b c d, a < b -> c < d -> padua_val x y m (a, b, c, d) = padua_val (into x a b) (into y c d) m (a, b, c, d).
Proof. exact (val_outside). Qed.
Print Assumptions c111_outside.

Theorem c111_estimate_zero : forall n dom f, rectangle dom -> poly2 n f -> exists m, padua_fit (padua_points (n + 1) dom) f = Ok (m, 0).
Proof. exact (estimate_lower). Qed.
Print Assumptions c111_estimate_zero.

(* the estimate reads the coefficients of degree n and none of degree n - 1 or n - 2 *)

Theorem c111_estimate_top_degree : forall n dom f, (1 <= n)%nat -> exists m, padua_fit (padua_points n dom) f = Ok (m, 2 * vsum (n + 1) (fun k => Rabs (at_M m k (n - k)))) /\ square_matrix (n + 1) m /\ forall k l, (n < k + l)%nat -> at_M m k l = 0.
Proof. exact (fit_shape). Qed.
Print Assumptions c111_estimate_top_degree.

Theorem c111_estimate_zero_degree : forall n dom f m, rectangle dom -> padua_fit (padua_points (n + 1) dom) f = Ok (m, 0) -> exists p, poly2 n p /\ forall x y, inside dom x y -> padua_val x y m dom = p x y.
Proof. exact (estimate_zero_degree). Qed.
Print Assumptions c111_estimate_zero_degree.

Example c111_case : rectangle (0, 1, 0, 2) /\ poly2 2 (fun x y => x * y + 3) /\ ~ (forall x y : R, x * y + 3 = 0).
Proof. exact case_poly. Qed.

(* C112: cubature *)

Theorem c112_integral_of_interpolant : forall m a b c d, (1 <= List.length (hd [] m))%nat -> a < b -> c < d -> exists G : R -> R, (forall y, c <= y <= d -> is_RInt (fun x => padua_val x y m (a, b, c, d)) a b (G y)) /\ is_RInt G c d (padua_cubature m (a, b, c, d)).
Proof. exact (cubature_integral). Qed.
Print Assumptions c112_integral_of_interpolant.

Theorem c112_exact : forall n dom f, (1 <= n)%nat -> rectangle dom -> poly2 n f -> exists m e, padua_fit (padua_points n dom) f = Ok (m, e) /\ let '(a, b, c, d) := dom in exists G : R -> R, (forall y, c <= y <= d -> is_RInt (fun x => f x y) a b (G y)) /\ is_RInt G c d (padua_cubature m dom).
Proof. exact (cubature_exact). Qed.
Print Assumptions c112_exact.

Theorem c112_constant : forall n a b c d s, (1 <= n)%nat -> a < b -> c < d -> exists m e, padua_fit (padua_points n (a, b, c, d)) (fun _ _ => s) = Ok (m, e) /\ padua_cubature m (a, b, c, d) = s * ((b - a) * (d - c)).
Proof. exact (cubature_constant). Qed.
Print Assumptions c112_constant.

Example c112_case : rectangle (0, 1, 0, 2) /\ poly2 2 (fun x y => x * y + 3) /\ (1 <= List.length (hd [] [[2%R]]))%nat /\ padua_cubature [[2]] (0, 1, 0, 2) = 4.
Proof. exact case_cubature. Qed.
