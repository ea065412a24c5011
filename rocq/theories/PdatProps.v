(* Theorems about the integration and labelling of plot data (C153). *)
From Coq Require Import Reals ZArith List Bool String Permutation.
From Coquelicot Require Import Coquelicot.
From Verif Require Import Base KdeModel ProcModel ProcSpec PdatModel PdatSpec PdatProofs PdatProofs2 PdatCases.
Import ListNotations.
Local Open Scope R_scope.

(* Interpolation. *)

Theorem c153_interpolates : forall x f g t, table x f -> polygon x f g -> within x t -> eval_points x f t = Ok (Some (g t)).
Proof. exact (eval_value). Qed.
Print Assumptions c153_interpolates.

Theorem c153_order : forall x f x' f' t, List.length x = List.length f -> List.length x' = List.length f' -> Permutation (combine x f) (combine x' f') -> NoDup x ->
  eval_points x f t = eval_points x' f' t.
Proof. exact (eval_order). Qed.
Print Assumptions c153_order.

Theorem c153_nan : forall x f t, table x f -> ~ within x t -> eval_points x f t = Ok None.
Proof. exact (eval_outside). Qed.
Print Assumptions c153_nan.

(* Integrals. *)

Theorem c153_integral : forall x f g a b, table x f -> polygon x f g -> within x a -> within x b -> a <= b ->
  exists v, integrate (curve x f) (Some a) (Some b) false = Ok (Num (Some v)) /\ is_RInt g a b v.
Proof. exact (integral). Qed.
Print Assumptions c153_integral.

Theorem c153_additive : forall x f a b c, table x f -> within x a -> within x c -> a <= b <= c ->
  exists u v, integrate (curve x f) (Some a) (Some b) false = Ok (Num (Some u)) /\ integrate (curve x f) (Some b) (Some c) false = Ok (Num (Some v)) /\
    integrate (curve x f) (Some a) (Some c) false = Ok (Num (Some (u + v))).
Proof. exact (additive). Qed.
Print Assumptions c153_additive.

Theorem c153_defaults : forall x d c, x <> [] -> forall a b,
  integrate (PD d (Vec x) c) None b false = integrate (PD d (Vec x) c) (Some (at_ x 0)) b false /\
  integrate (PD d (Vec x) c) a None false = integrate (PD d (Vec x) c) a (Some (at_ x (List.length x - 1))) false.
Proof. exact (defaults). Qed.
Print Assumptions c153_defaults.

Theorem c153_outside : forall x f a b, table x f -> ~ within x a \/ ~ within x b -> integrate (curve x f) (Some a) (Some b) false = Ok (Num None).
Proof. exact (outside). Qed.
Print Assumptions c153_outside.

Theorem c153_reversed : forall x f g a b, table x f -> polygon x f g -> within x a -> within x b -> b <= a ->
  integrate (curve x f) (Some a) (Some b) false = Ok (Num (Some ((b - a) * (g a + g b) / 2))).
Proof. exact (reversed). Qed.
Print Assumptions c153_reversed.

Theorem c153_reversed_refuted : ~ (forall x f a b v, table x f -> within x a -> within x b -> integrate (curve x f) (Some a) (Some b) false = Ok (Num (Some v)) ->
  integrate (curve x f) (Some b) (Some a) false = Ok (Num (Some (- v)))).
Proof. exact (not_oriented). Qed.
Print Assumptions c153_reversed_refuted.

Theorem c153_columns : forall x m rows c a b, List.length rows = List.length x -> (2 <= List.length x)%nat -> increasing x -> within x a -> within x b -> a <= b ->
  exists l, integrate (PD (D2 m rows) (Vec x) c) (Some a) (Some b) false = Ok (Arr l) /\ List.length l = m /\
    (forall j g, (j < m)%nat -> polygon x (col rows j) g -> exists v, nth j l None = Some v /\ is_RInt g a b v).
Proof. exact (columns). Qed.
Print Assumptions c153_columns.

Theorem c153_confidence : forall x f rows a b, table x f -> List.length rows = List.length x -> brackets f rows -> within x a -> within x b -> a <= b ->
  exists v lo hi, integrate (curve x f) (Some a) (Some b) false = Ok (Num (Some v)) /\
    integrate (band x f rows) (Some a) (Some b) true = Ok (Arr [Some v; Some lo; Some hi]) /\ lo <= v <= hi.
Proof. exact (confidence). Qed.
Print Assumptions c153_confidence.

Theorem c153_no_children : forall x f a b, table x f -> integrate (curve x f) (Some a) (Some b) true = Err TypeError.
Proof. exact (no_children). Qed.
Print Assumptions c153_no_children.

Theorem c153_dimensions : forall d l c a b ci, to_cdf (PD d (Many l) c) = Err NotImplementedError /\ integrate (PD d (Many l) c) a b ci = Err NotImplementedError.
Proof. exact (one_dimensional). Qed.
Print Assumptions c153_dimensions.

Example c153_integral_case : table tx tf /\ polygon tx tf (interp tx tf) /\ within tx (1 / 2) /\ within tx 2 /\
  integrate (curve tx tf) (Some (1 / 2)) (Some 2) false = Ok (Num (Some (9 / 4))) /\ to_cdf (curve tx tf) = Ok (curve tx [0; 1; 3]) /\
  brackets tf [[-1; 1]; [1; 3]; [-1; 1]].
Proof. exact (triangle_case). Qed.

(* Distribution functions. *)

Theorem c153_cdf : forall x f g, table x f -> polygon x f g ->
  exists F, to_cdf (curve x f) = Ok (curve x F) /\ List.length F = List.length x /\ at_ F 0 = 0 /\
    (forall i, (i < List.length x)%nat -> is_RInt g (at_ x 0) (at_ x i) (at_ F i)).
Proof. exact (cdf_integral). Qed.
Print Assumptions c153_cdf.

Theorem c153_cdf_monotone : forall x f, table x f -> (forall i, (i < List.length x)%nat -> 0 <= at_ f i) ->
  exists F, to_cdf (curve x f) = Ok (curve x F) /\ at_ F 0 = 0 /\ nondecreasing F.
Proof. exact (cdf_monotone). Qed.
Print Assumptions c153_cdf_monotone.

(* Transformations of the data, limits of the axis and contour levels. *)

Theorem c153_transformed : forall x f k flag, List.length x = List.length f -> (0 < flag mod 10)%Z -> (flag / 10 mod 10 = k)%Z -> In k [0; 1; 4; 5; 8]%Z ->
  exists h, plot_points x f flag = Ok (combine x (map h f)) /\
    (k = 0%Z -> forall v, h v = Some v) /\ (k = 1%Z -> forall v, h v = Some (1 - v)) /\ (k = 4%Z -> forall v, 0 < v -> h v = Some (ln v)) /\
    (k = 5%Z -> forall v, v < 1 -> h v = Some (ln (1 - v))) /\ (k = 8%Z -> forall v, 0 < v -> h v = Some (10 * (ln v / ln 10))).
Proof. exact (transform_points). Qed.
Print Assumptions c153_transformed.

Theorem c153_cumulative : forall x f k flag, List.length x = List.length f -> x <> [] -> (0 < flag mod 10)%Z -> (flag / 10 mod 10 = k)%Z -> In k [2; 3; 6; 7]%Z -> plot_points x f flag = Err ValueError.
Proof. exact (transform_cumulative). Qed.
Print Assumptions c153_cumulative.

Theorem c153_cumulative_refuted : ~ (forall x f flag, table x f -> exists pts, plot_points x f flag = Ok pts).
Proof. exact (cumulative_refuted). Qed.
Print Assumptions c153_cumulative_refuted.

Theorem c153_limits : forall x0 x1 y0 y1 m k log,
  set_axis (x0, x1, y0, y1) m k log = if log || (k =? 5)%Z then (x0, x1, 115 / 1000000 * m, 115 / 100 * m) else (x0, x1, y0, y1).
Proof. exact (axis_limits). Qed.
Print Assumptions c153_limits.

Theorem c153_limits_refuted : ~ (forall ax m k log, let '(_, _, y0, y1) := ax in y0 < y1 -> let '(_, _, z0, z1) := set_axis ax m k log in z0 < z1).
Proof. exact (axis_refuted). Qed.
Print Assumptions c153_limits_refuted.

Theorem c153_levels : forall data, data <> [] ->
  contour_levels [] data = map (fun p => minR data + p * (maxR data - minR data)) [0.01; 0.025; 0.05; 0.1; 0.2; 0.4; 0.5; 0.75] /\
  forall v, In v (contour_levels [] data) -> minR data <= v <= maxR data.
Proof. exact (levels_default). Qed.
Print Assumptions c153_levels.

Theorem c153_own_levels : forall cl data, cl <> [] -> Permutation (contour_levels cl data) cl /\ nondecreasing (contour_levels cl data).
Proof. exact (levels_given). Qed.
Print Assumptions c153_own_levels.

(* Labels. *)

Theorem c153_labels : forall l a, zlab l = ""%string ->
  let b := labelfig l a in
  ax_x b = (if String.eqb (xlab l) "" then ax_x a else xlab l) /\ ax_y b = (if String.eqb (ylab l) "" then ax_y a else ylab l) /\ ax_z b = ax_z a.
Proof. exact (label_texts). Qed.
Print Assumptions c153_labels.

Theorem c153_title : forall l a, let t := ax_title (labelfig l a) in
  (title l = ""%string -> t = ax_title a) /\
  (title l <> ""%string -> same_text (ax_title a) (title l) -> t = title l) /\
  (title l <> ""%string -> ~ same_text (ax_title a) (title l) -> t = (ax_title a ++ newline ++ title l)%string).
Proof. exact (label_title). Qed.
Print Assumptions c153_title.

Theorem c153_zlab : forall l a, zlab l <> ""%string -> ax_y (labelfig l a) = zlab l /\ ax_z (labelfig l a) = ax_z a.
Proof. exact (label_zlab). Qed.
Print Assumptions c153_zlab.

Theorem c153_zlab_refuted : ~ (forall l a, ylab l <> ""%string -> zlab l <> ""%string -> ax_y (labelfig l a) = ylab l /\ ax_z (labelfig l a) = zlab l).
Proof. exact (zlab_refuted). Qed.
Print Assumptions c153_zlab_refuted.

Theorem c153_title_refuted : ~ (forall l, ax_title (labelfig l fresh) = title l) /\ ~ (forall l a, labelfig l (labelfig l a) = labelfig l a).
Proof. exact (title_refuted). Qed.
Print Assumptions c153_title_refuted.

Example c153_labels_case : labelfig (Labels "Density" "x" "f(x)" "") (Axis " density " "" "" "") = Axis "Density" "x" "f(x)" "" /\
  ~ same_text "Histogram" "Density" /\ labelfig (Labels "Density" "" "" "") (Axis "Histogram" "a" "b" "") = Axis ("Histogram" ++ newline ++ "Density") "a" "b" "".
Proof. exact (labels_case). Qed.
