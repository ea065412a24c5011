From Coq Require Import Reals Lra Lia Permutation.
From Coquelicot Require Import Coquelicot.
From Verif Require Import Base ProcModel ProcSpec ProcProofs ProcProofs2 ProcProofs3 ProcProofs4 ProcProofs5 ProcProofs6 ProcProofs7.
Local Open Scope R_scope.

(* ---- C104: tranproc interpolates linearly in its table ---- *)
Theorem c104_interpolates : forall eps a h n f x0, 0 <= eps -> 0 < h -> (2 <= n)%nat -> length f = n -> x0 <> [] -> covers (uniform a h n) x0 -> 1 < h * 10 ^ 7 ->
  exists y, tranproc eps (uniform a h n) f x0 [] = Ok [map y x0] /\ forall t, In t x0 -> interpolated (uniform a h n) f t (y t).
Proof. exact tranproc_interpolates. Qed.
Print Assumptions c104_interpolates.
(* an unevenly spaced table is first resampled with the same number of points *)
Theorem c104_resampled : forall eps x f x0, 0 <= eps -> increasing x -> length f = length x -> (2 <= length x)%nat -> x0 <> [] -> covers x x0 -> coarse 0 x ->
  clear_spacing eps x ->
  exists y v, tranproc eps x f x0 [] = Ok [map y x0] /\ length v = length x /\
    let g := uniform (at_ x 0) ((at_ x (length x - 1) - at_ x 0) / (INR (length x) - 1)) (length x) in
    (forall i, (i < length x)%nat -> interpolated x f (at_ g i) (at_ v i)) /\ forall t, In t x0 -> interpolated g v t (y t).
Proof. exact tranproc_resampled. Qed.
Print Assumptions c104_resampled.
Theorem c104_range_and_order : forall eps x f x0, increasing x -> length f = length x -> (2 <= length x)%nat -> x0 <> [] -> covers x x0 -> coarse 0 x ->
  exists y, tranproc eps x f x0 [] = Ok [map y x0] /\
    (forall lo hi t, (forall v, In v f -> lo <= v <= hi) -> In t x0 -> lo <= y t <= hi) /\
    (nondecreasing f -> forall s t, In s x0 -> In t x0 -> s <= t -> y s <= y t).
Proof. exact tranproc_order. Qed.
Print Assumptions c104_range_and_order.
Theorem c104_lines_are_exact : forall eps x f x0 a b, 0 <= eps -> increasing x -> length f = length x -> (2 <= length x)%nat -> x0 <> [] -> covers x x0 -> coarse 0 x -> clear_spacing eps x ->
  (forall i, (i < length x)%nat -> at_ f i = a * at_ x i + b) -> tranproc eps x f x0 [] = Ok [map (fun t => a * t + b) x0].
Proof. exact tranproc_line. Qed.
Print Assumptions c104_lines_are_exact.
Theorem c104_order_of_rows : forall eps x f x' f' x0, increasing x -> length f = length x -> length f' = length x' -> (2 <= length x)%nat -> x0 <> [] -> covers x x0 -> coarse 0 x ->
  Permutation (combine x f) (combine x' f') -> tranproc eps x' f' x0 [] = tranproc eps x f x0 [].
Proof. exact tranproc_rows. Qed.
Print Assumptions c104_order_of_rows.
Example c104_case : exists y, tranproc 0 (uniform (-1) (1 / 2) 5) [0; 1; 3; 4; 9] [0; 1 / 4] [] = Ok [map y [0; 1 / 4]] /\ forall t, In t [0; 1 / 4] -> interpolated (uniform (-1) (1 / 2) 5) [0; 1; 3; 4; 9] t (y t).
Proof.
  apply c104_interpolates; try lra; try reflexivity; try lia; try discriminate.
  intros t [<-|[<-|[]]]; unfold uniform, at_; cbn [length map seq nth Nat.sub INR]; lra.
Qed.
Example c104_case_resampled : increasing [0; 1; 4] /\ covers [0; 1; 4] [1; 3] /\ coarse 0 [0; 1; 4] /\ clear_spacing (1 / 1000) [0; 1; 4].
Proof.
  split; [intros i Hi; cbn in Hi; destruct i as [|[|i]]; [| |lia]; unfold at_; cbn; lra|]. split; [intros t [<-|[<-|[]]]; unfold at_; cbn; lra|].
  split; [unfold coarse, at_; cbn [length nth Nat.sub]; change (Nat.max 0 1) with 1%nat; cbn [INR]; replace (7 / 1) with (INR 7) by (rewrite (INR_IZR_INZ 7); cbn; lra); rewrite Rpower_pow by lra; cbn [pow]; lra|].
  right. exists 0%nat. split; [cbn; lia|]. unfold bend, at_. cbn [length nth Nat.sub]. rewrite Rabs_right by lra. lra.
Qed.

(* derivatives: the chain rule with central differences, at least nd / 2 steps inside the table *)
Theorem c104_derivatives : forall eps a h n f x0 xi, 0 <= eps -> 0 < h -> length f = n -> x0 <> [] -> (1 <= length xi <= 3)%nat -> (length xi + 2 <= n)%nat ->
  (forall l, In l xi -> length l = length x0) -> 1 < h * Rpower 10 (7 / INR (length xi)) ->
  (forall t, In t x0 -> a + INR (length xi) * h / 2 <= t <= a + (INR n - 1) * h - INR (length xi) * h / 2) ->
  exists ys D, tranproc eps (uniform a h n) f x0 xi = Ok ys /\ length ys = S (length xi) /\
    (forall t k, In t x0 -> (k <= length xi)%nat -> interpolated (uniform (a + INR k * h / 2) h (n - k)) (quotient_table h k n f) t (D k t)) /\
    forall k i, (k <= length xi)%nat -> (i < length x0)%nat ->
      nth i (nth k ys []) 0 = chain_rule (fun j => D j (at_ x0 i)) (fun j => nth i (nth (j - 1) xi []) 0) k.
Proof. exact derivatives_documented. Qed.
Print Assumptions c104_derivatives.
(* the documented formulas are the derivatives of f(x(t)) *)
Theorem c104_chain_rule : forall (F X : nat -> R -> R) t k, (k < 4)%nat ->
  (forall j, (j <= k)%nat -> forall v, is_derive (F j) v (F (S j) v)) -> (forall j, (j <= k)%nat -> forall v, is_derive (X j) v (X (S j) v)) ->
  is_derive (fun u => chain_rule (fun j => F j (X 0%nat u)) (fun j => X j u) k) t (chain_rule (fun j => F j (X 0%nat t)) (fun j => X j t) (S k)).
Proof. exact chain_rule_derive. Qed.
Print Assumptions c104_chain_rule.
(* the fourth derivative uses x1 x2 where the chain rule has x1 x3 *)
Theorem c104_fourth_derivative_refuted : forall eps a h n f x0 xi, 0 <= eps -> 0 < h -> length f = n -> x0 <> [] -> length xi = 4%nat -> (6 <= n)%nat ->
  (forall l, In l xi -> length l = length x0) -> 1 < h * Rpower 10 (7 / 4) ->
  (forall t, In t x0 -> a + 2 * h <= t <= a + (INR n - 1) * h - 2 * h) ->
  exists ys D, tranproc eps (uniform a h n) f x0 xi = Ok ys /\
    (forall t k, In t x0 -> (k <= 4)%nat -> interpolated (uniform (a + INR k * h / 2) h (n - k)) (quotient_table h k n f) t (D k t)) /\
    forall i, (i < length x0)%nat -> let F j := D j (at_ x0 i) in let X j := nth i (nth (j - 1) xi []) 0 in
      nth i (nth 4 ys []) 0 = chain_rule F X 4 + 4 * F 2%nat * X 1%nat * (X 2%nat - X 3%nat).
Proof. exact fourth_wrong. Qed.
Print Assumptions c104_fourth_derivative_refuted.
(* the table of a line: the derivatives are exact up to its ends *)
Theorem c104_derivatives_of_lines : forall eps b h n a c x0 xi, 0 <= eps -> 0 < h -> x0 <> [] -> (1 <= length xi <= 4)%nat -> (length xi + 2 <= n)%nat ->
  (forall l, In l xi -> length l = length x0) -> 1 < h * Rpower 10 (7 / INR (length xi)) -> covers (uniform b h n) x0 ->
  tranproc eps (uniform b h n) (map (fun t => a * t + c) (uniform b h n)) x0 xi = Ok (map (fun t => a * t + c) x0 :: map (map (fun v => a * v)) xi).
Proof. exact tranproc_line_derivatives. Qed.
Print Assumptions c104_derivatives_of_lines.
Example c104_case_derivatives : tranproc 0 (uniform (-5) 1 11) (map (fun t => 2 * t + 1) (uniform (-5) 1 11)) [-5; 0] [[1; 2]; [3; 4]] =
  Ok (map (fun t => 2 * t + 1) [-5; 0] :: map (map (fun v => 2 * v)) [[1; 2]; [3; 4]]).
Proof.
  apply c104_derivatives_of_lines; try lra; try (cbn; lia); try discriminate.
  - intros l [<-|[<-|[]]]; reflexivity.
  - cbn [length INR]. rewrite Rmult_1_l. rewrite <- (Rpower_O 10) at 1 by lra. apply Rpower_lt; lra.
  - intros t [<-|[<-|[]]]; unfold uniform, at_; cbn [length map seq nth Nat.sub INR]; lra.
Qed.

(* tables that are refused *)
Theorem c104_duplicates : forall eps x f x0 xi, length f = length x -> x0 <> [] -> ~ NoDup x -> tranproc eps x f x0 xi = Err ValueError.
Proof. exact tranproc_duplicates. Qed.
Print Assumptions c104_duplicates.
Theorem c104_single_point : forall eps a c x0 xi, x0 <> [] -> tranproc eps [a] [c] x0 xi = Err ValueError.
Proof. exact tranproc_single. Qed.
Print Assumptions c104_single_point.

(* not so: a fine table, points outside the table, the points of an unevenly spaced table *)
Theorem c104_fine_table_refuted : forall eps x f, increasing x -> length f = length x -> (3 <= length x)%nat -> ~ coarse 0 x ->
  tranproc eps x f [at_ x (length x - 1)] [] = Err IndexError.
Proof. exact tranproc_fine. Qed.
Print Assumptions c104_fine_table_refuted.
Theorem c104_above_refuted : forall eps b h n a c x0, 0 <= eps -> 0 < h -> 1 < h * 10 ^ 7 -> (2 <= n)%nat -> x0 <> [] ->
  (forall t, In t x0 -> b <= t) -> (exists t, In t x0 /\ b + (INR n - 1) * h < t) ->
  exists k, (1 <= k)%nat /\ tranproc eps (uniform b h n) (map (fun t => a * t + c) (uniform b h n)) x0 [] =
    Ok [map (fun t => a * (b + (t - b) * (INR n - 1) / (INR n - 1 + INR k)) + c) x0].
Proof. exact tranproc_above. Qed.
Print Assumptions c104_above_refuted.
Theorem c104_below_refuted : forall eps b h n f x0, 0 <= eps -> 0 < h -> 1 < h * 10 ^ 7 -> (2 <= n)%nat -> length f = n -> x0 <> [] ->
  (forall t, In t x0 -> b - h <= t < b) ->
  tranproc eps (uniform b h n) f x0 [] = Ok [map (fun t => at_ f (n - 1) + (at_ f 0 - at_ f (n - 1)) * (1 + (t - b) / h)) x0].
Proof. exact tranproc_below. Qed.
Print Assumptions c104_below_refuted.
Theorem c104_table_points_refuted : forall eps, 0 <= eps < 1 / 100 -> tranproc eps [0; 1; 4] [0; 1; 2] [1] [] = Ok [[2 / 3]].
Proof. exact tranproc_node. Qed.
Print Assumptions c104_table_points_refuted.

(* TrData with a table of a line: mean and standard deviation, and the two directions undo each other *)
Theorem c104_trdata_statistics : forall eps b h n m s ym ys, 0 <= eps -> 0 < h -> 1 < h * 10 ^ 7 -> (2 <= n)%nat ->
  b <= ym <= b + (INR n - 1) * h -> b <= ym + ys <= b + (INR n - 1) * h -> b <= ym - ys <= b + (INR n - 1) * h ->
  TrData_init eps (uniform b h n) (map (fun u => s * u + m) (uniform b h n)) ym ys None None =
    Ok (TrData (uniform b h n) (map (fun u => s * u + m) (uniform b h n)) ym ys (s * ym + m) (s * ys)).
Proof. exact TrData_line. Qed.
Print Assumptions c104_trdata_statistics.
Theorem c104_trdata_roundtrip : forall eps b h n m s x, 0 <= eps -> 0 < h -> 0 < s -> 1 < h * 10 ^ 7 -> 1 < s * h * 10 ^ 7 -> (2 <= n)%nat -> x <> [] ->
  let data := uniform b h n in let args := map (fun u => s * u + m) data in
  covers args x ->
  dat2gauss eps data args x [] = Ok [map (fun v => (v - m) / s) x] /\ gauss2dat eps data args (map (fun v => (v - m) / s) x) [] = Ok [x].
Proof. exact TrData_roundtrip. Qed.
Print Assumptions c104_trdata_roundtrip.
Example c104_case_trdata : dat2gauss 0 (uniform (-5) 1 11) (map (fun u => 5 * u + 1) (uniform (-5) 1 11)) [1; 6] [] = Ok [map (fun v => (v - 1) / 5) [1; 6]].
Proof.
  apply (proj1 (c104_trdata_roundtrip 0 (-5) 1 11 1 5 [1; 6] ltac:(lra) ltac:(lra) ltac:(lra) ltac:(lra) ltac:(lra) ltac:(lia) ltac:(discriminate)
    ltac:(intros t [<-|[<-|[]]]; unfold uniform, at_; cbn [length map seq nth Nat.sub INR]; lra))).
Qed.
Example c104_case_fine : increasing [0; 1 / 10 ^ 9; 2 / 10 ^ 9] /\ ~ coarse 0 [0; 1 / 10 ^ 9; 2 / 10 ^ 9].
Proof.
  split; [intros i Hi; cbn in Hi; destruct i as [|[|i]]; [| |lia]; unfold at_; cbn; lra|].
  unfold coarse, at_; cbn [length nth Nat.sub]; change (Nat.max 0 1) with 1%nat; cbn [INR]; replace (7 / 1) with (INR 7) by (rewrite (INR_IZR_INZ 7); cbn; lra); rewrite Rpower_pow by lra; cbn [pow]; lra.
Qed.
Example c104_case_outside : exists k, (1 <= k)%nat /\ tranproc 0 (uniform 0 1 3) (map (fun t => 1 * t + 0) (uniform 0 1 3)) [1; 3] [] =
    Ok [map (fun t => 1 * (0 + (t - 0) * (INR 3 - 1) / (INR 3 - 1 + INR k)) + 0) [1; 3]].
Proof.
  apply c104_above_refuted; try lra; try lia; try discriminate; [intros t [<-|[<-|[]]]; lra|]. exists 3. split; [right; left; reflexivity|cbn [INR]; lra].
Qed.
