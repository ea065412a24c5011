(* The quantile levels of kdetools/kernels.py *)
From Coq Require Import Reals ZArith Lra Lia List Bool Permutation Sorted.
From Verif Require Import Base PolyModel FilterModel GridModel WaveModel KdeModel ProcModel ProcSpec KernelModel TkdeModel QlevModel QlevSpec QlevProofs QlevProofs2 QlevProofs3 QlevProofs4 QlevProofs5 QlevCases.
Import ListNotations.
Local Open Scope R_scope.

(* C127: qlevels: the cells where the density is at least the level hold the asked part of the mass, up to the resolution of the table *)

Theorem c127_levels : forall eps argsort shape pdf p xi xy mass lo hi, 0 <= eps -> sorts argsort -> ~ In 0%nat shape -> (forall v, In v pdf -> 0 <= v) -> cells shape pdf xi xy = Ok mass -> List.length mass = List.length pdf -> Forall (fun v => 0 <= v) mass ->
  (forall v, In v pdf -> lo <= v <= hi) -> 0 <= lo -> p <> [] ->
  let n := INR (List.length pdf) in let nu := n / (n + 15 / 10 ^ 9) in let top := share_ge pdf mass hi in
  (forall q, In q p -> 0 <= q <= 100 /\ nu * top <= q / 100 <= nu) -> n <= (nu - nu * top) * 10 ^ 7 -> (2 <= occupied mass)%nat -> In hi pdf ->
  exists y, qlevels eps argsort shape pdf p xi xy = Ok (map y p) /\ (forall q, In q p -> lo <= y q <= hi) /\ (forall q r, In q p -> In r p -> q <= r -> y r <= y q) /\
    forall w, (forall v, In v mass -> v <= w * total mass) -> forall q, In q p -> let e := 1 / (INR (occupied mass) - 1) + w + 10 * eps * n ^ 2 + 15 / 10 ^ 9 in q / 100 <= share_ge pdf mass (y q) + e /\ share_gt pdf mass (y q) <= q / 100 + e.
Proof. exact (levels_main). Qed.
Print Assumptions c127_levels.

Example c127_levels_case : exists y, qlevels 0 argsort_insertion [4%nat] [1; 3; 4; 2] [50; 90] [] true = Ok (map y [50; 90]) /\ 1 <= y 90 <= y 50 /\ y 50 <= 4.
Proof. exact (levels_case). Qed.

Theorem c127_cells : forall x pdf xy, (2 <= List.length x)%nat -> List.length pdf = List.length x -> increasing x -> (forall v, In v pdf -> 0 <= v) ->
  exists mass, cells [List.length x] pdf [x] xy = Ok mass /\ List.length mass = List.length pdf /\ Forall (fun v => 0 <= v) mass /\ forall i, (i < List.length pdf)%nat -> nth i mass 0 = nth i pdf 0 * half_width x i.
Proof. exact (cells_one). Qed.
Print Assumptions c127_cells.

Theorem c127_trapezoid : forall x pdf xy mass, x <> [] -> List.length pdf = List.length x -> cells [List.length x] pdf [x] xy = Ok mass -> total mass = trapezoid x pdf.
Proof. exact (cells_trapezoid). Qed.
Print Assumptions c127_trapezoid.

Example c127_cells_case : exists mass, cells [3%nat] [1; 2; 1] [[0; 1; 3]] true = Ok mass /\ nth 1 mass 0 = 3 /\ total mass = 9 / 2.
Proof. exact (cells_case). Qed.

Theorem c127_cells_plane : forall x y pdf (xy : bool), (2 <= List.length x)%nat -> (2 <= List.length y)%nat -> List.length pdf = (List.length x * List.length y)%nat -> increasing x -> increasing y -> (forall v, In v pdf -> 0 <= v) ->
  exists mass, cells (if xy then [List.length y; List.length x] else [List.length x; List.length y]) pdf [x; y] xy = Ok mass /\ List.length mass = List.length pdf /\ Forall (fun v => 0 <= v) mass /\
    forall i j, (i < List.length x)%nat -> (j < List.length y)%nat -> let k : nat := (if xy then j * List.length x + i else i * List.length y + j)%nat in nth k mass 0 = nth k pdf 0 * (half_width x i * half_width y j).
Proof. exact (cells_two). Qed.
Print Assumptions c127_cells_plane.

(* below the part of the mass at the maximum of the density a larger part gives a higher level *)

Theorem c127_low_refuted : forall eps argsort a b, 0 <= eps -> sorts argsort -> 0 < b -> b < a -> a < 10 ^ 6 * b ->
  exists q r, 0 <= q < r /\ r <= 100 /\ qlevels eps argsort [2%nat] [a; b] [q] [] true = Ok [b] /\ qlevels eps argsort [2%nat] [a; b] [r] [] true = Ok [a].
Proof. exact (low_levels). Qed.
Print Assumptions c127_low_refuted.

Example c127_low_case : exists q r, 0 <= q < r /\ r <= 100 /\ qlevels 0 argsort_insertion [2%nat] [3; 1] [q] [] true = Ok [1] /\ qlevels 0 argsort_insertion [2%nat] [3; 1] [r] [] true = Ok [3].
Proof. exact (low_case). Qed.

(* the level of a part depends on the other parts asked for *)

Theorem c127_others_refuted : forall eps argsort a b, 0 <= eps -> sorts argsort -> 0 < b -> b < a -> a < 10 ^ 6 * b ->
  exists q z z', 0 <= q < 100 /\ qlevels eps argsort [2%nat] [a; b] [q] [] true = Ok [b] /\ qlevels eps argsort [2%nat] [a; b] [q; 100] [] true = Ok [z; z'] /\ (a + b) / 2 <= z.
Proof. exact (hundred_levels). Qed.
Print Assumptions c127_others_refuted.

(* refused arguments *)

Theorem c127_negative : forall eps argsort shape pdf p xi xy v, In v pdf -> v < 0 -> qlevels eps argsort shape pdf p xi xy = Err ValueError.
Proof. exact (qlevels_negative). Qed.
Print Assumptions c127_negative.

Theorem c127_percent : forall eps argsort shape pdf p xi xy q, In q p -> (q < 0 \/ 100 < q) -> qlevels eps argsort shape pdf p xi xy = Err ValueError.
Proof. exact (qlevels_percent). Qed.
Print Assumptions c127_percent.

Theorem c127_shape : forall eps argsort shape pdf p xi xy, ~ In 0%nat shape -> xi <> [] -> grid_shape xy (map (@List.length R) xi) <> shape -> qlevels eps argsort shape pdf p xi xy = Err ValueError.
Proof. exact (qlevels_shape). Qed.
Print Assumptions c127_shape.

Theorem c127_empty : forall eps argsort shape pdf p xi xy, (forall v, In v pdf -> 0 <= v) -> (forall q, In q p -> 0 <= q <= 100) -> In 0%nat shape -> qlevels eps argsort shape pdf p xi xy = Ok [].
Proof. exact (qlevels_empty). Qed.
Print Assumptions c127_empty.

Theorem c127_zero : forall eps argsort shape pdf p xi xy mass, sorts argsort -> ~ In 0%nat shape -> cells shape pdf xi xy = Ok mass -> List.length mass = List.length pdf -> total mass = 0 -> qlevels eps argsort shape pdf p xi xy = Err ValueError.
Proof. exact (qlevels_zero). Qed.
Print Assumptions c127_zero.

Example c127_errors_case : qlevels 0 argsort_insertion [2%nat] [3; -1] [50] [] true = Err ValueError /\ qlevels 0 argsort_insertion [2%nat] [3; 1] [101] [] true = Err ValueError /\ qlevels 0 argsort_insertion [2%nat] [3; 1] [50] [[0; 1; 2]] true = Err ValueError /\ qlevels 0 argsort_insertion [2%nat] [0; 0] [50] [] true = Err ValueError /\ qlevels 0 argsort_insertion [0%nat] [] [50] [] true = Ok [].
Proof. exact (errors_case). Qed.

(* C128: qlevels2: levels of samples *)

Theorem c128_levels : forall data p m, Forall (fun row => row <> []) data -> (forall v, In v p -> 0 <= v <= 100) -> (1 <= m <= 4)%Z ->
  exists level, qlevels2 data p m = Ok (map (fun v => map (level v) data) p) /\
    forall v row, In v p -> In row data ->
      ((exists a, In a row /\ a <= level v row) /\ (exists b, In b row /\ level v row <= b)) /\
      INR (List.length row - 1) * (v / 100) < INR (count_ge row (level v row)) /\ INR (count_gt row (level v row)) < INR (List.length row - 1) * (v / 100) + 1 /\
      (forall v', In v' p -> v <= v' -> level v' row <= level v row).
Proof. exact (levels2_main). Qed.
Print Assumptions c128_levels.

Example c128_levels_case : exists level, qlevels2 [[5; 1; 3]; [2; 2; 0]] [20; 70] 2 = Ok (map (fun v => map (level v) [[5; 1; 3]; [2; 2; 0]]) [20; 70]) /\ level 70 [5; 1; 3] <= level 20 [5; 1; 3].
Proof. exact (levels2_main_case). Qed.

Theorem c128_positions : forall s row k m F, Permutation row s -> StronglySorted Rle s -> (k < List.length s)%nat -> (2 <= List.length s)%nat ->
  (m = 1%Z /\ F = INR k / (INR (List.length s) - 1) \/ m = 3%Z /\ F = (INR k + 1) / INR (List.length s) \/ m = 4%Z /\ F = INR k / INR (List.length s)) ->
  qlevels2 [row] [100 - 100 * F] m = Ok [[nth k s 0]].
Proof. exact (levels2_position). Qed.
Print Assumptions c128_positions.

Example c128_positions_case : qlevels2 [[5; 1; 3]] [50] 1 = Ok [[3]].
Proof. exact (levels2_case). Qed.

(* method 2 does not put the k-th value at (k+0.5)/n *)

Theorem c128_midpoint_refuted : forall s row, Permutation row s -> StronglySorted Rle s -> (2 <= List.length s)%nat -> nth 0 s 0 < nth 1 s 0 ->
  qlevels2 [row] [100 - 100 * ((0 + 1 / 2) / INR (List.length s))] 2 = Ok [[(nth 0 s 0 + nth 1 s 0) / 2]] /\ (nth 0 s 0 + nth 1 s 0) / 2 <> nth 0 s 0.
Proof. exact (levels2_midpoint). Qed.
Print Assumptions c128_midpoint_refuted.

Theorem c128_errors : forall data p m, ((m < 1 \/ 4 < m)%Z \/ exists v, In v p /\ (v < 0 \/ 100 < v)) -> qlevels2 data p m = Err ValueError.
Proof. exact (qlevels2_errors). Qed.
Print Assumptions c128_errors.
