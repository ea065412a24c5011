(* Theorems about CovData1D.sim (C143). *)
From Coq Require Import Reals List.
From Verif Require Import Base PolyModel KdeModel CovModel ArSpec CsimModel CsimSpec CsimProofs3 CsimProofs4 CsimCases.
Import ListNotations.
Local Open Scope R_scope.

(* The shape of the result and the times. *)

Theorem c143_shape : forall eps data args ns cases d, (2 <= List.length data)%nat -> (2 <= List.length args)%nat -> (2 <= ns)%nat -> (forall k, (k < List.length data)%nat -> nth k data 0 <= nth 0 data 0) ->
  exists x, sim eps data args (Some ns) cases d = Ok (linspace 0 ((INR ns - 1) * ((last args 0 - nth 0 args 0) / INR (List.length args - 1))) ns, x) /\ List.length x = cases /\ forall a, (a < cases)%nat -> List.length (nth a x []) = ns.
Proof. exact (sim_shape). Qed.
Print Assumptions c143_shape.

(* The simulated values are linear in the drawn numbers; the columns are independent and stationary. *)

Theorem c143_columns : forall eps data args ns cases, (2 <= List.length data)%nat -> (2 <= List.length args)%nat -> (2 <= ns)%nat -> (forall k, (k < List.length data)%nat -> nth k data 0 <= nth 0 data 0) -> 0 < nth 0 data 0 ->
  exists N r, forall a b p q, (a < cases)%nat -> (b < cases)%nat -> (p < ns)%nat -> (q < ns)%nat ->
  linear3 N ((cases + 1) / 2) (fun d => value a p (sim eps data args (Some ns) cases d)) /\
  covariance3 N ((cases + 1) / 2) (fun d => value a p (sim eps data args (Some ns) cases d)) (fun d => value b q (sim eps data args (Some ns) cases d)) = if (a =? b)%nat then r (distance p q) else 0.
Proof. exact (sim_columns). Qed.
Print Assumptions c143_columns.

(* If the embedding is positive definite, then the covariances are the given ones ... *)

Theorem c143_covariance : forall eps data args ns cases, (2 <= List.length data)%nat -> (2 <= List.length args)%nat -> (2 <= ns)%nat -> (forall k, (k < List.length data)%nat -> nth k data 0 <= nth 0 data 0) -> 0 < nth 0 data 0 -> eps < Rabs (last data 0) ->
  let N := pow2_above (Nat.max (2 * List.length data - 1) (2 * ns)) in let ev := eigenvalue N (fun k => nth k data 0) in
  (forall m j, (m < N)%nat -> (j < N)%nat -> ev j / 100000 <= ev m) ->
  forall a b p q, (a < cases)%nat -> (b < cases)%nat -> (p < ns)%nat -> (q < ns)%nat ->
  covariance3 N ((cases + 1) / 2) (fun d => value a p (sim eps data args (Some ns) cases d)) (fun d => value b q (sim eps data args (Some ns) cases d)) = if (a =? b)%nat then nth (distance p q) data 0 else 0.
Proof. exact (sim_exact). Qed.
Print Assumptions c143_covariance.

(* ... and up to 1e-5 of the largest eigenvalue if it is only positive semidefinite. *)

Theorem c143_close : forall eps data args ns cases M, (2 <= List.length data)%nat -> (2 <= List.length args)%nat -> (2 <= ns)%nat -> (forall k, (k < List.length data)%nat -> nth k data 0 <= nth 0 data 0) -> 0 < nth 0 data 0 -> eps < Rabs (last data 0) ->
  let N := pow2_above (Nat.max (2 * List.length data - 1) (2 * ns)) in
  (forall m, (m < N)%nat -> 0 <= eigenvalue N (fun k => nth k data 0) m <= M) ->
  forall a p q, (a < cases)%nat -> (p < ns)%nat -> (q < ns)%nat ->
  Rabs (covariance3 N ((cases + 1) / 2) (fun d => value a p (sim eps data args (Some ns) cases d)) (fun d => value a q (sim eps data args (Some ns) cases d)) - nth (distance p q) data 0) <= M / 100000.
Proof. exact (sim_close). Qed.
Print Assumptions c143_close.

(* Otherwise they are those of the eigenvalues that are kept. *)

Theorem c143_kept : forall eps data args ns cases i t, (2 <= List.length data)%nat -> (2 <= List.length args)%nat -> (2 <= ns)%nat -> (forall k, (k < List.length data)%nat -> nth k data 0 <= nth 0 data 0) -> 0 < nth 0 data 0 -> eps < Rabs (last data 0) ->
  let N := pow2_above (Nat.max (2 * List.length data - 1) (2 * ns)) in let ev := eigenvalue N (fun k => nth k data 0) in
  peak_at N ev i -> (forall m, (m < N)%nat -> left_out N ev i m -> t m = 0) -> (forall m, (m < N)%nat -> ~ left_out N ev i m -> t m = ev m) ->
  forall a b p q, (a < cases)%nat -> (b < cases)%nat -> (p < ns)%nat -> (q < ns)%nat ->
  covariance3 N ((cases + 1) / 2) (fun d => value a p (sim eps data args (Some ns) cases d)) (fun d => value b q (sim eps data args (Some ns) cases d)) =
  if (a =? b)%nat then sum_to N (fun m => t m * cos (2 * PI * INR (m * distance p q) / INR N)) / INR N else 0.
Proof. exact (sim_kept). Qed.
Print Assumptions c143_kept.

Example c143_negative_case : let N := pow2_above (Nat.max (2 * List.length [1; 9 / 10] - 1) (2 * 2)) in let ev := eigenvalue N (fun k => nth k [1; 9 / 10] 0) in
  N = 4%nat /\ peak_at N ev 0 /\ left_out N ev 0 2 /\ ~ left_out N ev 0 1.
Proof. exact (negative_case). Qed.

(* An autocovariance function that ends with 0 is replaced by the averages of neighbouring values. *)

Theorem c143_averaged : forall eps data args ns cases, (2 <= List.length data)%nat -> (2 <= List.length args)%nat -> (2 <= ns)%nat -> (forall k, (k < List.length data)%nat -> nth k data 0 <= nth 0 data 0) -> 0 < nth 0 data 0 -> Rabs (last data 0) <= eps ->
  let N := pow2_above (Nat.max (2 * List.length data - 2) (2 * ns)) in let ev := eigenvalue N (averaged data) in
  (forall m j, (m < N)%nat -> (j < N)%nat -> ev j / 100000 <= ev m) ->
  forall a b p q, (a < cases)%nat -> (b < cases)%nat -> (p < ns)%nat -> (q < ns)%nat ->
  covariance3 N ((cases + 1) / 2) (fun d => value a p (sim eps data args (Some ns) cases d)) (fun d => value b q (sim eps data args (Some ns) cases d)) = if (a =? b)%nat then averaged data (distance p q) else 0.
Proof. exact (sim_averaged). Qed.
Print Assumptions c143_averaged.

Theorem c143_zero_end_refuted : ~ (forall eps data args ns cases, 0 <= eps -> (2 <= List.length data)%nat -> (2 <= List.length args)%nat -> (2 <= ns)%nat -> (forall k, (k < List.length data)%nat -> nth k data 0 <= nth 0 data 0) -> 0 < nth 0 data 0 ->
  let N := pow2_above (Nat.max (2 * List.length data - 1) (2 * ns)) in let ev := eigenvalue N (fun k => nth k data 0) in
  (forall m j, (m < N)%nat -> (j < N)%nat -> ev j / 100000 <= ev m) ->
  forall a p q, (a < cases)%nat -> (p < ns)%nat -> (q < ns)%nat ->
  covariance3 N ((cases + 1) / 2) (fun d => value a p (sim eps data args (Some ns) cases d)) (fun d => value a q (sim eps data args (Some ns) cases d)) = nth (distance p q) data 0).
Proof. exact (zero_end). Qed.
Print Assumptions c143_zero_end_refuted.

(* Errors. *)

Theorem c143_not_maximal : forall eps data args ns cases d k, (k < List.length data)%nat -> nth 0 data 0 < nth k data 0 -> sim eps data args ns cases d = Err ValueError.
Proof. exact (sim_invalid). Qed.
Print Assumptions c143_not_maximal.

Theorem c143_few_times : forall eps data args ns cases d, (forall k, (k < List.length data)%nat -> nth k data 0 <= nth 0 data 0) -> data <> [] -> (List.length args <= 1)%nat -> sim eps data args ns cases d = Err IndexError.
Proof. exact (sim_times). Qed.
Print Assumptions c143_few_times.

Theorem c143_default_refuted : ~ (forall eps data args cases d, (2 <= List.length data)%nat -> (2 <= List.length args)%nat -> (forall k, (k < List.length data)%nat -> nth k data 0 <= nth 0 data 0) -> exists r, sim eps data args None cases d = Ok r).
Proof. exact (sim_default). Qed.
Print Assumptions c143_default_refuted.

Example c143_case : let N := pow2_above (Nat.max (2 * List.length [2; 1 / 2] - 1) (2 * 4)) in N = 8%nat /\ let ev := eigenvalue N (fun k => nth k [2; 1 / 2] 0) in forall m j, (m < N)%nat -> (j < N)%nat -> ev j / 100000 <= ev m.
Proof. exact (simple_case). Qed.
