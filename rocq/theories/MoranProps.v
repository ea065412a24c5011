(* C133: Moran's statistic, which the maximum product of spacings minimises. *)
From Coq Require Import Reals Lra.
From Verif Require Import Base MoranModel MoranSpec MoranProofs MoranProofs2 MoranProofs3 MoranCases.
Import ListNotations.
Local Open Scope R_scope.

Theorem c133_value : forall xmin xmax d args loc scale x, 0 < xmin -> argcheck d args = true -> 0 < scale -> distribution_function (cdf d args) -> increasing x ->
  (forall v, In v x -> inside d args ((v - loc) / scale) = true) ->
  penalized_nlogps xmin xmax d (args ++ [loc; scale]) x = Ok (Some (- total (List.length x + 1) (fun j => ln (spacing (fun v => cdf d args ((v - loc) / scale)) x j + xmin)))).
Proof. exact (moran_value). Qed.
Print Assumptions c133_value.

(* no parameter value can give less than the statistic of equal spacings, and only equal spacings reach it *)

Theorem c133_bound : forall xmin xmax d args loc scale x T, 0 < xmin -> argcheck d args = true -> 0 < scale -> distribution_function (cdf d args) -> increasing x ->
  (forall v, In v x -> inside d args ((v - loc) / scale) = true) -> penalized_nlogps xmin xmax d (args ++ [loc; scale]) x = Ok (Some T) ->
  let n := INR (List.length x + 1) in
  - (n * ln (/ n + xmin)) <= T /\
  (T = - (n * ln (/ n + xmin)) <-> forall i, (i < List.length x)%nat -> cdf d args ((nth i x 0 - loc) / scale) = INR (i + 1) / n).
Proof. exact (moran_bound). Qed.
Print Assumptions c133_bound.

Theorem c133_product : forall xmin xmax d args loc scale x T, 0 < xmin -> argcheck d args = true -> 0 < scale -> distribution_function (cdf d args) -> increasing x ->
  (forall v, In v x -> inside d args ((v - loc) / scale) = true) -> penalized_nlogps xmin xmax d (args ++ [loc; scale]) x = Ok (Some T) ->
  exp (- T) = product (List.length x + 1) (fun j => spacing (fun v => cdf d args ((v - loc) / scale)) x j + xmin).
Proof. exact (moran_product). Qed.
Print Assumptions c133_product.

Theorem c133_outside : forall xmin xmax d args loc scale x T, argcheck d args = true -> 0 < scale ->
  let good := filter (fun v => inside d args ((v - loc) / scale)) x in
  let bad := filter (fun v => negb (inside d args ((v - loc) / scale))) x in
  penalized_nlogps xmin xmax d (args ++ [loc; scale]) good = Ok (Some T) ->
  penalized_nlogps xmin xmax d (args ++ [loc; scale]) x = Ok (Some (T + 100 * ln xmax * INR (List.length bad))).
Proof. exact (moran_outside). Qed.
Print Assumptions c133_outside.

Theorem c133_illegal : forall xmin xmax d args loc scale x, argcheck d args = false \/ scale <= 0 -> penalized_nlogps xmin xmax d (args ++ [loc; scale]) x = Ok None.
Proof. exact (moran_illegal). Qed.
Print Assumptions c133_illegal.

Theorem c133_too_short : forall xmin xmax d theta x, (List.length theta < 2)%nat -> penalized_nlogps xmin xmax d theta x = Err ValueError.
Proof. exact (moran_short). Qed.
Print Assumptions c133_too_short.

Theorem c133_upper_tail : forall xmin d x args scale, (forall v, sf d args v = 1 - cdf d args v) -> log_dprb xmin d x args scale false = log_dprb xmin d x args scale true.
Proof. exact (upper_tail). Qed.
Print Assumptions c133_upper_tail.

(* in other units of the data the statistic is the same, up to ln b for each tie *)

Theorem c133_units : forall xmin xmax d args loc scale x a b T, argcheck d args = true -> 0 < scale -> 0 < b ->
  (forall v, In v x -> inside d args ((v - loc) / scale) = true -> 0 < pdf d args ((v - loc) / scale)) ->
  penalized_nlogps xmin xmax d (args ++ [loc; scale]) x = Ok (Some T) ->
  let good := filter (fun v => inside d args ((v - loc) / scale)) x in
  penalized_nlogps xmin xmax d (args ++ [a + b * loc; b * scale]) (map (fun v => a + b * v) x) = Ok (Some (T + INR (repeats good) * ln b)).
Proof. exact (moran_units). Qed.
Print Assumptions c133_units.

Theorem c133_no_ties : forall x, increasing x -> repeats x = 0%nat.
Proof. exact (repeats_increasing). Qed.
Print Assumptions c133_no_ties.

(* an observation counts as inside the support when it lies in the closed interval *)
Theorem c133_support : forall d args x, inside d args x = true <-> within (low d args) (high d args) x.
Proof. exact inside_spec. Qed.
Print Assumptions c133_support.

Example c133_case : 0 < 1 / 1000 /\ argcheck uniform [] = true /\ 0 < 3 /\ distribution_function (cdf uniform []) /\ increasing thirds /\ (forall v, In v thirds -> inside uniform [] ((v - 2) / 3) = true)
  /\ (forall i, (i < List.length thirds)%nat -> cdf uniform [] ((nth i thirds 0 - 2) / 3) = INR (i + 1) / INR (List.length thirds + 1)).
Proof. exact (thirds_case). Qed.

Example c133_tied_case : let x := [2; 3; 3; 9] in (forall v, In v x -> inside uniform [] ((v - 2) / 3) = true -> 0 < pdf uniform [] ((v - 2) / 3))
  /\ repeats (filter (fun v => inside uniform [] ((v - 2) / 3)) x) = 1%nat /\ List.length (filter (fun v => negb (inside uniform [] ((v - 2) / 3))) x) = 1%nat
  /\ exists T, penalized_nlogps (1 / 1000) 1000 uniform [2; 3] x = Ok (Some T).
Proof. exact (tied_case). Qed.
