(* Theorems about CovData1D.simcond (C144). *)
From Coq Require Import Reals List Bool.
From Verif Require Import Base PolyModel ArSpec ScondModel ScondSpec ScondProofs ScondProofs2 ScondProofs3.
Import ListNotations.
Local Open Scope R_scope.

(* The exact method: the means are the best linear predictions, the deviations and the covariances are those of their errors. *)

Theorem c144_exact : forall solve draw simall data n miss, let lag := get_lag data in let r := cut lag data in
  (forall k, (k < List.length data)%nat -> nth k data 0 <= nth 0 data 0) -> data <> [] -> (lag <= n)%nat -> (3 * n < 10 * lag)%nat -> (exists i, (i < n)%nat /\ miss i = true) -> (exists i, (i < n)%nat /\ miss i = false) ->
  semidefinite r n -> predicts solve r (present n miss) (missing n miss) ->
  exists P, forall x, exists mu sd C, predicted r n (fun i => In i (present n miss)) (missing n miss) P x mu sd C /\
  simcond solve draw simall data (series n miss x) Exact None = Outcome (Ok (draw mu C, mu, sd)) data (series n miss x).
Proof. exact (exact_dense). Qed.
Print Assumptions c144_exact.

(* A long series: the same, with a variance that is larger by a factor of 1.00001, also afterwards in the object. *)

Theorem c144_exact_long : forall solve draw simall data n miss, let lag := get_lag data in let f := 100001 / 100000 in let r := raised f (cut lag data) in
  (forall k, (k < List.length data)%nat -> nth k data 0 <= nth 0 data 0) -> 0 < nth 0 data 0 -> (10 * lag <= 3 * n)%nat -> (2 <= List.length (missing n miss))%nat -> (exists i, (i < n)%nat /\ miss i = false) ->
  semidefinite r n -> predicts solve r (present n miss) (missing n miss) ->
  exists P, forall x, exists mu sd C, predicted r n (fun i => In i (present n miss)) (missing n miss) P x mu sd C /\
  simcond solve draw simall data (series n miss x) Exact None = Outcome (Ok (draw mu C, mu, sd)) (upd data 0 (nth 0 data 0 * f)) (series n miss x).
Proof. exact (exact_sparse). Qed.
Print Assumptions c144_exact_long.

Theorem c144_sparse_matrix : forall c, nth 0 c 0 <> 0 -> exists sigma, sptoeplitz c = Ok sigma /\ forall i j, sigma i j = toeplitz c i j.
Proof. exact (sptoeplitz_spec). Qed.
Print Assumptions c144_sparse_matrix.

(* The approximate method is the exact one for the window of the last values if the window reaches the end of the series, ... *)

Theorem c144_approx : forall solve draw simall data n miss x, let lag := get_lag data in let k := Nat.min (2 * lag) n in let start := (n - k)%nat in
  (forall k, (k < List.length data)%nat -> nth k data 0 <= nth 0 data 0) -> 0 < nth 0 data 0 -> (lag <= n)%nat -> (exists i, (i < n)%nat /\ miss i = true) -> (exists i, (start <= i < n)%nat /\ miss i = false) ->
  (forall i, (i < n)%nat -> miss i = true -> start = 0%nat \/ (start + k / 4 <= i)%nat) ->
  simcond solve draw simall data (series n miss x) Approx None = Outcome (ret (simcond solve draw simall data (series k (fun t => miss (start + t)%nat) (fun t => x (start + t)%nat)) Exact None)) data (series n miss x).
Proof. exact (approx_window). Qed.
Print Assumptions c144_approx.

(* ... otherwise it fails. *)

Theorem c144_approx_fails : forall solve draw simall data n miss x, let lag := get_lag data in let k := Nat.min (2 * lag) n in
  (forall k, (k < List.length data)%nat -> nth k data 0 <= nth 0 data 0) -> data <> [] -> (lag <= n)%nat -> (exists i, (i < n - k + k / 4)%nat /\ (i < n)%nat /\ miss i = true) -> (exists i, (i < n)%nat /\ miss i = false) -> (k < n)%nat ->
  let r := ret (simcond solve draw simall data (series n miss x) Approx None) in r = Err ValueError \/ r = Err TypeError.
Proof. exact (approx_fails). Qed.
Print Assumptions c144_approx_fails.

Theorem c144_default_refuted : ~ (forall solve draw simall data n miss x, (forall k, (k < List.length data)%nat -> nth k data 0 <= nth 0 data 0) -> 0 < nth 0 data 0 -> (get_lag data <= n)%nat -> (exists i, (i < n)%nat /\ miss i = true) -> (exists i, (i < n)%nat /\ miss i = false) ->
  semidefinite (cut (get_lag data) data) n -> predicts solve (cut (get_lag data) data) (present n miss) (missing n miss) -> exists r, ret (simcond solve draw simall data (series n miss x) Approx None) = Ok r).
Proof. exact (default_fails). Qed.
Print Assumptions c144_default_refuted.

(* The series and the autocovariance function of the user are changed. *)

Theorem c144_series_kept_refuted : ~ (forall solve draw simall data x m, (forall k, (k < List.length data)%nat -> nth k data 0 <= nth 0 data 0) -> 0 < nth 0 data 0 -> x_after (simcond solve draw simall data x m None) = x).
Proof. exact (overwrites). Qed.
Print Assumptions c144_series_kept_refuted.

Theorem c144_marks_refuted : ~ (forall solve draw simall data x m l, (forall k, (k < List.length data)%nat -> nth k data 0 <= nth 0 data 0) -> 0 < nth 0 data 0 -> x_after (simcond solve draw simall data x m (Some l)) = x).
Proof. exact (marks_input). Qed.
Print Assumptions c144_marks_refuted.

Theorem c144_data_kept_refuted : ~ (forall solve draw simall data x m iu, (forall k, (k < List.length data)%nat -> nth k data 0 <= nth 0 data 0) -> 0 < nth 0 data 0 -> data_after (simcond solve draw simall data x m iu) = data).
Proof. exact (changes_data). Qed.
Print Assumptions c144_data_kept_refuted.

(* Covariances that are left out are insignificant. *)

Theorem c144_lag : forall data k, let n := List.length data in (get_lag data <= k)%nat -> (k < n)%nat -> (2 <= k)%nat ->
  Rabs (nth k data 0) <= 1 / 10 * sqrt ((nth 0 data 0 ^ 2 + 2 * sum_to (k - 1) (fun i => nth (S i) data 0 ^ 2)) / INR n).
Proof. exact (lag_small). Qed.
Print Assumptions c144_lag.

(* Other cases. *)

Theorem c144_marked : forall solve draw simall data n miss x m l, (forall i, In i l -> (i < n)%nat) -> (forall k, (k < List.length data)%nat -> nth k data 0 <= nth 0 data 0) -> data <> [] ->
  simcond solve draw simall data (series n miss x) m (Some l) = simcond solve draw simall data (series n (fun i => miss i || existsb (Nat.eqb i) l) x) m None.
Proof. exact (marked). Qed.
Print Assumptions c144_marked.

Theorem c144_too_short : forall solve draw simall data n miss x m, (forall k, (k < List.length data)%nat -> nth k data 0 <= nth 0 data 0) -> data <> [] -> (n < get_lag data)%nat -> (exists i, (i < n)%nat /\ miss i = true) -> (exists i, (i < n)%nat /\ miss i = false) -> m = Exact \/ m = Approx ->
  ret (simcond solve draw simall data (series n miss x) m None) = Err ValueError.
Proof. exact (too_short). Qed.
Print Assumptions c144_too_short.

Theorem c144_not_maximal : forall solve draw simall data x m iu k, (k < List.length data)%nat -> nth 0 data 0 < nth k data 0 -> simcond solve draw simall data x m iu = Outcome (Err ValueError) data x.
Proof. exact (not_valid). Qed.
Print Assumptions c144_not_maximal.

Theorem c144_none_missing : forall solve draw simall data n x m, (forall k, (k < List.length data)%nat -> nth k data 0 <= nth 0 data 0) -> data <> [] -> simcond solve draw simall data (series n (fun _ => false) x) m None = Outcome (Ok ([], [], [])) data (series n (fun _ => false) x).
Proof. exact (none_missing). Qed.
Print Assumptions c144_none_missing.

Theorem c144_all_missing : forall solve draw simall data n x m s, (forall k, (k < List.length data)%nat -> nth k data 0 <= nth 0 data 0) -> 0 < nth 0 data 0 -> (0 < n)%nat -> simall n = Ok s ->
  simcond solve draw simall data (series n (fun _ => true) x) m None = Outcome (Ok (s, repeat 0 n, repeat (sqrt (nth 0 data 0)) n)) data (series n (fun _ => true) x).
Proof. exact (all_missing). Qed.
Print Assumptions c144_all_missing.

Theorem c144_other_method : forall solve draw simall data n miss x, (forall k, (k < List.length data)%nat -> nth k data 0 <= nth 0 data 0) -> data <> [] -> (exists i, (i < n)%nat /\ miss i = true) -> (exists i, (i < n)%nat /\ miss i = false) ->
  let z := repeat 0 (List.length (missing n miss)) in simcond solve draw simall data (series n miss x) Other None = Outcome (Ok (z, z, z)) data (series n miss x).
Proof. exact (other_method). Qed.
Print Assumptions c144_other_method.

Example c144_case : let miss i := (i =? 1)%nat in semidefinite (cut (get_lag two) two) 2 /\ predicts quotient (cut (get_lag two) two) (present 2 miss) (missing 2 miss) /\
  forall simall a, simcond quotient (fun mu _ => mu) simall two [Some a; None] Exact None = Outcome (Ok ([a / 2], [a / 2], [sqrt (3 / 2)])) two [Some a; None].
Proof. exact (two_case). Qed.
