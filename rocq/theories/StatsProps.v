From Coq Require Import Reals ZArith Lra Lia Sorted Permutation.
From Verif Require Import Base GridSpec KdeModel StatsModel StatsSpec StatsProofs StatsProofs2 StatsProofs3.
Local Open Scope R_scope.

(* ---- C63: return periods ---- *)
Theorem c63_probability_roundtrip : forall npu q, 0 < npu -> 0 <= q < 1 ->
  exists T, sf2returnperiod FloatArray [(q, npu)] = Ok [T] /\ returnperiod2sf FloatArray [(T, npu)] = Ok [Fin q].
Proof. exact probability_roundtrip. Qed.
Print Assumptions c63_probability_roundtrip.
Theorem c63_period_roundtrip : forall npu T, 0 < npu -> 1 < T * npu ->
  exists q, returnperiod2sf FloatArray [(Fin T, npu)] = Ok [Fin q] /\ 0 < q < 1 /\ sf2returnperiod FloatArray [(q, npu)] = Ok [Fin T].
Proof. exact period_roundtrip. Qed.
Print Assumptions c63_period_roundtrip.
Theorem c63_nan : forall npu q T,
  (sf2returnperiod FloatArray [(q, npu)] = Ok [NaN] <-> npu < 0 \/ q < 0 \/ 1 <= q) /\
  (returnperiod2sf FloatArray [(Fin T, npu)] = Ok [NaN] <-> npu <= 0 \/ T * npu < 1).
Proof. exact nan_entries. Qed.
Print Assumptions c63_nan.
Theorem c63_decreasing : forall T T' npu q q', T < T' -> returnperiod2sf FloatArray [(Fin T, npu); (Fin T', npu)] = Ok [Fin q; Fin q'] -> q' < q.
Proof. exact entries_decreasing. Qed.
Print Assumptions c63_decreasing.
(* every entry of an array is treated on its own *)
Theorem c63_entrywise : forall args args', returnperiod2sf FloatArray (args ++ args') = (let* a := returnperiod2sf FloatArray args in let* b := returnperiod2sf FloatArray args' in Ok (a ++ b)).
Proof. exact entrywise. Qed.
Print Assumptions c63_entrywise.
(* the shortest meaningful period, one event, does not survive the round trip: its probability 1 is refused *)
Theorem c63_one_event_refuted : forall npu, 0 < npu -> returnperiod2sf FloatArray [(Fin (1 / npu), npu)] = Ok [Fin 1] /\ sf2returnperiod FloatArray [(1, npu)] = Ok [NaN].
Proof. exact one_event. Qed.
Print Assumptions c63_one_event_refuted.
(* scalars and integer arrays, which the documentation allows, raise *)
Theorem c63_types_refuted : forall args args', returnperiod2sf ZeroD args = Err TypeError /\ returnperiod2sf IntArray args = Err ValueError /\ sf2returnperiod ZeroD args' = Err TypeError /\ sf2returnperiod IntArray args' = Err ValueError.
Proof. exact bad_types. Qed.
Print Assumptions c63_types_refuted.
Example c63_case : returnperiod2sf FloatArray [(Fin 1000, 1 / 100)] = Ok [Fin (1 / 10)].
Proof. cbn [returnperiod2sf map fst snd]. unfold sf_entry. destruct (Rle_dec (1 / 100) 0); [lra|]. destruct (Rlt_dec (1000 * (1 / 100)) 1); [lra|]. repeat f_equal. field. Qed.

(* ---- C100: extremal index and declustering time ---- *)
Theorem c100_gaps : forall t, t <> [] ->
  List.length (interexceedance_times t) = (List.length t - 1)%nat /\ (forall v, In v (interexceedance_times t) -> 0 <= v) /\
  sumR (interexceedance_times t) = maxR t - minR t.
Proof. exact interexceedance_spec. Qed.
Print Assumptions c100_gaps.
Theorem c100_extremal_index : forall t, t <> [] -> integers t -> exists ei, extremal_idx t = Ok ei /\ 0 <= ei <= 1.
Proof. exact extremal_range. Qed.
Print Assumptions c100_extremal_index.
(* for integer times (sample numbers) the declustering time is one of the gaps, exceeded by at most n * index gaps *)
Theorem c100_declustering_time : forall t, (2 <= List.length t)%nat -> integers t ->
  exists ei tc, extremal_idx (interexceedance_times t) = Ok ei /\ declustering_time t = Ok (Some tc) /\ In tc (interexceedance_times t) /\
  INR (count (fun v => Rltb tc v) (interexceedance_times t)) <= INR (List.length t) * ei.
Proof. exact declustering_spec. Qed.
Print Assumptions c100_declustering_time.
Theorem c100_few : forall t, (List.length t < 2)%nat -> declustering_time t = Ok None.
Proof. exact declustering_few. Qed.
Print Assumptions c100_few.
Example c100_case : integers [1; 2; 5; 10].
Proof. intros v [<-|[<-|[<-|[<-|[]]]]]; eexists; reflexivity. Qed.
(* for times that are not integers the index can be negative and the function raises *)
Theorem c100_real_times_refuted : extremal_idx (interexceedance_times [0; 3/2; 3; 51/10]) = Ok (- (98/13)) /\ declustering_time [0; 3/2; 3; 51/10] = Err IndexError.
Proof. exact declustering_noninteger. Qed.
Print Assumptions c100_real_times_refuted.

(* ---- C101: empirical distribution function ---- *)
Theorem c101_sorted : forall x method, let (F, z) := edf x method in Permutation x z /\ StronglySorted Rle z /\ List.length F = List.length x.
Proof. exact edf_sorted. Qed.
Print Assumptions c101_sorted.
Theorem c101_increasing : forall x method i j, (i < j < List.length x)%nat ->
  0 < nth i (fst (edf x method)) 0 /\ nth i (fst (edf x method)) 0 < nth j (fst (edf x method)) 0 /\ nth j (fst (edf x method)) 0 <= 1.
Proof. exact edf_increasing. Qed.
Print Assumptions c101_increasing.
(* at the last of equal values: within 1/(n+1) of the fraction of the data at or below, and equal to it for method 3 *)
Theorem c101_empirical : forall x method k, let (F, z) := edf x method in (k < List.length x)%nat -> (S k = List.length x \/ nth k z 0 < nth (S k) z 0) ->
  Rabs (nth k F 0 - fraction_below x (nth k z 0)) <= / (INR (List.length x) + 1) /\ (method = 3%Z -> nth k F 0 = fraction_below x (nth k z 0)).
Proof. exact edf_empirical. Qed.
Print Assumptions c101_empirical.
Theorem c101_conditional : forall x method, (x <> [] -> edfcnd x None method = Ok (edf x method)) /\ forall c, edfcnd x (Some c) method = Ok (edf (filter (fun v => Rleb c v) x) method).
Proof. exact edfcnd_spec. Qed.
Print Assumptions c101_conditional.
Example c101_case : fst (edf [3; 1] 2) = [INR 1 / (INR 2 + 1); INR 2 / (INR 2 + 1)] /\ snd (edf [3; 1] 2) = [1; 3].
Proof.
  unfold edf. cbn [FilterModel.sortR FilterModel.insertR fst snd]. destruct (Rle_dec 3 1); [lra|]. split; reflexivity.
Qed.

(* ---- C102: mean residual life and dispersion index ---- *)
Theorem c102_mean_excess : forall data u, let (m, n) := mean_excess data u in
  n = count (fun v => Rltb u v) data /\
  match m with None => n = O | Some e => (0 < n)%nat /\ 0 < e /\ INR n * e = sumR (map (fun v => Rmax 0 (v - u)) data) end.
Proof. exact mean_excess_spec. Qed.
Print Assumptions c102_mean_excess.
(* the default thresholds leave at least nmin - 1 exceedances if the data are distinct *)
Theorem c102_default_thresholds : forall data nmin, NoDup data -> (2 <= nmin <= List.length data)%nat ->
  exists us, reslife_default data nmin = Ok us /\ List.length us = Nat.min (List.length data - nmin) 100 /\
  forall u, In u us -> (nmin - 1 <= count (fun v => Rltb u v) data)%nat /\ minR data <= u.
Proof. exact reslife_default_counts. Qed.
Print Assumptions c102_default_thresholds.
(* with ties the last mean residual life can be the mean of nothing *)
Theorem c102_ties_refuted : exists us, reslife_default [0; 1; 2; 2; 2] 3 = Ok us /\ reslife [0; 1; 2; 2; 2] us = [(Some (7 / 4), 4%nat); (None, O)].
Proof. exact reslife_ties. Qed.
Print Assumptions c102_ties_refuted.
(* the dispersion index is the variance over the mean of the numbers of exceedances per block, and the blocks cover all times *)
Theorem c102_dispersion : forall data t tb thresh, t <> [] -> List.length t = List.length data -> 0 < tb ->
  exists M, (0 < M)%nat /\ (forall v, In v t -> exists b, (b < M)%nat /\ in_block (minR t) tb b v = true) /\
  let counts := map (fun b => INR (block_count data t (minR t) tb thresh b)) (seq 0 M) in
  sumR counts = INR (count (fun v => Rltb thresh v) data) /\ dispersion data t tb thresh = variance counts / average counts.
Proof. exact dispersion_spec. Qed.
Print Assumptions c102_dispersion.
Example c102_case : block_count [5; 1; 7] [0; 1/2; 3/2] 0 1 2 0 = 1%nat.
Proof.
  unfold block_count, count, in_block, Rleb, Rltb. cbn [combine filter fst snd INR].
  repeat (destruct Rlt_dec; try lra); repeat (destruct Rle_dec; try lra); cbn; try reflexivity; repeat (destruct Rlt_dec; try lra); reflexivity.
Qed.
