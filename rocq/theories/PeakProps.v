(* Theorems about findpeaks (C140) and about the order of the turning points of rainflow cycles (C12). *)
From Coq Require Import Permutation String.
From Verif Require Import Base CrossSpec CrossModel RfcSpec RfcModel PeakModel PeakSpec AltProofs PeakProofs PeakProofs2 PeakCases.
Import ListNotations.
Local Open Scope list_scope.
Local Open Scope Z_scope.

(* The turning points of the rainflow cycles of range at least h, in the order of time, are alternately minima (even places) and maxima. *)

Theorem c12_alternating : forall y nc h l, increasing l -> (forall k, In k l <-> InRainflow y nc h k) -> forall j, (j < List.length l)%nat -> Nat.odd (nth j l 0%nat) = Nat.odd j.
Proof. exact (alternates). Qed.
Print Assumptions c12_alternating.

(* Threshold 0: the n highest of all peaks, the highest first; min_p then drops those that are not above its part of the largest value. *)

Theorem c140_vector : forall mem m method argsort x n den p, sorts argsort -> (2 <= List.length x)%nat -> several_extremes x -> 0 < den ->
  exists top dmax, largest x dmax /\ Top (Peak x) (at_ x) n top /\ findpeaks mem m method argsort (Vec x) (Z.of_nat n) (Some (0, den)) p = Ok (above_part (at_ x) p dmax top).
Proof. exact (findpeaks_vector). Qed.
Print Assumptions c140_vector.

(* Positive threshold num/den: the maxima of the rainflow cycles with at least this range; if there is none, the maximum of the signal. *)

Theorem c140_threshold : forall mem m method argsort x n num den p t, sorts argsort -> (2 <= List.length x)%nat -> 0 < num -> let z := map (Z.mul den) x in findtp0 m z false None = Ok (Some t) -> rychlik_method method -> (mem <> [] \/ Nat.odd (List.length t) = true) ->
  exists top dmax P, largest x dmax /\ Top P (at_ x) n top /\ findpeaks mem m method argsort (Vec x) (Z.of_nat n) (Some (num, den)) p = Ok (above_part (at_ x) p dmax top) /\
    ((forall e, P e <-> CyclePeak z t mem num e) \/ ((forall e, ~ CyclePeak z t mem num e) /\ exists a, (forall e, P e <-> e = a) /\ (a < List.length x)%nat /\ at_ x a = dmax)).
Proof. exact (findpeaks_threshold). Qed.
Print Assumptions c140_threshold.

Theorem c140_default : forall mem m method argsort d n p dmax dmin, largest (flat d) dmax -> largest (map Z.opp (flat d)) (- dmin) ->
  findpeaks mem m method argsort d n None p = findpeaks mem m method argsort d n (Some (dmax - dmin, 20)) p.
Proof. exact (findpeaks_default). Qed.
Print Assumptions c140_default.

(* Matrices: the peaks of the rows that are higher than the rows beside them. *)

Theorem c140_matrix : forall mem m method argsort rows w n den p, sorts argsort -> (2 <= List.length rows)%nat -> (2 <= w)%nat -> (forall x, In x rows -> List.length x = w /\ several_extremes x) -> 0 < den ->
  exists top dmax, largest (concat rows) dmax /\ Top (SurfacePeak rows w) (at_ (concat rows)) n top /\ findpeaks mem m method argsort (Mat rows) (Z.of_nat n) (Some (0, den)) p = Ok (above_part (at_ (concat rows)) p dmax top).
Proof. exact (findpeaks_matrix). Qed.
Print Assumptions c140_matrix.

(* A signal with at most one turning point, as one with a single peak, raises TypeError. *)

Theorem c140_no_extremes_refuted : forall mem m method argsort x n num den p, (2 <= List.length x)%nat -> 0 <= num -> 0 < den -> ~ several_extremes x -> findpeaks mem m method argsort (Vec x) n (Some (num, den)) p = Err TypeError.
Proof. exact (findpeaks_no_extremes). Qed.
Print Assumptions c140_no_extremes_refuted.

Theorem c140_one_row_refuted : forall mem m method argsort x n den p, (2 <= List.length x)%nat -> several_extremes x -> 0 < den -> findpeaks mem m method argsort (Mat [x]) n (Some (0, den)) p = Err IndexError.
Proof. exact (findpeaks_one_row). Qed.
Print Assumptions c140_one_row_refuted.

Theorem c140_empty : forall mem m method argsort n h p, findpeaks mem m method argsort (Vec []) n h p = Err ValueError.
Proof. exact (findpeaks_empty). Qed.
Print Assumptions c140_empty.

Example c140_sorts : sorts stable_argsort.
Proof. exact (stable_sorts). Qed.

Example c140_vector_case : let x := [0; 3; 1; 7; 2; 5; 5; 4; 6] in
  several_extremes x /\ findpeaks [] Numba None stable_argsort (Vec x) 3 (Some (0, 1)) (0, 1) = Ok [3; 8; 6]%nat /\
  findpeaks [] Numba None stable_argsort (Vec x) 3 (Some (0, 1)) (4, 5) = Ok [3; 8]%nat /\
  findpeaks [0] Numba None stable_argsort (Vec x) 3 (Some (3, 1)) (0, 1) = Ok [3; 8]%nat /\
  findtp0 Numba x false None = Ok (Some [0; 1; 2; 3; 4; 6; 7; 8]%nat).
Proof. exact (vector_case). Qed.

Example c140_matrix_case : findpeaks [] Numba None stable_argsort (Mat [[0; 3; 1; 2; 0]; [0; 4; 1; 1; 3]; [0; 1; 0; 3; 0]]) 3 (Some (0, 1)) (0, 1) = Ok [6; 13; 9]%nat.
Proof. exact (matrix_case). Qed.

Example c140_single_case : ~ several_extremes [0; 1; 0] /\ findpeaks [] Numba None stable_argsort (Vec [0; 1; 0]) 2 (Some (0, 1)) (0, 1) = Err TypeError /\ TurnsDown [0; 1; 0] 1.
Proof. exact (single_case). Qed.

Example c140_below_case : findpeaks [0] Numba None stable_argsort (Vec [0; 3; 1; 7; 2; 5; 5; 4; 6]) 3 (Some (9, 1)) (0, 1) = Ok [3]%nat /\ findpeaks [0] Numba None stable_argsort (Vec [0; 3; 1; 7; 2; 5; 5; 4; 6]) 1 None (0, 1) = Ok [3]%nat.
Proof. exact (below_case). Qed.
