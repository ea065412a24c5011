(* Property theorems C18, C25 - C27.  Vocabulary: CrossSpec.v, AstmSpec.v (zigzag),
   CyclesSpec.v. *)
From Coq Require Import String Reals Lra ZifyBool.
From Verif Require Import Base CrossModel CrossSpec AstmSpec RfcModel EcrossModel EcrossProofs CyclesModel CyclesSpec
  CyclesProofs CyclesProofs2 CyclesFacts.
Local Open Scope list_scope.
Local Open Scope Z_scope.

(* ---- C18 ------------------------------------------------------------------- *)
Theorem c18_cycle_pairs : forall mem data up h method,
  (2 <= List.length data)%nat -> zigzag up data -> h <= 0 ->
  cycle_pairs mem data h true method = Ok (map snd (rises data), map fst (rises data)) /\
  cycle_pairs mem data h false method = Ok (map fst (falls data), map snd (falls data)).
Proof. exact cycle_pairs_spec. Qed.
Print Assumptions c18_cycle_pairs.

Theorem c18_filtered_too_short_refuted : exists data h, zigzag true data /\ 0 < h /\
  cycle_pairs [] data h true None = Err IndexError.
Proof. exact cycle_pairs_empty. Qed.
Print Assumptions c18_filtered_too_short_refuted.

Example c18_case : zigzag false [5; 1; 4; 2; 6] /\
  cycle_pairs [] [5; 1; 4; 2; 6] 0 true None = Ok ([4; 6], [1; 2]) /\
  cycle_pairs [] [5; 1; 4; 2; 6] 0 false None = Ok ([5; 4], [1; 2]).
Proof. split; [simpl; lia|split; reflexivity]. Qed.

(* ---- C25 ------------------------------------------------------------------- *)
Theorem c25_every_cycle_counted_once : forall cp a b n ddef,
  a < b -> 2 <= n -> ddef = 0 \/ ddef = 1 \/ ddef = -1 ->
  exists F, cycle_matrix cp a b n ddef = Ok F /\ (forall i j, 0 <= F i j) /\
    (forall i j, ~ (0 <= i < n /\ 0 <= j < n) -> F i j = 0) /\
    matrix_sum (Z.to_nat n) F = Z.of_nat (List.length cp).
Proof. exact cycle_matrix_spec. Qed.
Print Assumptions c25_every_cycle_counted_once.

(* level number k of linspace(a, b, n) is a + k (b-a)/(n-1): a cycle between the levels
   number k and l is not counted at [k, l] but at [k+1, l+1] *)
Theorem c25_nearest_level_refuted : forall a b n k l m M,
  a < b -> 2 <= n -> 0 <= k <= n - 2 -> 0 <= l <= n - 2 ->
  (n - 1) * (m - a) = k * (b - a) -> (n - 1) * (M - a) = l * (b - a) ->
  exists F, cycle_matrix [(m, M)] a b n 0 = Ok F /\ F k l = 0 /\ F (k + 1) (l + 1) = 1.
Proof. exact nearest_level_shifted. Qed.
Print Assumptions c25_nearest_level_refuted.

(* a single max-to-min cycle is projected as if it were min-to-max: the same cycle in
   second position goes elsewhere *)
Theorem c25_position_independent_refuted : exists c d1 d2,
  discretize_pairs [c] 0 10 11 1 = Ok [d1] /\
  (exists e, discretize_pairs [(1, 2); c] 0 10 11 1 = Ok [e; d2]) /\ d1 <> d2.
Proof. exact position_matters. Qed.
Print Assumptions c25_position_independent_refuted.

Example c25_case : match cycle_matrix [(2, 5); (2, 5); (0, 10)] 0 10 6 1 with
  | Ok F => F 2 4 = 2 /\ F 1 5 = 1 /\ matrix_sum 6 F = 3 | Err _ => False end.
Proof. repeat split; reflexivity. Qed.

(* ---- C26 ------------------------------------------------------------------- *)
(* the numbers 1..4 count what they should; the last entry for 4 (up-crossings and
   minima) repeats the one before it *)
Theorem c26_level_crossings_numbers : forall cp d, cp <> [] ->
  (forall c, In c cp -> fst c < snd c) -> (exists c, In c cp /\ 0 <= snd c) ->
  exists levels counts, level_crossings cp (KInt (def_number d)) = Ok (levels, counts) /\
    levels_increasing levels /\ List.length counts = List.length levels /\
    (forall v, In v levels <-> exists c, In c cp /\ (v = fst c \/ v = snd c)) /\
    (forall k, (k < List.length levels)%nat -> (d = UpMin -> (S k < List.length levels)%nat) ->
       nth k counts 0 = count d (nth k levels 0) cp) /\
    (d = UpMin -> nth (List.length levels - 1) counts 0 = nth (List.length levels - 2) counts 0).
Proof. exact level_crossings_spec. Qed.
Print Assumptions c26_level_crossings_numbers.

(* the documented name 'u' is rejected for every input, and the other names count what
   the name before them promises *)
Theorem c26_names_refuted : forall cp,
  level_crossings cp (KStr (documented_name Up)) = Err ValueError /\
  level_crossings cp (KStr (documented_name UpMax)) = level_crossings cp (KInt (def_number Up)) /\
  level_crossings cp (KStr (documented_name UpMinMax)) = level_crossings cp (KInt (def_number UpMax)) /\
  level_crossings cp (KStr (documented_name UpMin)) = level_crossings cp (KInt (def_number UpMinMax)).
Proof. exact names_shifted. Qed.
Print Assumptions c26_names_refuted.

(* if all maxima are negative and two extremes are equal, a level 0 that no cycle has
   appears *)
Theorem c26_negative_extremes_refuted : exists cp levels counts,
  (forall c, In c cp -> fst c < snd c < 0) /\
  level_crossings cp (KInt (def_number UpMax)) = Ok (levels, counts) /\ In 0 levels.
Proof. exact negative_extremes. Qed.
Print Assumptions c26_negative_extremes_refuted.

Example c26_case : level_crossings [(1, 4); (1, 3); (2, 4)] (KInt 2) = Ok ([1; 2; 3; 4], [0; 2; 3; 2])
  /\ count UpMax 3 [(1, 4); (1, 3); (2, 4)] = 3.
Proof. split; reflexivity. Qed.

(* ---- C27 ------------------------------------------------------------------- *)
Theorem c27_periods_first_crossing_up : forall m x v index a b,
  findcross m x v None = Ok index -> x <> [] ->
  alternating (UpCross x v) (DownCross x v) index -> (2 <= List.length index)%nat ->
  exists p0 p1, period_pairs x index (pdef_name a b) = Ok (p0, p1) /\ List.length p0 = List.length p1 /\
    (forall k, (k < List.length p0)%nat ->
       is_cross a x v (nth k p0 0%nat) /\ next_cross b x v (nth k p0 0%nat) (nth k p1 0%nat)) /\
    (forall i j, is_cross a x v i -> is_cross b x v j -> (i < j)%nat -> In i p0).
Proof. exact periods_up_first. Qed.
Print Assumptions c27_periods_first_crossing_up.

Theorem c27_crossing_periods_positive : forall m t x v index a b,
  findcross m x v None = Ok index -> x <> [] ->
  List.length t = List.length x -> increasingR t -> (2 <= List.length index)%nat ->
  exists T, wave_periods_crossings t x v index (pdef_name a b) = Ok T /\ forall d, In d T -> (0 < d)%R.
Proof. exact crossing_periods_positive. Qed.
Print Assumptions c27_crossing_periods_positive.

(* if the first crossing is downwards, 'd2u' measures from up-crossings to
   down-crossings and the first wave is dropped *)
Theorem c27_first_crossing_down_refuted : exists x index p0 p1,
  findcross Numba x 0 None = Ok index /\ period_pairs x index (pdef_name D U) = Ok (p0, p1) /\
  p0 <> [] /\ (forall i, In i p0 -> UpCross x 0 i) /\ (forall i, In i p1 -> DownCross x 0 i).
Proof. exact down_first_swapped. Qed.
Print Assumptions c27_first_crossing_down_refuted.

(* minimum-to-minimum "periods" are differences of sample values: they can be negative,
   and scaling the signal scales them *)
Theorem c27_extreme_periods_refuted : exists x index,
  findtp0 Numba x false None = Ok (Some index) /\ 
  wave_periods_extremes x index "m2m" = Ok [-2; 3] /\
  wave_periods_extremes (map (Z.mul 10) x) index "m2m" = Ok [-20; 30].
Proof. exact extreme_periods_are_values. Qed.
Print Assumptions c27_extreme_periods_refuted.

Example c27_case : findcross Numba [-1; 1; -1; 1; -1; 1] 0 None = Ok [0; 1; 2; 3; 4]%nat /\
  period_pairs [-1; 1; -1; 1; -1; 1] [0; 1; 2; 3; 4]%nat "u2u" = Ok ([0; 2], [2; 4])%nat /\
  period_pairs [-1; 1; -1; 1; -1; 1] [0; 1; 2; 3; 4]%nat "d2u" = Ok ([1; 3], [2; 4])%nat.
Proof. repeat split; reflexivity. Qed.
