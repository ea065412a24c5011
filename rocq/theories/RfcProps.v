(* Property theorems C10 - C14.  Vocabulary: RfcSpec.v, CrossSpec.v. *)
From Coq Require Import String.
From Verif Require Import Base CrossModel CrossSpec RfcModel RfcSpec RfcProofs RfcFilterProofs
  RfcTopProofs.
Local Open Scope list_scope.
Local Open Scope Z_scope.

(* ---- C10 ------------------------------------------------------------------- *)
(* method 0 needs h > 0; method 1 also works for h = 0 unless the signal is constant *)
Theorem c10_rfcfilter_correct : forall x h m, x <> [] -> (m = 0%nat \/ m = 1%nat) ->
  0 < h + Z.of_nat m -> (0 < h \/ exists k, (k < List.length x)%nat /\ at_ x k <> at_ x 0) ->
  exists t, rfcfilter x h m = Ok (map (at_ x) t) /\ Filtered x m h t.
Proof. exact rfcfilter_correct. Qed.
Print Assumptions c10_rfcfilter_correct.

(* finding: with method 0 ("removes cycles with range < h") a last leg of range
   exactly h is removed *)
Theorem c10_last_leg_refuted : exists x h, rfcfilter x h 0 = Ok [0] /\
  exists k, (k < List.length x)%nat /\ h <= at_ x k - at_ x 0.
Proof. exact rfcfilter_drops_last. Qed.
Print Assumptions c10_last_leg_refuted.

(* finding: rfcfilter(x, h=0, method=1) of a constant signal repeats a sample, and
   for a single sample writes behind the index buffer *)
Theorem c10_constant_refuted :
  rfcfilter [7; 7; 7] 0 1 = Ok [7; 7] /\ rfcfilter [7] 0 1 = Err MemoryError.
Proof. exact rfcfilter_constant. Qed.
Print Assumptions c10_constant_refuted.

Example c10_case : rfcfilter [3; 1; 4; 1; 5; 9; 2; 6; 5; 3; 5; 8; 9; 7; 9] 3 0
  = Ok [3; 9; 2; 6; 3; 9] /\
  rfcfilter [3; 1; 4; 1; 5; 9; 2; 6; 5; 3; 5; 8; 9; 7; 9] 3 1 = Ok [3; 9; 2; 9].
Proof. split; reflexivity. Qed.

(* ---- C11 ------------------------------------------------------------------- *)
Theorem c11_rfcfilter_idempotent : forall x h m y, x <> [] -> (m = 0%nat \/ m = 1%nat) ->
  0 < h + Z.of_nat m -> (0 < h \/ exists k, (k < List.length x)%nat /\ at_ x k <> at_ x 0) ->
  rfcfilter x h m = Ok y ->
  (m = 0%nat -> (2 <= List.length y)%nat ->
     h < Z.abs (at_ y (List.length y - 1) - at_ y (List.length y - 2))) ->
  rfcfilter y h m = Ok y.
Proof. exact rfcfilter_idempotent. Qed.
Print Assumptions c11_rfcfilter_idempotent.

(* finding: without the condition on the last leg method 0 is not idempotent *)
Theorem c11_idempotent_refuted :
  exists x y, rfcfilter x 2 0 = Ok y /\ rfcfilter y 2 0 <> Ok y.
Proof. exact rfcfilter_not_idempotent. Qed.
Print Assumptions c11_idempotent_refuted.

Example c11_case : rfcfilter [3; 9; 2; 6; 3; 9] 3 0 = Ok [3; 9; 2; 6; 3; 9].
Proof. reflexivity. Qed.

(* ---- C12 ------------------------------------------------------------------- *)
Theorem c12_findrfc_rainflow : forall y nc h, List.length y = (2 * nc + 1)%nat ->
  exists l, findrfc2 y h = Ok l /\ NoDup l /\
   (forall idx, In idx l <-> InRainflow y nc h idx) /\ (List.length l <= List.length y)%nat.
Proof. exact findrfc2_odd. Qed.
Print Assumptions c12_findrfc_rainflow.

(* the minimum is determined by the maximum, and no minimum closes two cycles *)
Theorem c12_rainflow_min_unique : forall y nc i p q,
  RainflowMin y nc i p -> RainflowMin y nc i q -> p = q.
Proof. exact RainflowMin_unique. Qed.
Print Assumptions c12_rainflow_min_unique.

Theorem c12_rainflow_min_injective : forall y nc i i' p, (i < i' < nc)%nat ->
  RainflowMin y nc i p -> RainflowMin y nc i' p -> False.
Proof. exact RainflowMin_injective. Qed.
Print Assumptions c12_rainflow_min_injective.

(* the call a user makes: a leading maximum is dropped, the C library or method 2
   is used, the indices come back sorted; mem is the memory behind the array *)
Theorem c12_findrfc_user : forall mem tp h method y s, (2 <= List.length tp)%nat ->
  s = (if at_ tp 0 >? at_ tp 1 then 1 else 0)%nat -> y = skipn s tp ->
  (3 <= List.length y)%nat -> at_ y 0 <= at_ y 1 -> turns_at_start y -> rychlik_method method ->
  (mem <> [] \/ Nat.odd (List.length y) = true) ->
  exists l, findrfc mem tp h method = Ok l /\ increasing l /\
    forall idx, In idx l <-> (s <= idx)%nat /\
      InRainflow (y ++ mem) (List.length y / 2) h (idx - s).
Proof. exact findrfc_correct. Qed.
Print Assumptions c12_findrfc_user.

(* findtp(x, h) with h > 0 keeps exactly the turning points of the rainflow
   cycles of range at least h *)
Theorem c12_findtp_threshold : forall mem m method x h t, (2 <= List.length x)%nat -> 0 < h ->
  findtp0 m x false None = Ok (Some t) -> rychlik_method method ->
  (mem <> [] \/ Nat.odd (List.length t) = true) ->
  exists l, findtp mem m method x h None = Ok (Some (map (fun i => nth i t 0%nat) l)) /\
    increasing l /\ increasing (map (fun i => nth i t 0%nat) l) /\
    forall k, In k l <->
      (k < List.length t)%nat /\ InRainflow (map (at_ x) t ++ mem) (List.length t / 2) h k.
Proof. exact findtp_threshold. Qed.
Print Assumptions c12_findtp_threshold.

Example c12_case : findrfc2 [0; 5; 2; 3; 1; 6; 4; 7; -1] 2 = Ok [1; 4; 5; 6; 0; 7]%nat.
Proof. reflexivity. Qed.

Example c12_case_user :
  findrfc [] [9; 0; 5; 2; 3; 1; 6; 4; 7; -1] 2 None = Ok [1; 2; 5; 6; 7; 8]%nat /\
  findtp [] Numba None [9; 0; 3; 5; 2; 3; 1; 6; 4; 7; -1; -1] 2 None
    = Ok (Some [1; 3; 6; 7; 8; 9]%nat).
Proof. split; reflexivity. Qed.

(* ---- C13 ------------------------------------------------------------------- *)
(* refuted: every even-length sequence makes the routine read one word behind its
   input ... *)
Theorem c13_out_of_bounds_refuted : forall y h, (4 <= List.length y)%nat ->
  Nat.even (List.length y) = true -> at_ y 0 <= at_ y 1 -> turns_at_start y ->
  forall method, rychlik_method method -> findrfc [] y h method = Err MemoryError.
Proof. exact findrfc_even_oob. Qed.
Print Assumptions c13_out_of_bounds_refuted.

(* ... but the value found there never influences the result *)
Theorem c13_value_read_is_irrelevant : forall tp h method z z',
  (forall y, y = skipn (if at_ tp 0 >? at_ tp 1 then 1 else 0)%nat tp ->
     (3 <= List.length y)%nat /\ at_ y 0 <= at_ y 1 /\ turns_at_start y) ->
  rychlik_method method ->
  findrfc [z] tp h method = findrfc [z'] tp h method.
Proof. exact findrfc_junk. Qed.
Print Assumptions c13_value_read_is_irrelevant.

(* and no index outside the input is reported *)
Theorem c13_indices_inside : forall y nc h idx, InRainflow y nc h idx -> (idx < 2 * nc)%nat.
Proof. exact InRainflow_inside. Qed.
Print Assumptions c13_indices_inside.

(* finding: two turning points make findrfc raise IndexError *)
Theorem c13_two_points_refuted : forall tp h mem method, List.length tp = 2%nat ->
  at_ tp 0 < at_ tp 1 -> findrfc mem tp h method = Err IndexError.
Proof. exact findrfc_two. Qed.
Print Assumptions c13_two_points_refuted.

Example c13_case : findrfc [] [0; 5; 2; 8] 1 None = Err MemoryError /\
  findrfc [1000] [0; 5; 2; 8] 1 None = Ok [0; 1; 2; 3]%nat /\
  findrfc [-1000] [0; 5; 2; 8] 1 None = Ok [0; 1; 2; 3]%nat.
Proof. repeat split; reflexivity. Qed.

(* ---- C14 ------------------------------------------------------------------- *)
Theorem c14_c_equals_numba : forall mem y h, (3 <= List.length y)%nat ->
  at_ y 0 <= at_ y 1 -> turns_at_start y ->
  c_findrfc mem y h = let* l := findrfc2_mem mem y h in Ok (Some l).
Proof. exact c_equals_numba. Qed.
Print Assumptions c14_c_equals_numba.

(* called with a leading maximum, C skips it and reports shifted indices *)
Theorem c14_c_leading_maximum : forall mem a y h, (3 <= List.length y)%nat ->
  at_ y 0 < a -> turns_at_start y ->
  c_findrfc mem (a :: y) h = let* l := findrfc2_mem mem y h in Ok (Some (map S l)).
Proof. exact c_equals_numba_max. Qed.
Print Assumptions c14_c_leading_maximum.

Example c14_case : c_findrfc [] [9; 0; 5; 2; 3; 1; 6; 4; 7; -1] 2 = Ok (Some [2; 5; 6; 7; 1; 8]%nat)
  /\ findrfc2 [0; 5; 2; 3; 1; 6; 4; 7; -1] 2 = Ok [1; 4; 5; 6; 0; 7]%nat.
Proof. split; reflexivity. Qed.
