(* Theorems about the damage of cycles (C161). *)
From Coq Require Import Reals List Arith ZArith Permutation.
From Verif Require Import Base CrossSpec AstmSpec CyclesModel DamModel DamSpec DamProofs DamProofs2.
Import ListNotations.
Local Open Scope R_scope.

(* damage. *)

Theorem c161_entries : forall cp beta K, List.length (damage cp beta K) = List.length beta.
Proof. exact (damage_entries). Qed.
Print Assumptions c161_entries.

Theorem c161_one_cycle : forall m M beta K, m <> M -> damage [(m, M)] beta K = map (fun b => K * Rpower (Rabs (M - m) / 2) b) beta.
Proof. exact (damage_one). Qed.
Print Assumptions c161_one_cycle.

Theorem c161_no_range : forall m beta K, (forall b, In b beta -> 0 < b) -> damage [(m, m)] beta K = map (fun _ => 0) beta.
Proof. exact (damage_flat). Qed.
Print Assumptions c161_no_range.

Theorem c161_no_cycles : forall beta K, damage [] beta K = map (fun _ => 0) beta.
Proof. exact (damage_none). Qed.
Print Assumptions c161_no_cycles.

Theorem c161_sum : forall c1 c2 beta K, added (damage c1 beta K) (damage c2 beta K) (damage (c1 ++ c2) beta K).
Proof. exact (damage_sum). Qed.
Print Assumptions c161_sum.

Theorem c161_order_of_cycles : forall c1 c2 beta K, Permutation c1 c2 -> damage c1 beta K = damage c2 beta K.
Proof. exact (damage_perm). Qed.
Print Assumptions c161_order_of_cycles.

Theorem c161_whole_powers : forall cp n K, damage cp [INR n] K = [K * fold_right Rplus 0 (map (fun c => (range c / 2) ^ n) cp)].
Proof. exact (damage_pow). Qed.
Print Assumptions c161_whole_powers.

Theorem c161_turned : forall cp beta K, damage (map turned cp) beta K = damage cp beta K.
Proof. exact (damage_turned). Qed.
Print Assumptions c161_turned.

Theorem c161_moved : forall s cp beta K, damage (map (moved s) cp) beta K = damage cp beta K.
Proof. exact (damage_moved). Qed.
Print Assumptions c161_moved.

Theorem c161_enlarged : forall f cp beta K i, f <> 0 -> (i < List.length beta)%nat ->
  nth i (damage (map (enlarged f) cp) beta K) 0 = Rpower (Rabs f) (nth i beta 0) * nth i (damage cp beta K) 0.
Proof. exact (damage_enlarged). Qed.
Print Assumptions c161_enlarged.

Theorem c161_larger : forall c1 c2 beta K i, Forall2 (fun a b => range a <= range b) c1 c2 -> 0 <= K -> 0 < nth i beta 0 -> (i < List.length beta)%nat ->
  0 <= nth i (damage c1 beta K) 0 <= nth i (damage c2 beta K) 0.
Proof. exact (damage_order). Qed.
Print Assumptions c161_larger.

Example c161_case : damage [(0, 2); (5, 1)] [1; 2] 3 = [9; 15].
Proof. exact (damage_case). Qed.

(* Cycles between turning points. *)

Theorem c161_pairs : forall mem data up method beta K, (2 <= List.length data)%nat -> zigzag up data ->
  exists p q, cycle_pairs mem data 0 true method = Ok p /\ cycle_pairs mem data 0 false method = Ok q /\
    added (damage (cycles_of p) beta K) (damage (cycles_of q) beta K) (damage (steps data) beta K).
Proof. exact (damage_pairs). Qed.
Print Assumptions c161_pairs.

Example c161_pairs_case : zigzag true [0; 2; 1; 5]%Z /\ cycle_pairs [] [0; 2; 1; 5]%Z 0 true None = Ok ([2; 5], [0; 1])%Z /\
  cycles_of ([2; 5], [0; 1])%Z = [(0, 2); (1, 5)].
Proof. exact (damage_pairs_case). Qed.

(* get_minima_and_maxima. *)

Theorem c161_rising : forall cp, cp <> [] -> (forall c, In c cp -> (fst c <= snd c)%Z) -> minima_and_maxima cp = map low_high cp.
Proof. exact (ends_up). Qed.
Print Assumptions c161_rising.

Theorem c161_falling : forall cp, (forall c, In c cp -> (snd c < fst c)%Z) -> minima_and_maxima cp = map low_high cp.
Proof. exact (ends_down). Qed.
Print Assumptions c161_falling.

Theorem c161_mixed : forall cp, (exists c, In c cp /\ (fst c <= snd c)%Z) -> minima_and_maxima cp = map low_high (filter (fun c => (fst c <=? snd c)%Z) cp).
Proof. exact (ends_mixed). Qed.
Print Assumptions c161_mixed.

Theorem c161_ends_refuted : ~ (forall cp, minima_and_maxima cp = map low_high cp).
Proof. exact (ends_lost). Qed.
Print Assumptions c161_ends_refuted.
