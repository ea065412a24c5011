(* C137: good bins; C138: the histogram polygon *)
From Coq Require Import Reals List ZArith.
From Verif Require Import Base KdeModel ProcModel HistModel HistSpec HistProofs HistProofs2 HistProofs3 HistCases.
Import ListNotations.
Local Open Scope R_scope.

(* C137: the step is the largest of ..., 1, 2, 5, 10, ... that is at most twice the range over the number of bins; the limits are multiples of it, cover the range with the asked for margin and no more *)

Theorem c137_good_bins : forall mn mx k odd loose, mn < mx -> (0 < k)%Z -> let w := 2 * (mx - mn) / IZR k in let g := one_if loose + one_if odd / 2 in
  exists s lo K z, good_bins None (Some (mn, mx)) (Some k) odd loose = Ok (ladder lo s K) /\
   nice s /\ s <= w < 5 / 2 * s /\ (forall t, nice t -> t <= w -> t <= s) /\ lo = (IZR z - one_if odd / 2) * s /\
   lo + g * s <= mn < lo + (g + 1) * s /\ lo + (INR K - g - 1) * s < mx <= lo + (INR K - g) * s.
Proof. exact (bins_good). Qed.
Print Assumptions c137_good_bins.

Example c137_bins_case : good_bins None (Some (0, 5)) (Some 6%Z) false true = Ok [-1; 0; 1; 2; 3; 4; 5; 6].
Proof. exact (bins_case). Qed.

Example c137_odd_case : good_bins None (Some (0, 5)) (Some 6%Z) true false = Ok [-1/2; 1/2; 3/2; 5/2; 7/2; 9/2; 11/2].
Proof. exact (bins_odd_case). Qed.

Theorem c137_number : forall mn mx k odd loose L, mn < mx -> (0 < k)%Z -> good_bins None (Some (mn, mx)) (Some k) odd loose = Ok L ->
  let g := 2 * one_if loose + one_if odd in let K := INR (List.length L) - 1 in IZR k / 2 + g <= K < 5 / 4 * IZR k + 2 + g.
Proof. exact (bins_number). Qed.
Print Assumptions c137_number.

Theorem c137_data : forall x range k odd loose, good_bins (Some x) range k odd loose =
  match range, x with None, [] => Err ValueError | _, _ => good_bins None (Some (match range with Some r => r | None => (minR x, maxR x) end)) (Some (match k with Some k => k | None => ceil (4 * sqrt (sqrt (INR (List.length x)))) end)) odd loose end.
Proof. exact (bins_data). Qed.
Print Assumptions c137_data.

Theorem c137_cover : forall x k odd loose, (exists a b, In a x /\ In b x /\ a < b) -> match k with Some k => (0 < k)%Z | None => True end ->
  exists s lo K, good_bins (Some x) None k odd loose = Ok (ladder lo s K) /\ nice s /\ forall v, In v x -> lo <= v <= lo + INR K * s.
Proof. exact (bins_cover). Qed.
Print Assumptions c137_cover.

Theorem c137_errors : forall k r odd loose, good_bins None None k odd loose = Err AttributeError /\ good_bins None (Some r) None odd loose = Err TypeError /\ good_bins (Some []) None k odd loose = Err ValueError /\ good_bins None (Some r) (Some 0%Z) odd loose = Err ZeroDivision.
Proof. exact (bins_errors). Qed.
Print Assumptions c137_errors.

(* the data are all equal: no bins *)

Theorem c137_constant_refuted : forall x c k odd loose, x <> [] -> (forall v, In v x -> v = c) -> (k <> Some 0)%Z -> good_bins (Some x) None k odd loose = Err ValueError.
Proof. exact (bins_constant). Qed.
Print Assumptions c137_constant_refuted.

Example c137_constant_case : good_bins (Some [3; 3]) None None false true = Err ValueError.
Proof. exact (constant_case). Qed.

(* C138: every bar is the number (or weight) of the observations in its interval *)

Theorem c138_counts : forall x b range w xx yy e b', histogram x b range false w = Ok (xx, yy, e, b') -> (2 <= List.length e)%nat -> let W := match w with Some w => w | None => repeat 1 (List.length x) end in
  exists h, polygon e h xx yy /\ (forall i, (i < List.length h)%nat -> weight_of (in_bin e i) x W (nth i h 0)) /\ ascending e /\ weight_of (fun v => nth 0 e 0 <= v <= last e 0) x W (total h).
Proof. exact (histogram_counts). Qed.
Print Assumptions c138_counts.

Example c138_case : histogram [1; 2; 2; 7; 20] (Sequence [0; 5; 11]) None false None = Ok ([0; 0; 5; 5; 5; 11; 11], [Some 0; Some 3; Some 3; Some 0; Some 1; Some 1; Some 0], [0; 5; 11], Sequence [0; 5; 11]).
Proof. exact (histogram_case). Qed.

Example c138_bin_case : weight_of (in_bin [0; 5; 11] 1) [1; 2; 2; 7; 20] [1; 1; 1; 1; 1] 1.
Proof. exact (bin_case). Qed.

Theorem c138_density : forall x b range w xx yy e b' s, histogram x b range true w = Ok (xx, yy, e, b') -> strictly e -> (2 <= List.length e)%nat ->
  weight_of (fun v => nth 0 e 0 <= v <= last e 0) x (match w with Some w => w | None => repeat 1 (List.length x) end) s -> s <> 0 ->
  exists h y, polygon e h xx yy /\ yy = map Some y /\ area xx y = 1 /\
   forall i, (i < List.length h)%nat -> weight_of (in_bin e i) x (match w with Some w => w | None => repeat 1 (List.length x) end) (nth i h 0 * (nth (i + 1) e 0 - nth i e 0) * s).
Proof. exact (histogram_density). Qed.
Print Assumptions c138_density.

Example c138_density_case : exists xx yy e y, histogram [1; 2; 2; 7; 20] (Sequence [0; 5; 11]) None true None = Ok (xx, map Some yy, e, Sequence [0; 5; 11]) /\ y = yy /\ area xx y = 1.
Proof. exact (density_case). Qed.

Theorem c138_default : forall x, x <> [] -> exists xx yy e, histogram x Default None false None = Ok (xx, yy, e, Default) /\ strictly e /\ Z.of_nat (List.length e) = (ceil (4 * sqrt (sqrt (INR (List.length x)))) + 1)%Z /\ (4 <= ceil (4 * sqrt (sqrt (INR (List.length x)))))%Z /\
  (forall v, In v x -> nth 0 e 0 <= v <= last e 0) /\ exists h, polygon e h xx yy /\ total h = INR (List.length x).
Proof. exact (histogram_default). Qed.
Print Assumptions c138_default.

Theorem c138_errors : forall x range d, (forall n, (n < 1)%Z -> histogram x (Number n) range d None = Err ValueError) /\ (forall e, ~ ascending e -> histogram x (Sequence e) range d None = Err ValueError) /\
  (forall b w, List.length w <> List.length x -> histogram x b range d (Some w) = Err ValueError) /\ (forall n a b, (1 <= n)%Z -> b < a -> histogram x (Number n) (Some (a, b)) d None = Err ValueError).
Proof. exact (histogram_errors). Qed.
Print Assumptions c138_errors.

(* an array of edges of the caller becomes a column, which the next call refuses *)

Theorem c138_caller_refuted : forall x e range d w, ascending e -> match w with Some w => List.length w = List.length x | None => True end ->
  exists xx yy, histogram x (Array e) range d w = Ok (xx, yy, e, Column e) /\ histogram x (Column e) range d w = Err ValueError /\ histogram x (Sequence e) range d w = Ok (xx, yy, e, Sequence e).
Proof. exact (histogram_caller). Qed.
Print Assumptions c138_caller_refuted.

Example c138_caller_case : exists xx yy, histogram [1; 2] (Array [0; 5]) None false None = Ok (xx, yy, [0; 5], Column [0; 5]) /\ histogram [1; 2] (Column [0; 5]) None false None = Err ValueError.
Proof. exact (caller_case). Qed.
