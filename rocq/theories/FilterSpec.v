(* What the Hodrick-Prescott and Hampel filters are supposed to do *)
From Coq Require Import Reals Permutation Sorted.
From Verif Require Import Base SplineSpec.
Local Open Scope R_scope.

Definition total (n : nat) (f : nat -> R) : R := fold_right Rplus 0 (map f (seq 0 n)).
(* sum of squared deviations from the data plus w times the sum of squared second differences *)
Definition hp_objective (w : R) (x s : list R) : R :=
  total (List.length x) (fun i => (nth i x 0 - nth i s 0) ^ 2) +
  w * total (List.length x - 2) (fun i => (nth i s 0 - 2 * nth (i + 1) s 0 + nth (i + 2) s 0) ^ 2).
(* a solver that solves every system with exactly one solution *)
Definition solver (spsolve : nat -> (nat -> nat -> R) -> (nat -> R) -> nat -> R) : Prop :=
  forall n A b, (exists s, solves n A b s /\ forall t, solves n A b t -> forall i, (i < n)%nat -> t i = s i) -> solves n A b (spsolve n A b).

(* m is the median of the values l: the middle one, or the mean of the two middle ones, in sorted order *)
Definition is_median (l : list R) (m : R) : Prop :=
  exists s, Permutation l s /\ StronglySorted Rle s /\ m = (nth ((List.length l - 1) / 2) s 0 + nth (List.length l / 2) s 0) / 2.
(* the indices of the samples within dx of sample i, and the values there *)
Definition neighbours (x : list R) (dx : R) (i : nat) (js : list nat) : Prop :=
  NoDup js /\ forall j, In j js <-> (j < List.length x)%nat /\ Rabs (nth j x 0 - nth i x 0) <= dx.
Definition values (y : list R) (js : list nat) : list R := map (fun j => nth j y 0) js.
