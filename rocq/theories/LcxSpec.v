(* Level crossing spectra. *)
From Coq Require Import Reals List ZArith String.
From Verif Require Import ProcModel LcxModel.
Import ListNotations.
Local Open Scope R_scope.

(* the crossing spectrum of a normal process with mean m, standard deviation s and c crossings of the mean *)
Definition rice (c m s u : R) : R := c * exp (- ((u - m) / s) ^ 2 / 2).
Fixpoint total (l : list R) : R := match l with [] => 0 | a :: l => a + total l end.
Definition residual (x y : list R) (q : R * R) : R := total (map (fun p => (snd p - (fst q * fst p + snd q)) ^ 2) (combine x y)).
(* no line is closer to the points *)
Definition least_squares (polyfit : list R -> list R -> R * R) : Prop := forall x y q, x <> [] -> residual x y (polyfit x y) <= residual x y q.
Definition increasingR (l : list R) : Prop := forall i j, (i < j < List.length l)%nat -> nth i l 0 < nth j l 0.
(* the number of entries that are at least v *)
Definition count_from (v : R) (l : list R) : nat := List.length (filter (fun a => if Rle_dec v a then true else false) l).
(* the largest of the counts at the places k, k + 1, ... *)
Definition LargestFrom (f : list R) (k : nat) (m : R) : Prop := (exists j, (k <= j < List.length f)%nat /\ nth j f 0 = m) /\ forall j, (k <= j < List.length f)%nat -> nth j f 0 <= m.
(* x is the sample of exceedances behind the counts lcf of the levels lcx: of its values, as many are at least v - u, for a level v above u, as
   the integer part of the largest count of a level from v on *)
Definition exceedances (lcx lcf : list R) (u : R) (x : list R) : Prop :=
  (forall v, In v x -> 0 < v) /\
  forall k m, (k < List.length lcx)%nat -> u < nth k lcx 0 -> LargestFrom lcf k m -> count_from (nth k lcx 0 - u) x = Z.to_nat (floor m).
(* the spectrum seen upside down *)
Definition mirror (l : list R) : list R := map Ropp (rev l).
(* the names of the distributions of a tail: generalised Pareto, exponential, Rayleigh, truncated Rayleigh *)
Definition known (dist : string) : Prop := starts dist "gen" = true \/ starts dist "exp" = true \/ starts dist "ray" = true \/ starts dist "trun" = true.
(* -10.5, -9.5, ..., 10.5: the mean 0 is half way between two levels *)
Definition half_levels : list R := map (fun k => INR k - 21 / 2) (seq 0 22).
