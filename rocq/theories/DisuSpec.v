(* The second order terms of a Stokes wave, as sums over frequencies. *)
From Coq Require Import Reals List Arith.
From Coquelicot Require Import Complex.
From Verif Require Import DisuModel.
Import ListNotations.

(* sum of f over the numbers a, a+1, ..., b-1 *)
Definition sum_from_to (a b : nat) (f : nat -> C) : C := fold_right (fun i s => Cplus (f i) s) (RtoC 0) (seq a (b - a)).
Definition only_if (b : bool) (z : C) : C := if b then z else RtoC 0.

(* frequency number k of the second order wave made of the amplitudes A at the frequencies lo, ..., hi - 1: ix and jy meet at the frequencies
   ix + jy and jy - ix *)
Definition second_order (A : nat -> C) (Ep Ed : nat -> nat -> R) (lo hi k : nat) : C :=
  sum_from_to lo hi (fun ix =>
    (only_if (2 * ix =? k)%nat (RtoC (2 * Ep ix ix)%R * (A ix * A ix)) + only_if (0 =? k)%nat (RtoC (2 * Ed ix ix)%R * (Cconj (A ix) * A ix)) +
     sum_from_to (ix + 1) hi (fun jy =>
       only_if (ix + jy =? k)%nat (RtoC (4 * Ep ix jy)%R * (A ix * A jy)) + only_if (jy - ix =? k)%nat (RtoC (4 * Ed ix jy)%R * (Cconj (A ix) * A jy))))%C).

(* the amplitudes of case number i of m: rA and iA hold the cases of each frequency side by side *)
Definition case_of (rA iA : list R) (m i k : nat) : C := (nth (k * m + i) rA 0%R, nth (k * m + i) iA 0%R).
(* what is used for the quadratic transfer functions *)
Definition plus_part (w kw : list R) (h g : R) (i j : nat) : R :=
  if Rlt_dec 10000 h then (if (i =? j)%nat then nth i kw 0 else (nth i kw 0 + nth j kw 0) / 2)%R
  else if (i =? j)%nat then finite_Ep1 (nth i w 0%R) (nth i kw 0%R) h g else finite_Ep2 (nth i w 0%R) (nth i kw 0%R) (nth j w 0%R) (nth j kw 0%R) h g.
Definition minus_part (w kw : list R) (h g : R) (i j : nat) : R :=
  if Rlt_dec 10000 h then ((nth i kw 0 - nth j kw 0) / 2)%R
  else if (i =? j)%nat then finite_Ed1 (nth i w 0%R) (nth i kw 0%R) h g else finite_Ed2 (nth i w 0%R) (nth i kw 0%R) (nth j w 0%R) (nth j kw 0%R) h g.
(* the numbers of case i of m, one for each frequency *)
Definition one_case (l : list R) (m n i : nat) : list R := map (fun k => nth (k * m + i) l 0%R) (seq 0 n).

(* the quadratic transfer function of two waves of frequencies w1, w2 and wave numbers k1, k2 in water of depth h (Langley 1987); a wave taken
   with its conjugate has -w2 and -k2 *)
Definition quadratic (w1 k1 w2 k2 h g : R) : R :=
  (let a := g * k1 * k2 / (w1 * w2) in
   let b := (w1 ^ 2 + w2 ^ 2 + w1 * w2) / (2 * g) in
   (a - b + g / 2 * (w1 * k2 ^ 2 + w2 * k1 ^ 2) / (w1 * w2 * (w1 + w2))) / (1 - g * (k1 + k2) / (w1 + w2) ^ 2 * tanh ((k1 + k2) * h)) - a / 2 + b)%R.
(* the speed of a group of waves *)
Definition group_speed (w k h g : R) : R := (g / (2 * w) * (tanh (k * h) + k * h / cosh (k * h) ^ 2))%R.
(* the change of the mean level by one wave; the last term is left out where it is too small to be computed *)
Definition mean_level (w k h g : R) : R :=
  (let c := group_speed w k h g in
   (g * k ^ 2 / (2 * w ^ 2) - w ^ 2 / (2 * g) + g * k / (w * c)) / (1 - g * h / c ^ 2) - (if Rlt_dec (k * h) 300 then k / sinh (2 * k * h) else 0))%R.
