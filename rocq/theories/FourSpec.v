(* Trigonometric sums. *)
From Coq Require Import Reals List.
Import ListNotations.
Local Open Scope R_scope.

Fixpoint sum (n : nat) (f : nat -> R) : R := match n with O => 0 | S k => sum k f + f k end.
(* the documented series: c 0 / 2 + sum over k = 1, ..., K of c k cos (2 pi k t / T) + s k sin (2 pi k t / T) *)
Definition series (c s : nat -> R) (K : nat) (T t : R) : R :=
  c 0%nat / 2 + sum K (fun k => c (S k) * cos (2 * PI * INR (S k) * t / T) + s (S k) * sin (2 * PI * INR (S k) * t / T)).
(* N + 1 equally spaced times over q periods *)
Definition sampled (t0 T : R) (q N : nat) : list R := map (fun j => t0 + INR j * (INR q * T / INR N)) (seq 0 (N + 1)).
(* the entry of row r in the i-th row of coefficients *)
Definition entry (a : list (list (option R))) (r i : nat) : R := match nth r (nth i a []) None with Some v => v | None => 0 end.
