(* What the geometry helpers are supposed to do *)
From Coq Require Import Reals Lra.
From Verif Require Import Base GeomModel.
Local Open Scope R_scope.

(* entry (i, j) of a 3 x 3 matrix given as a flat list *)
Definition m3 (m : list R) (i j : nat) : R := nth (3 * i + j) m 0.
Definition sum3 (f : nat -> R) : R := f 0%nat + f 1%nat + f 2%nat.
Definition orthogonal3 (m : list R) : Prop :=
  forall i j, (i < 3)%nat -> (j < 3)%nat ->
    sum3 (fun k => m3 m i k * m3 m j k) = (if Nat.eqb i j then 1 else 0) /\
    sum3 (fun k => m3 m k i * m3 m k j) = (if Nat.eqb i j then 1 else 0).
Definition det3 (m : list R) : R :=
  m3 m 0 0 * (m3 m 1 1 * m3 m 2 2 - m3 m 1 2 * m3 m 2 1)
  - m3 m 0 1 * (m3 m 1 0 * m3 m 2 2 - m3 m 1 2 * m3 m 2 0)
  + m3 m 0 2 * (m3 m 1 0 * m3 m 2 1 - m3 m 1 1 * m3 m 2 0).
Definition rad (deg : R) : R := deg * PI / 180.
(* elementary rotations about the z (heading), y (pitch) and x (roll) axes *)
Definition about_z (v : R * R * R) (a : R) := let '(x, y, z) := v in (cos a * x - sin a * y, sin a * x + cos a * y, z).
Definition about_y (v : R * R * R) (a : R) := let '(x, y, z) := v in (cos a * x + sin a * z, y, - sin a * x + cos a * z).
Definition about_x (v : R * R * R) (a : R) := let '(x, y, z) := v in (x, cos a * y - sin a * z, sin a * y + cos a * z).
Definition dot (u v : R * R * R) : R := let '(a, b, c) := u in let '(x, y, z) := v in a * x + b * y + c * z.
(* the library's frexp: x = f * 2^n with 1/2 <= f < 1, and (0, 0) for 0 *)
Definition is_frexp (frexp : R -> R * Z) : Prop :=
  forall x, 0 <= x ->
    (x = 0 /\ frexp x = (0, 0%Z)) \/
    (0 < x /\ x = fst (frexp x) * powerRZ 2 (snd (frexp x)) /\ 1 / 2 <= fst (frexp x) < 1).
Definition sqdist (p q : list R) : R := fold_right Rplus 0 (pmap2 (fun a b => (a - b) * (a - b)) p q).
(* mean of x_a, ..., x_(b-1) *)
Definition window_mean (x : list R) (a b : nat) : R := mean (skipn a (firstn b x)).
