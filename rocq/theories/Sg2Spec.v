(* What smoothing a surface promises: the Moore-Penrose inverse and polynomial surfaces. *)
From Coq Require Import Reals List.
From Verif Require Import Base ArSpec.
Import ListNotations.
Local Open Scope R_scope.

(* P is the Moore-Penrose inverse of the p x q matrix A: APA = A, PAP = P, AP and PA are symmetric *)
Definition times (n : nat) (A B : nat -> nat -> R) : nat -> nat -> R := fun i j => sum_to n (fun k => A i k * B k j).
Definition moore_penrose (p q : nat) (A P : nat -> nat -> R) : Prop :=
  (forall r l, (r < p)%nat -> (l < q)%nat -> times p (times q A P) A r l = A r l) /\
  (forall l r, (l < q)%nat -> (r < p)%nat -> times q (times p P A) P l r = P l r) /\
  (forall r s, (r < p)%nat -> (s < p)%nat -> times q A P r s = times q A P s r) /\
  (forall l m, (l < q)%nat -> (m < q)%nat -> times p P A l m = times p P A m l).
(* the surface c_0 + c_1 x + c_2 y + c_3 x^2 + c_4 x y + c_5 y^2 + ... up to the given degree: the terms of degree k are x^k, x^(k-1) y, ..., y^k *)
Fixpoint surface (degree : nat) (c : nat -> nat -> R) (x y : R) : R :=
  (match degree with O => 0 | S d => surface d c x y end) + sum_to (degree + 1) (fun n => c (degree - n)%nat n * x ^ (degree - n) * y ^ n).
(* the pixels in the window of half width s around (i, j) are those of a surface *)
Definition looks_like (px : nat -> nat -> R) (i j s degree : nat) (c : nat -> nat -> R) : Prop :=
  forall a b, (a <= 2 * s)%nat -> (b <= 2 * s)%nat -> px (i + a - s)%nat (j + b - s)%nat = surface degree c (INR a - INR s) (INR b - INR s).
(* the whole window around (i, j) lies in the image *)
Definition inside (rows cols s i j : nat) : Prop := (s <= i)%nat /\ (i + s < rows)%nat /\ (s <= j)%nat /\ (j + s < cols)%nat.
(* rates of change of the surface at the centre of the window *)
Definition row_rate (degree : nat) (c : nat -> nat -> R) (g : R) : Prop := derivable_pt_lim (fun x => surface degree c x 0) 0 g.
Definition column_rate (degree : nat) (c : nat -> nat -> R) (g : R) : Prop := derivable_pt_lim (fun y => surface degree c 0 y) 0 g.
(* all pixels of an image are those of a plane *)
Definition plane (px : nat -> nat -> R) (a b c : R) : Prop := forall i j, px i j = a + b * INR i + c * INR j.
(* a routine that returns the Moore-Penrose inverse of every matrix *)
Definition is_inverse (pinv : nat -> nat -> (nat -> nat -> R) -> nat -> nat -> R) : Prop := forall p q A, moore_penrose p q A (pinv p q A).
