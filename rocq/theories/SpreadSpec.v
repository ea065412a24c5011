(* What a user expects of the spreading functions *)
From Coq Require Import Reals List.
From Coquelicot Require Import Coquelicot.
From Verif Require Import Base SeaSpec SpreadModel.
Import ListNotations.
Local Open Scope R_scope.

(* y is the angle x taken to the interval from -pi to pi *)
Definition same_angle (x y : R) : Prop := - PI <= y < PI /\ exists k, y = x + 2 * PI * IZR k.
(* column i of the matrix holds the values of f at the angles *)
Definition column_of (D : list (list R)) (theta : list R) (i : nat) (f : R -> R) : Prop :=
  List.length D = List.length theta /\ forall j, (j < List.length theta)%nat -> nth i (nth j D []) 0 = f (nth j theta 0).
(* a density on the circle with main direction m *)
Definition circular_density (f : R -> R) (m : R) : Prop :=
  (forall a, area f a (a + 2 * PI) 1) /\ (forall t, 0 <= f t <= f m) /\ (forall t, f (t + 2 * PI) = f t) /\ (forall t, f (m + t) = f (m - t)).
(* its first Fourier coefficient *)
Definition first_coefficient (f : R -> R) (m r : R) : Prop := forall a, area (fun t => f t * cos (t - m)) a (a + 2 * PI) r.
(* ive n x is exp(-x) times the modified Bessel function of order n, by its integral *)
Definition bessel (ive : nat -> R -> R) : Prop := forall n x, area (fun t => exp (x * (cos t - 1)) * cos (INR n * t)) (- PI) PI (2 * PI * ive n x).
(* the series of the wrapped normal distribution with the terms below order N *)
Fixpoint wrapped_normal (N : nat) (sigma t : R) : R :=
  match N with
  | O => 0
  | S O => 1 / (2 * PI)
  | S n => wrapped_normal n sigma t + exp (- (INR n ^ 2 * sigma ^ 2 / 2)) * cos (INR n * t) / PI
  end.
(* the main direction of column i *)
Definition direction_at (theta0 : direction) (i : nat) (wn : R) : R :=
  match theta0 with Callable f => f wn | Array [t] => t | Array l => nth i l 0 end.
(* s is the spread parameter of the frequency wn *)
Definition spread_at (method : pyval) (p : spread_law) (wn s : R) : Prop :=
  0 <= s /\ ((set_method method = Ok FreqIndependent /\ s = s_a p) \/ (set_method method = Ok Mitsuyasu /\ s = mitsuyasu p wn)).
(* the root finders solve their equations for the coefficient r *)
Definition solved (ive : nat -> R -> R) (solveA solveK solveB : R -> R) (k : kind) (r : R) : Prop :=
  match k with
  | Box => 0 < solveA r <= PI /\ sin (solveA r) = r * solveA r
  | Mises => 0 <= solveK r /\ ive 1%nat (solveK r) = r * ive 0%nat (solveK r)
  | Sech2 => solveB r <> 0
  | _ => True
  end.
