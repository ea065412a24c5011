(* What is expected of bivariate normal probabilities with standard normal marginals *)
From Coq Require Import Reals List Bool.
From Coquelicot Require Import Coquelicot.
From Verif Require Import RvnModel GridSpec.
Import ListNotations.
Local Open Scope R_scope.

(* P(X <= x) = P(X <= x, Y <= y) + P(X <= x, -Y <= -y), and the same with X and Y exchanged; the correlation of X and -Y is -r *)
Definition marginals (F : R -> R -> R -> R) (r : R) : Prop :=
  forall x y, F x y r + F x (- y) (- r) = ndtr x /\ F x y r + F (- x) y (- r) = ndtr y.
(* a limit of an interval *)
Inductive bound := Minus_infinity | At (x : R) | Plus_infinity.
(* P(X <= x, Y <= y) *)
Definition below (F : R -> R -> R) (x y : bound) : R :=
  match x, y with
  | Minus_infinity, _ | _, Minus_infinity => 0
  | At x, At y => F x y
  | At x, Plus_infinity | Plus_infinity, At x => ndtr x
  | Plus_infinity, Plus_infinity => 1
  end.
(* P(a < X <= b, c < Y <= d) *)
Definition rectangle (F : R -> R -> R) (a b c d : bound) : R := below F b d - below F a d - below F b c + below F a c.
(* limits beyond 37 standard deviations count as infinite *)
Definition lower (a : R) : bound := if Rlt_dec a (- 37) then Minus_infinity else At a.
Definition upper (b : R) : bound := if Rlt_dec 37 b then Plus_infinity else At b.
Definition everything (a b : R) : Prop := a < - 37 /\ 37 < b.

(* a polynomial with the coefficients c, and its integral from -1 to 1 *)
Fixpoint poly (c : list R) (x : R) : R := match c with [] => 0 | a :: c => a + x * poly c x end.
Definition size (c : list R) : R := fold_right (fun a s => Rabs a + s) 0 c.
(* a quadrature on (-1, 1) by pairs of nodes -x, x is exact for polynomials with n coefficients, up to rounded nodes and weights *)
Definition exact_rule (eps : R) (n : nat) (X W : list R) : Prop :=
  forall c, (List.length c <= n)%nat -> Rabs (fold_right Rplus 0 (map (fun xw => snd xw * (poly c (- fst xw) + poly c (fst xw))) (combine X W)) - RInt (poly c) (-1) 1) <= eps * size c.

(* a distribution function of a continuous random variable *)
Record distribution_function (F : R -> R) : Prop := {
  increasing : forall x y, x < y -> F x < F y;
  continuous_ : forall x, continuous F x;
  between : forall x, 0 < F x < 1;
  left_end : forall e, 0 < e -> exists x, F x < e;
  right_end : forall e, 0 < e -> exists x, 1 - e < F x }.
(* the number in a result that is not nan *)
Definition value (o : option R) : R := match o with Some v => v | None => 0 end.
(* the integrand of the formula of Drezner and Wesolowsky: P(X <= x, Y <= y) = ndtr x ndtr y + 1 / (2 pi) * the integral of bend x y from 0 to asin r *)
Definition bend (x y theta : R) : R := exp (- ((x ^ 2 - 2 * x * y * sin theta + y ^ 2) / (2 * cos theta ^ 2))).
(* the density of the local maxima *)
Definition rice (alpha m0 x : R) : R :=
  let s := sqrt (1 - alpha ^ 2) in let y := x / sqrt m0 in (s * norm_pdf (y / s) + alpha * y * exp (- (y ^ 2 / 2)) * ndtr (alpha * y / s)) / sqrt m0.
(* the correlations for which the code uses the same rule for r and -r *)
Definition covered (r : R) : Prop := Rabs r < 3 / 10 \/ 925 / 1000 <= Rabs r <= 1.
(* the correlations treated by the series at 1 *)
Definition near_one (r : R) : Prop := 925 / 1000 <= Rabs r < 1.
