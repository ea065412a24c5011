(* What a user expects of a model spectrum, in terms of real analysis only. *)
From Coq Require Import Reals Lra.
From Coquelicot Require Import Coquelicot.
Local Open Scope R_scope.

(* f is integrable over [a, b] and its integral is l *)
Definition area (f : R -> R) (a b l : R) : Prop := @is_RInt R_NormedModule f a b l.
(* the energy in all frequencies: the limit of the energy below W *)
Definition total_energy (f : R -> R) (e : R) : Prop := (forall W, 0 < W -> exists l, area f 0 W l) /\ is_lim (fun W => RInt f 0 W) p_infty e.
(* f increases up to p and decreases from p on *)
Definition single_peak (f : R -> R) (p : R) : Prop :=
  (forall x y, 0 < x -> x < y -> y <= p -> f x < f y) /\ (forall x y, p <= x -> x < y -> f y < f x).
(* g is the logarithm of Euler's gamma function: the integral of t^(c-1) exp(-t) over all positive t is exp (g c) *)
Definition log_gamma (g : R -> R) : Prop :=
  forall c, 0 < c -> @is_RInt_gen R_NormedModule (fun t => Rpower t (c - 1) * exp (- t)) (at_right 0) (Rbar_locally p_infty) (exp (g c)).
(* quad returns the integral of every function it is given *)
Definition exact_quad (quad : (R -> R) -> R -> R -> R) : Prop := forall f a b l, area f a b l -> quad f a b = l.
(* w and k belong to a wave on water of depth h *)
Definition dispersion (g h w k : R) : Prop := w ^ 2 = g * k * tanh (k * h).
(* a bounded minimiser returns a point of the interval where a continuous function is smallest *)
Definition minimiser (fmin : (R -> R) -> R -> R -> R) : Prop :=
  forall f a b, a <= b -> (forall x, a <= x <= b -> continuity_pt f x) -> a <= fmin f a b <= b /\ forall x, a <= x <= b -> f (fmin f a b) <= f x.
