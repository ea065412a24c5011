(* The logarithm of the gamma function, by the theorem of Bohr and Mollerup. *)
From Coq Require Import Reals.
From Verif Require Import LgamModel.
Local Open Scope R_scope.

Definition log_gamma (lg : R -> R) : Prop :=
  lg 1 = 0 /\ (forall x, 0 < x -> lg (x + 1) = lg x + ln x) /\
  (forall x y l, 0 < x -> 0 < y -> 0 <= l <= 1 -> lg (l * x + (1 - l) * y) <= l * lg x + (1 - l) * lg y).
(* log(n!) - log(sqrt(2 pi n) (n / e)^n) *)
Definition stirling_error (lg : R -> R) (n : R) : R := lg (n + 1) - ln (sqrt (2 * PI * n) * Rpower (n / exp 1) n).
(* the logarithms of the beta function and of a binomial coefficient *)
Definition log_beta (lg : R -> R) (z w : R) : R := lg z + lg w - lg (z + w).
Definition log_binomial (lg : R -> R) (z w : R) : R := lg (z + 1) - lg (w + 1) - lg (z - w + 1).
(* v is the number x up to an error of eps *)
Definition near (eps x : R) (v : ext) : Prop := match v with Fin y => Rabs (y - x) <= eps | _ => False end.
