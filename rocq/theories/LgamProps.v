(* Theorems about stirlerr, betaloge and binomln (C146). *)
From Coq Require Import Reals List.
From Verif Require Import LgamModel LgamSpec LgamProofs LgamProofs2 LgamProofs3 LgamProofs4 LgamCases.
Import ListNotations.
Local Open Scope R_scope.

(* The error of Stirling's formula, to 2.5e-16 for every positive number. *)

Theorem c146_stirlerr : forall lg n, log_gamma lg -> 0 < n -> near (25 / 10 ^ 17) (stirling_error lg n) (stirlerr lg n) /\ (n <= 15 -> stirlerr lg n = Fin (stirling_error lg n)).
Proof. exact (stirlerr_close). Qed.
Print Assumptions c146_stirlerr.

Theorem c146_stirlerr_other : forall lg n, (n < 0 -> stirlerr lg n = NaN) /\ (n = 0 -> stirlerr lg n = PInf).
Proof. exact (stirlerr_other). Qed.
Print Assumptions c146_stirlerr_other.

(* The logarithm of the beta function, to 1e-15. *)

Theorem c146_betaloge : forall lg huge z w, log_gamma lg -> 0 < z -> 0 < w -> z < huge -> w < huge -> near (1 / 10 ^ 15) (log_beta lg z w) (betaloge lg huge z w).
Proof. exact (betaloge_near). Qed.
Print Assumptions c146_betaloge.

Theorem c146_symmetric : forall lg huge z w, betaloge lg huge z w = betaloge lg huge w z.
Proof. exact (betaloge_sym). Qed.
Print Assumptions c146_symmetric.

Theorem c146_betaloge_other : forall lg huge z w, (Rmin z w = 0 -> betaloge lg huge z w = PInf) /\ (Rmin z w < 0 -> betaloge lg huge z w = NaN) /\ (0 < Rmin z w -> huge <= Rmax z w -> betaloge lg huge z w = NInf).
Proof. exact (betaloge_other). Qed.
Print Assumptions c146_betaloge_other.

(* The logarithm of a binomial coefficient, to 1e-15; it is -inf where the coefficient is zero. *)

Theorem c146_binomln : forall lg huge z w, log_gamma lg -> 0 <= w <= z -> z + 1 < huge -> near (1 / 10 ^ 15) (log_binomial lg z w) (binomln lg huge z w).
Proof. exact (binomln_near). Qed.
Print Assumptions c146_binomln.

Theorem c146_whole_numbers : forall lg huge n k, log_gamma lg -> (k <= n)%nat -> INR n + 1 < huge -> near (1 / 10 ^ 15) (ln (Binomial.C n k)) (binomln lg huge (INR n) (INR k)).
Proof. exact (binomln_whole). Qed.
Print Assumptions c146_whole_numbers.

Theorem c146_zero : forall lg huge z w, (z < w \/ (w < 0 /\ 2 <= z - w)) -> binomln lg huge z w = NInf.
Proof. exact (binomln_below). Qed.
Print Assumptions c146_zero.

(* There is such a logarithm of the gamma function. *)

Theorem c146_log_gamma_exists : exists lg, log_gamma lg.
Proof. exact (gamma_exists). Qed.
Print Assumptions c146_log_gamma_exists.

Example c146_case : exists lg, log_gamma lg /\ 0 < 20 /\ near (1 / 10 ^ 15) (ln (Binomial.C 40 20)) (binomln lg (10 ^ 300) (INR 40) (INR 20)).
Proof. exact (stirling_case). Qed.
