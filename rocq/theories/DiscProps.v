(* C136: automatic discretisation of a function *)
From Coq Require Import Reals List ZArith String.
From Verif Require Import Base DiscModel DiscSpec DiscProofs DiscProofs2 DiscProofs3 DiscCases.
Import ListNotations.
Local Open Scope R_scope.

(* linear method: the grid is halved until the error on the middles is small, has stalled five times or the grid is large; the result is that grid *)

Theorem c136_linear : forall f tiny a b tol n method, prefix "a" method = false -> a < b -> 0 < tiny -> 0 <= tol -> (2 <= n)%Z ->
  let m := Z.to_nat (n - 1) in
  exists K errs, discretize f tiny a b tol n method = Ok (grid a b (2 ^ K * m), map f (grid a b (2 ^ K * m))) /\ errs 0%nat = 10000 /\
   (forall k, (k < K)%nat -> middle_error f tiny tol a b (2 ^ k * m) (errs (S k)) /\ ~ linear_stop tol m errs k) /\ linear_stop tol m errs K.
Proof. exact (linear_method). Qed.
Print Assumptions c136_linear.

Example c136_linear_run_case : exists K errs, discretize Rinv (1/1000) (1/10) 1 (5/1000) 5 "linear" = Ok (grid (1/10) 1 (2 ^ K * 4), map Rinv (grid (1/10) 1 (2 ^ K * 4))) /\ linear_stop (5/1000) 4 errs K.
Proof. exact (linear_run_case). Qed.

(* a straight line needs one halving *)

Theorem c136_linear_affine : forall p q tiny a b tol n method, prefix "a" method = false -> a < b -> 0 < tiny -> 0 <= tol < 10000 -> (2 <= n < 2 ^ 20)%Z ->
  let x := grid a b (2 * Z.to_nat (n - 1)) in discretize (fun t => p + q * t) tiny a b tol n method = Ok (x, map (fun t => p + q * t) x).
Proof. exact (linear_affine). Qed.
Print Assumptions c136_linear_affine.

Example c136_linear_case : discretize (fun t => 1 + 2 * t) (1/1000) 0 1 (5/1000) 2 "linear" = Ok ([0; 1/2; 1], [1; 2; 3]).
Proof. exact (linear_case). Qed.

Theorem c136_linear_one : forall f tiny a b tol method, prefix "a" method = false -> 0 <= tol -> 0 < tiny -> discretize f tiny a b tol 1 method = Ok ([a], [f a]).
Proof. exact (linear_one). Qed.
Print Assumptions c136_linear_one.

Theorem c136_linear_none : forall f tiny a b tol n method, prefix "a" method = false -> tol < 10000 -> (n <= 0)%Z -> discretize f tiny a b tol n method = Err ValueError.
Proof. exact (linear_none). Qed.
Print Assumptions c136_linear_none.

(* adaptive method: every round halves the intervals at the marked points *)

Theorem c136_adaptive : forall f tiny a b tol n method, prefix "a" method = true -> a < b -> 0 < tiny -> 0 <= tol -> (2 <= n)%Z ->
  let m := (2 * Z.to_nat (n / 2))%nat in
  exists K X marks errs, discretize f tiny a b tol n method = Ok (X K, map f (X K)) /\ X 0%nat = grid a b m /\ errs 0%nat = 1 /\
   (tol < 1 -> forall t, marks 0%nat t <-> exists i, (i < m)%nat /\ Nat.odd i = true /\ t = a + INR i * ((b - a) / INR m)) /\
   (forall k, (k <= K)%nat -> increasing (X k)) /\
   (forall k, (k < K)%nat -> round f tiny tol (X k) (marks k) (X (S k)) (marks (S k)) (errs (S k)) /\ ~ adaptive_stop tol errs k) /\ adaptive_stop tol errs K.
Proof. exact (adaptive_method). Qed.
Print Assumptions c136_adaptive.

Example c136_round_case : round (fun t => t * t) 1 0 [0; 1; 2] (fun t => t = 1) [0; 1/2; 1; 3/2; 2] (fun t => t = 1/2 \/ t = 3/2) (1/14).
Proof. exact (round_case). Qed.

Theorem c136_adaptive_shape : forall f tiny a b tol n method, prefix "a" method = true -> a < b -> 0 < tiny -> 0 <= tol -> (2 <= n)%Z ->
  exists x, discretize f tiny a b tol n method = Ok (x, map f x) /\ increasing x /\ nth 0 x 0 = a /\ last x 0 = b /\ (forall t, In t x -> a <= t <= b) /\ incl (grid a b (2 * Z.to_nat (n / 2))) x.
Proof. exact (adaptive_shape). Qed.
Print Assumptions c136_adaptive_shape.

Example c136_adaptive_case : exists x, discretize Rinv (1/1000) (1/10) 1 (5/1000) 5 "adaptive" = Ok (x, map Rinv x) /\ increasing x /\ In (13/40) x /\ last x 0 = 1.
Proof. exact (adaptive_case). Qed.

Theorem c136_adaptive_none : forall f tiny a b tol n method, prefix "a" method = true -> (n <= 1)%Z -> discretize f tiny a b tol n method = Err ValueError.
Proof. exact (adaptive_none). Qed.
Print Assumptions c136_adaptive_none.

Example c136_adaptive_one_case : discretize Rinv (1/1000) (1/10) 1 (5/1000) 1 "adaptive" = Err ValueError.
Proof. exact (adaptive_one_case). Qed.
