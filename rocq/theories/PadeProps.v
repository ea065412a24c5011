(* Theorems about rational approximations (C157). *)
From Coq Require Import Reals List Arith ZArith.
From Verif Require Import Base PolyModel PolySpec ArSpec Sg2Spec PadeModel PadeSpec PadeProofs PadeProofs2 PadeProofs3 PadeCases.
Import ListNotations.
Local Open Scope R_scope.

(* From the coefficients of a series. *)

Example c157_solver_case : exists solve, solves solve.
Proof. exact (solver_exists). Qed.

Theorem c157_agrees : forall solve poly1d c m num den, solves solve -> padefit solve poly1d c m = Ok (num, den) ->
  (List.length num + List.length den = List.length c + 1)%nat /\ peval den 0 = 1 /\ agrees (List.length c) c num den /\
  forall num' den', (List.length num' <= List.length num)%nat -> (List.length den' <= List.length den)%nat -> agrees (List.length c) c num' den' -> same_quotient num den num' den'.
Proof. exact (fit_agrees). Qed.
Print Assumptions c157_agrees.

Theorem c157_order : forall solve poly1d c m num den, solves solve -> padefit solve poly1d c m = Ok (num, den) ->
  Z.of_nat (List.length den) = (1 + match m with Some (Zpos p) => Zpos p | _ => (Z.of_nat (List.length c) - (if poly1d then 2 else 1)) / 2 end)%Z.
Proof. exact (fit_order). Qed.
Print Assumptions c157_order.

Example c157_exp_case : forall solve, solves solve -> padefit solve false [1 / 2; 1; 1] (Some 1%Z) = Ok ([1 / 2; 1], [- (1 / 2); 1]) /\ padefit solve false [1 / 2; 1; 1] None = padefit solve false [1 / 2; 1; 1] (Some 1%Z).
Proof. exact (exp_case). Qed.

Theorem c157_refused : forall solve poly1d c m, (m < 0 \/ 0 < m /\ Z.of_nat (List.length c) <= m)%Z -> padefit solve poly1d c (Some m) = Err ValueError.
Proof. exact (fit_refused). Qed.
Print Assumptions c157_refused.

(* From values at points. *)

Theorem c157_best : forall pinv fs m k a b xs e num den, is_inverse pinv -> padefitlsq pinv (Values fs) m k a b (Some xs) e = Ok (num, den) ->
  List.length xs = (8 * (m + k + 1))%nat /\ List.length fs = List.length xs /\ List.length num = (m + 1)%nat /\ List.length den = (k + 1)%nat /\ peval den 0 = 1 /\
  exists d num1 den1 d1, deviation (List.length xs) (at_R xs) (at_R fs) num den d /\
    List.length num1 = (m + 1)%nat /\ List.length den1 = (k + 1)%nat /\ linear_fit (List.length xs) (at_R xs) (at_R fs) num1 den1 /\ deviation (List.length xs) (at_R xs) (at_R fs) num1 den1 d1 /\ d <= d1.
Proof. exact (lsq_best). Qed.
Print Assumptions c157_best.

Theorem c157_exact : forall pinv fs m k a b xs e num den P Q, is_inverse pinv -> padefitlsq pinv (Values fs) m k a b (Some xs) e = Ok (num, den) -> NoDup xs ->
  (List.length P <= m + 1)%nat -> (List.length Q <= k + 1)%nat -> peval Q 0 <> 0 -> (forall i, (i < List.length xs)%nat -> peval Q (at_R xs i) <> 0 /\ at_R fs i = peval P (at_R xs i) / peval Q (at_R xs i)) ->
  same_quotient num den P Q.
Proof. exact (lsq_exact). Qed.
Print Assumptions c157_exact.

Theorem c157_points : forall pinv m k a b e, a < b -> exists xs, List.length xs = (8 * (m + k + 1))%nat /\ NoDup xs /\ (forall t, In t xs -> a <= t <= b) /\
  forall f, padefitlsq pinv (Function f) m k a b None e = padefitlsq pinv (Values (map f xs)) m k a b (Some xs) e.
Proof. exact (lsq_points). Qed.
Print Assumptions c157_points.

Theorem c157_lengths : forall pinv fs m k a b xs e, List.length xs <> (8 * (m + k + 1))%nat \/ List.length fs <> (8 * (m + k + 1))%nat -> padefitlsq pinv (Values fs) m k a b (Some xs) e = Err ValueError.
Proof. exact (lsq_refused). Qed.
Print Assumptions c157_lengths.

Example c157_line_case : forall pinv, is_inverse pinv -> exists num den, padefitlsq pinv (Values line_f) 1 0 0 1 (Some line_x) true = Ok (num, den) /\ same_quotient num den [2; 1] [1].
Proof. exact (line_case). Qed.

(* What fails. *)

Theorem c157_zero_refuted : forall solve c num den, solves solve -> (3 <= List.length c)%nat -> padefit solve false c (Some 0%Z) = Ok (num, den) -> padefit solve false c None = Ok (num, den) /\ (2 <= List.length den)%nat.
Proof. exact (zero_order). Qed.
Print Assumptions c157_zero_refuted.

Theorem c157_poly1d_refuted : forall solve c num den num' den', solves solve -> Nat.odd (List.length c) = true -> padefit solve false c None = Ok (num, den) -> padefit solve true c None = Ok (num', den') -> List.length den = S (List.length den').
Proof. exact (poly1d_differs). Qed.
Print Assumptions c157_poly1d_refuted.

Theorem c157_longer_refuted : forall pinv fs m k a b xs e, List.length fs = List.length xs -> (List.length xs > (m + k + 1) * 8)%nat -> padefitlsq pinv (Values fs) m k a b (Some xs) e = Err ValueError.
Proof. exact (lsq_documented). Qed.
Print Assumptions c157_longer_refuted.
