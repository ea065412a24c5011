From mathcomp Require Import all_ssreflect all_algebra.
From Verif Require Import KalmanModel KalmanSpec KalmanProofs.
Set Implicit Arguments.
Unset Strict Implicit.
Import GRing.Theory Num.Theory.
Local Open Scope ring_scope.

(* C49: for the constant model without process noise and without initial estimate every returned state is the mean
   of the observations so far, whatever the dimension and the measurement covariance *)
Theorem c49_running_mean : forall (F : realFieldType) n p (R : 'M[F]_n) (B : 'M[F]_(n, p)) z zs, R \in unitmx ->
  exists o, calls (constant_system R B) (new_object None None) (observe p (z :: zs)) =
    Some ([seq mean (take k.+1 (z :: zs)) | k <- iota 0 (size zs).+1], o).
Proof. exact: (fun F n p R B z zs H => constant_states B z H zs). Qed.
Print Assumptions c49_running_mean.
(* and after k observations the covariance is R / k *)
Theorem c49_variance : forall (F : realFieldType) n p (R : 'M[F]_n) (B : 'M[F]_(n, p)) z zs, R \in unitmx ->
  exists xs, calls (constant_system R B) (new_object None None) (observe p (z :: zs)) =
    Some (rcons xs (mean (z :: zs)), Object (Some (mean (z :: zs))) (Some ((size (z :: zs))%:R^-1 *: R)) false).
Proof. exact: (fun F n p R B z zs H => constant_calls B z H zs). Qed.
Print Assumptions c49_variance.
Example c49_mean_case : exists o, calls (constant_system (1%:M : 'M[rat]_2) (0 : 'M_(2, 1))) (new_object None None) (observe 1 [:: const_mx 1; const_mx 4; const_mx 7]) =
    Some ([:: mean [:: const_mx 1]; mean [:: const_mx 1; const_mx 4]; mean [:: const_mx 1; const_mx 4; const_mx 7]], o).
Proof. exact: (c49_running_mean 0 (const_mx 1) [:: const_mx 4; const_mx 7] (unitmx1 _ _)). Qed.

(* one update: the gain exists, the new covariance is that of the error of the new estimate, it is a covariance again, at most the
   predicted one, and no other gain gives a smaller one *)
Theorem c49_update : forall (F : realFieldType) n m p (s : system F n m p) x P z u, psd P -> psd (sysQ s) -> pd (sysR s) ->
  let P1 := sysA s *m P *m (sysA s)^T + sysQ s in let x1 := sysA s *m x + sysB s *m u in
  exists K P', filter_main s x P z u = Some (x1 + K *m (z - sysH s *m x1), P') /\ psd P1 /\
    P' = error_covariance (sysH s) (sysR s) P1 K /\ psd P' /\ at_most P' P1 /\ forall L, at_most P' (error_covariance (sysH s) (sysR s) P1 L).
Proof. exact: filter_main_spec. Qed.
Print Assumptions c49_update.
(* hence no sequence of calls fails, and the covariance stays positive semidefinite *)
Theorem c49_session : forall (F : realFieldType) n p (s : system F n n p) x0 P0 zu, psd (sysQ s) -> pd (sysR s) ->
  (if P0 is Some P then psd P else True) ->
  exists xs o, calls s (new_object x0 P0) zu = Some (xs, o) /\ size xs = size zu /\ (zu != [::] -> exists x P, obx o = Some x /\ obP o = Some P /\ psd P).
Proof. exact: session_good. Qed.
Print Assumptions c49_session.
(* started at the true state and fed exact observations the filter follows the system exactly *)
Theorem c49_tracking : forall (F : realFieldType) n p (s : system F n n p) us x P, psd P -> psd (sysQ s) -> pd (sysR s) ->
  let xs := trajectory (sysA s) (sysB s) x us in
  exists o', calls s (new_object (Some x) (Some P)) (zip [seq sysH s *m y | y <- xs] us) = Some (xs, o').
Proof. exact: tracking_new. Qed.
Print Assumptions c49_tracking.
Example c49_case : let s := System (1%:M : 'M[rat]_2) (const_mx 3) (1%:M) (0 : 'M_2) (const_mx 2) in
  psd (sysQ s) /\ pd (sysR s) /\ exists xs o, calls s (new_object None None) [:: (const_mx 1, const_mx 2); (const_mx 5, 0)] = Some (xs, o) /\ size xs = 2%N.
Proof.
  have Q := psd_zero [realFieldType of rat] 2. have R := pd_one [realFieldType of rat] 2.
  split; [exact: Q|split; [exact: R|]].
  have [xs [o [E [S _]]]] := @c49_session _ 2 2 (System (1%:M : 'M[rat]_2) (const_mx 3) (1%:M) (0 : 'M_2) (const_mx 2)) None None [:: (const_mx 1, const_mx 2); (const_mx 5, 0)] Q R I.
  by exists xs, o.
Qed.
(* reset does not make the filter forget: after at least one call it changes nothing *)
Theorem c49_reset_refuted : forall (F : realFieldType) n p (s : system F n n p) x0 P0 zu xs o z u, zu != [::] ->
  calls s (new_object x0 P0) zu = Some (xs, o) -> call s (reset o) z u = call s o z u.
Proof. exact: reset_after. Qed.
Print Assumptions c49_reset_refuted.
