(* What a Kalman filter is supposed to do *)
From mathcomp Require Import all_ssreflect all_algebra.
From Verif Require Import KalmanModel.
Set Implicit Arguments.
Unset Strict Implicit.
Import GRing.Theory Num.Theory.
Local Open Scope ring_scope.

(* covariance matrices: symmetric, and positive semidefinite or definite *)
Definition quadratic (F : realFieldType) n (M : 'M[F]_n) (v : 'cV[F]_n) : F := (v^T *m M *m v) 0 0.
Definition psd (F : realFieldType) n (M : 'M[F]_n) : Prop := M^T = M /\ forall v, 0 <= quadratic M v.
Definition pd (F : realFieldType) n (M : 'M[F]_n) : Prop := M^T = M /\ forall v, v != 0 -> 0 < quadratic M v.
(* the order on covariances: at most as uncertain in every direction *)
Definition at_most (F : realFieldType) n (M N : 'M[F]_n) : Prop := forall v, quadratic M v <= quadratic N v.
(* covariance of the error of x + L (z - H x) if x has error covariance P and z = H x_true + v with v of covariance R
   independent of it *)
Definition error_covariance (F : realFieldType) n m (H : 'M[F]_(m, n)) (R : 'M[F]_m) (P : 'M[F]_n) (L : 'M[F]_(n, m)) : 'M[F]_n :=
  (1%:M - L *m H) *m P *m (1%:M - L *m H)^T + L *m R *m L^T.
Definition mean (F : realFieldType) n (zs : seq 'cV[F]_n) : 'cV[F]_n := (size zs)%:R^-1 *: \sum_(z <- zs) z.
(* the exact course of the noise-free system: states after each control, and its observations *)
Fixpoint trajectory (F : realFieldType) n p (A : 'M[F]_n) (B : 'M[F]_(n, p)) (x : 'cV[F]_n) (us : seq 'cV[F]_p) : seq 'cV[F]_n :=
  if us is u :: us' then let x' := A *m x + B *m u in x' :: trajectory A B x' us' else [::].
(* the constant model x = x + 0, z = x + v with v of covariance R; observations with zero controls *)
Definition constant_system (F : realFieldType) n p (R : 'M[F]_n) (B : 'M[F]_(n, p)) : system F n n p := System R 1%:M B 0 1%:M.
Definition observe (F : realFieldType) n p (zs : seq 'cV[F]_n) : seq ('cV[F]_n * 'cV[F]_p) := [seq (z, 0) | z <- zs].
