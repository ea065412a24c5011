(* Covariance functions and spectra, without Fourier transforms. *)
From Coq Require Import Reals Lra.
From Verif Require Import Base PolyModel GridSpec ProcSpec CovSpec SpcovModel.
Local Open Scope R_scope.

(* the frequencies are 0, h, 2h, ...; one value for each *)
Definition even_grid (s : spectrum) (h : R) (n : nat) : Prop := 0 < h /\ (2 <= n)%nat /\ sargs s = uniform 0 h n /\ List.length (sdata s) = n.
(* the trapezoidal rule with step h for the values y 0, ..., y (n - 1) *)
Definition trapezoid (h : R) (n : nat) (y : nat -> R) : R := sumR (map (fun j => h * (y j + y (S j)) / 2) (seq 0 (n - 1))).
(* the angular frequency (or wave number) that the value x of the frequency axis stands for *)
Definition angular (t : ftype) (x : R) : R := match t with Hertz => 2 * PI * x | _ => x end.
(* the covariance function: the integral of S cos(w t) by the trapezoidal rule *)
Definition covariance_at (s : spectrum) (h : R) (t : R) : R :=
  trapezoid h (List.length (sdata s)) (fun j => at_R (sdata s) j * cos (angular (freqtype s) (INR j * h) * t)).
(* the spectral density of the covariances a at the lags 0, dt, 2 dt, ...: 2 / pi times the integral of R cos(w t) by the same rule *)
Definition density_at (a : list R) (dt w : R) : R := 2 / PI * trapezoid dt (List.length a) (fun k => at_R a k * cos (w * (INR k * dt))).
(* negative values are replaced by 0 *)
Definition clipped (v : R) : R := Rmax v 0.
(* the interpolation rate that is used: a power of two, at most 16 *)
Definition rate_used (rate : option nat) (r : nat) : Prop :=
  match rate with None => r = 1%nat | Some q => (16 < q)%nat /\ r = 16%nat \/ (q <= 16)%nat /\ least_pow2 q r end.

(* the lags are 0, dt, 2 dt, ...; one value for each *)
Definition sampled (c : covariance) (dt : R) (n : nat) : Prop := 0 < dt /\ (2 <= n)%nat /\ cargs c = uniform 0 dt n /\ List.length (cdata c) = n.
(* the interpolation rate of tospecdata: a power of two *)
Definition upsampling (rate : option nat) (r : nat) : Prop := match rate with None => r = 1%nat | Some q => least_pow2 q r end.
