(* The discrete Fourier transform as called by the code (numpy.fft.fft, ifft; scipy's fft and ifft): the transform itself over the
   complex numbers, not the algorithm that computes it.  A sequence is a function of the index together with its length. *)
From Coq Require Import Reals.
From Coquelicot Require Import Complex.
From Verif Require Import Base PolyModel.
Local Open Scope R_scope.

Definition cis (t : R) : C := (cos t, sin t).
Fixpoint csum (n : nat) (f : nat -> C) : C := match n with O => RtoC 0 | S n' => Cplus (csum n' f) (f n') end.
(* fft(x, N)[k] and ifft(X, N)[j] *)
Definition fft (N : nat) (x : nat -> C) (k : nat) : C := csum N (fun j => Cmult (x j) (cis (- (2 * PI * INR (k * j) / INR N)))).
Definition ifft (N : nat) (X : nat -> C) (j : nat) : C :=
  Cdiv (csum N (fun k => Cmult (X k) (cis (2 * PI * INR (k * j) / INR N)))) (RtoC (INR N)).
(* a list of real numbers, padded with zeros *)
Definition padded (x : list R) (j : nat) : C := RtoC (at_R x j).
