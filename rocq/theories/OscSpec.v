(* Integrals of oscillating functions f(t) exp(i omega g(t)). *)
From Coq Require Import Reals List.
From Coquelicot Require Import Coquelicot.
From Verif Require Import ArSpec PolyModel DftModel OscModel.
Import ListNotations.
Local Open Scope R_scope.

(* the integral of h over [a, b] is v, for the real and the imaginary parts *)
Definition integral (h : R -> C) (a b : R) (v : C) : Prop := is_RInt (fun t => fst (h t)) a b (fst v) /\ is_RInt (fun t => snd (h t)) a b (snd v).
Definition oscillating (omega : R) (g : R -> R) (f : R -> C) (t : R) : C := Cmult (f t) (cis (omega * g t)).
(* the polynomial with the coefficients c_0 .. c_(n-1), and its derivative *)
Definition cpoly (n : nat) (c : nat -> C) (t : R) : C := csum n (fun k => Cmult (c k) (RtoC (t ^ k))).
Definition dpoly (n : nat) (c : nat -> C) (t : R) : C := csum n (fun k => Cmult (c k) (RtoC (INR k * t ^ (k - 1)))).
(* the function whose product with exp(i omega g) is the derivative of the polynomial times exp(i omega g) *)
Definition amplitude (omega : R) (dg : R -> R) (n : nat) (c : nat -> C) (t : R) : C := Cplus (dpoly n c t) (Cmult (0, omega * dg t) (cpoly n c t)).
Definition boundary (omega : R) (g : R -> R) (n : nat) (c : nat -> C) (a b : R) : C := Cminus (oscillating omega g (cpoly n c) b) (oscillating omega g (cpoly n c) a).
Definition rule_value (w : nat -> C) (x : list R) (f : R -> C) : C := csum (List.length x) (fun i => Cmult (w i) (f (at_R x i))).
(* some weights for the nodes x integrate all these functions, for polynomials with as many coefficients as there are nodes *)
Definition has_rule (omega : R) (g dg : R -> R) (a b : R) (x : list R) : Prop :=
  exists w, forall c, rule_value w x (amplitude omega dg (List.length x) c) = boundary omega g (List.length x) c a b.
(* what is returned solves the system, if the system has a solution *)
Definition solves_systems (lstsq : lsolver) : Prop :=
  forall n A b y, (forall r, (r < n)%nat -> csum n (fun j => Cmult (A r j) (y j)) = b r) -> forall r, (r < n)%nat -> csum n (fun j => Cmult (A r j) (lstsq n A b j)) = b r.
(* the functions b_k with the derivatives d_k; the first n of them span the polynomials with n coefficients *)
Definition is_basis (B : basis) : Prop :=
  (forall k t, is_derive (fst B k) t (snd B k t)) /\
  (forall n k, (k < n)%nat -> exists p, forall t, fst B k t = sum_to n (fun j => p j * t ^ j)) /\
  (forall n k, (k < n)%nat -> exists p, forall t, t ^ k = sum_to n (fun j => p j * fst B j t)).
(* a phase with a continuous derivative *)
Definition phase (g dg : R -> R) : Prop := forall t, is_derive g t (dg t) /\ continuous dg t.
(* strictly increasing numbers from a to b *)
Definition partition (a b : R) (l : list R) : Prop :=
  exists m, l = a :: m ++ [b] /\ forall i j, (i < j < List.length l)%nat -> nth i l 0 < nth j l 0.

(* ---- estimates by successive bisection ---- *)
(* the nodes x of [-1, 1] in [a, b], and the rule with these nodes applied to f on [a, b] *)
Definition nodes (a b : R) (x : list R) : list R := map (fun t : R => (b - a) / 2 * t + (a + b) / 2) x.
Definition piece (ls : lsolver) (B : basis) (om : R) (g dg : R -> R) (x : list R) (a b : R) : list C :=
  evans_webster_weights ls B om (fun t => g ((b - a) / 2 * t + (a + b) / 2)) (fun t => (b - a) / 2 * dg ((b - a) / 2 * t + (a + b) / 2)) x.
Definition piece_value (ls : lsolver) (B : basis) (om : R) (f : R -> C) (g dg : R -> R) (x : list R) (u v : R) : C := weighted ((v - u) / 2) (piece ls B om g dg x u v) f (nodes u v x).
(* the sum of the rules on 2^k equal parts of [a, b] *)
Definition level (ls : lsolver) (B : basis) (om : R) (f : R -> C) (g dg : R -> R) (x : list R) (a b : R) (k : nat) : C :=
  csum (2 ^ k) (fun i => piece_value ls B om f g dg x (a + INR i * ((b - a) / 2 ^ k)) (a + INR (S i) * ((b - a) / 2 ^ k))).
(* extrapolation from three numbers, and the estimates e_k, extrapolated once and extrapolated twice with their differences from the ones before *)
Definition row1 (dea3 : C -> C -> C -> C) (e : nat -> C) (k : nat) : C := dea3 (e (k - 2)%nat) (e (k - 1)%nat) (e k).
Definition candidates (dea3 : C -> C -> C -> C) (e : nat -> C) (k : nat) (q : C) (d : R) : Prop :=
  (q = e k /\ d = Cmod (Cminus (e k) (e (k - 1)%nat))) \/
  ((3 <= k)%nat /\ q = row1 dea3 e k /\ d = Cmod (Cminus (row1 dea3 e k) (row1 dea3 e (k - 1)))) \/
  ((5 <= k)%nat /\ q = row1 dea3 (row1 dea3 e) k /\ d = Cmod (Cminus (row1 dea3 (row1 dea3 e) k) (row1 dea3 (row1 dea3 e) (k - 1)))).
(* strictly increasing numbers *)
Definition increasing (x : list R) : Prop := forall i j, (i < j < List.length x)%nat -> nth i x 0 < nth j x 0.
(* amplitudes with continuous real and imaginary parts *)
Definition continuous_amplitude (f : R -> C) : Prop := (forall t, continuous (fun t => fst (f t)) t) /\ (forall t, continuous (fun t => snd (f t)) t).
