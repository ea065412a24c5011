(* What a user expects of the kernel functions *)
From Coq Require Import Reals List.
From Coquelicot Require Import Coquelicot.
From Verif Require Import Base SeaSpec.
Import ListNotations.
Local Open Scope R_scope.

(* l is the integral of f over the whole line: the limit of the integrals over [-W, W] (used for functions without negative values only, for
   which every way of exhausting the line gives the same limit) *)
Definition line_integral (f : R -> R) (l : R) : Prop :=
  (forall a b, ex_RInt f a b) /\ is_lim (fun W => RInt f (- W) W) p_infty l.
(* l is the integral of f over d-dimensional space, one coordinate after the other *)
Fixpoint space_integral (d : nat) (f : list R -> R) (l : R) : Prop :=
  match d with
  | O => f [] = l
  | S d' => exists g, (forall x, space_integral d' (fun v => f (x :: v)) (g x)) /\ line_integral g l
  end.
(* h is the n-th derivative of f *)
Fixpoint derivative (n : nat) (f h : R -> R) : Prop :=
  match n with
  | O => forall x, f x = h x
  | S n' => exists g, (forall x, is_derive f x (g x)) /\ derivative n' g h
  end.
(* the density of the normal distribution with mean zero *)
Definition normal (sigma x : R) : R := exp (- (x ^ 2 / (2 * sigma ^ 2))) / (sigma * sqrt (2 * PI)).
(* l is the integral of the square of the second derivative of K; the second derivative may be missing at finitely many points *)
Definition bending (K : R -> R) (l : R) : Prop :=
  exists K1 K2 cuts, (forall x, is_derive K x (K1 x)) /\ (forall x, continuous K1 x) /\ (forall x, ~ In x cuts -> is_derive K1 x (K2 x)) /\ line_integral (fun x => K2 x ^ 2) l.
(* the diagonal matrix with the given entries *)
Definition diagonal (l : list R) : list (list R) :=
  map (fun i => map (fun j => if Nat.eqb i j then nth i l 0 else 0) (seq 0 (List.length l))) (seq 0 (List.length l)).
(* the asymptotic mean integrated squared error of an estimate from n observations with bandwidth h, a kernel with second moment mu2 and
   roughness rk, of a density with bending energy b *)
Definition amise (mu2 rk b n h : R) : R := rk / (n * h) + h ^ 4 * mu2 ^ 2 * b / 4.
