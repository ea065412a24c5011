(* What an automatic discretisation promises. *)
From Coq Require Import Reals List ZArith.
Import ListNotations.
Local Open Scope R_scope.

(* m + 1 equally spaced points from a to b *)
Definition grid (a b : R) (m : nat) : list R := map (fun i => a + INR i * ((b - a) / INR m)) (seq 0 (m + 1)).
Definition increasing (x : list R) : Prop := forall i, (S i < List.length x)%nat -> nth i x 0 < nth (S i) x 0.
(* the value at t of the line through the points (x0, f x0) and (x1, f x1) *)
Definition chord (f : R -> R) (x0 x1 t : R) : R := f x0 + (f x1 - f x0) / (x1 - x0) * (t - x0).
(* the relative deviation of y from y0 *)
Definition deviation (tiny tol y0 y : R) : R := Rabs (y0 - y) / (Rabs y0 + Rabs y + tiny + tol) / 2.
(* [e] is the largest deviation of f in the middle of two neighbouring points of the grid with m intervals from its chord *)
Definition middle_error (f : R -> R) (tiny tol a b : R) (m : nat) (e : R) : Prop :=
  let h := (b - a) / INR m in
  let d i := deviation tiny tol (chord f (a + INR i * h) (a + INR (S i) * h) (a + (INR i + / 2) * h)) (f (a + (INR i + / 2) * h)) in
  (forall i, (i < m)%nat -> d i <= e) /\ exists i, (i < m)%nat /\ e = d i.

(* how often the error changed by at most tol / 2 in the first k rounds *)
Fixpoint stalls (tol : R) (errs : nat -> R) (k : nat) : nat :=
  match k with O => O | S k' => ((if Rle_dec (Rabs (errs 1%nat - errs 0%nat)) (tol / 2) then 1 else 0) + stalls tol (fun j => errs (S j)) k')%nat end.

(* one round of the adaptive method: [marks] are the points of X whose two intervals are halved *)
Definition neighbours (X : list R) (l r : R) : Prop := exists i, (S i < List.length X)%nat /\ l = nth i X 0 /\ r = nth (S i) X 0.
Definition halved (X : list R) (marks : R -> Prop) (l r : R) : Prop := neighbours X l r /\ (marks l \/ marks r).
Definition round (f : R -> R) (tiny tol : R) (X : list R) (marks : R -> Prop) (X' : list R) (marks' : R -> Prop) (err' : R) : Prop :=
  let d l r := deviation tiny tol (chord f l r ((l + r) / 2)) (f ((l + r) / 2)) in
  (forall t, In t X' <-> In t X \/ exists l r, halved X marks l r /\ t = (l + r) / 2) /\
  (forall t, marks' t <-> exists l r, halved X marks l r /\ t = (l + r) / 2 /\ tol < d l r) /\
  (forall l r, halved X marks l r -> d l r <= err') /\ exists l r, halved X marks l r /\ err' = d l r.

(* the linear method stops at the first k where the error has stalled five times, is small enough, or the grid has 2^20 points *)
Definition linear_stop (tol : R) (m : nat) (errs : nat -> R) (k : nat) : Prop :=
  (5 <= stalls tol errs k)%nat \/ errs k <= tol \/ (2 ^ 20 <= Z.of_nat (2 ^ k * m) + 1)%Z.
(* the adaptive method stops at the first k where the error has stalled five times or is small enough, and after 50 rounds *)
Definition adaptive_stop (tol : R) (errs : nat -> R) (k : nat) : Prop := (5 <= stalls tol errs k)%nat \/ errs k <= tol \/ (50 <= k)%nat.
