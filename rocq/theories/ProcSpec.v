(* What tranproc, trangood and TrData promise (documentation of src/wafo/misc.py and src/wafo/transform/core.py). *)
From Coq Require Import Reals List.
From Coquelicot Require Import Coquelicot.
Import ListNotations.
Local Open Scope R_scope.

Definition at_ (l : list R) (i : nat) : R := nth i l 0.
(* the x values of a table in increasing order *)
Definition increasing (x : list R) : Prop := forall i, (S i < length x)%nat -> at_ x i < at_ x (S i).
Definition nondecreasing (x : list R) : Prop := forall i, (S i < length x)%nat -> at_ x i <= at_ x (S i).
(* every point between the first and the last value of the table *)
Definition covers (x x0 : list R) : Prop := forall t, In t x0 -> at_ x 0 <= t <= at_ x (length x - 1).
(* n values a, a + h, a + 2 h, ... *)
Definition uniform (a h : R) (n : nat) : list R := map (fun i => a + INR i * h) (seq 0 n).
(* y is the value at t of the line through two neighbouring points of the table that enclose t *)
Definition interpolated (x f : list R) (t y : R) : Prop :=
  exists i, (S i < length x)%nat /\ at_ x i <= t <= at_ x (S i) /\
    y = at_ f i + (at_ f (S i) - at_ f i) * ((t - at_ x i) / (at_ x (S i) - at_ x i)).
(* differences of the steps of a table *)
Definition bend (x : list R) (i : nat) : R := at_ x (S (S i)) - 2 * at_ x (S i) + at_ x i.
(* the spacing is exactly uniform, or the program can see that it is not *)
Definition clear_spacing (eps : R) (x : list R) : Prop :=
  (exists a h, x = uniform a h (length x)) \/
  (exists i, (S (S i) < length x)%nat /\ 10 * eps * (at_ x (length x - 1) - at_ x 0) < Rabs (bend x i)).
(* the table is not finer than the program wants: its mean step exceeds 10^(-7/nd) *)
Definition coarse (nd : nat) (x : list R) : Prop :=
  INR (length x) - 1 < (at_ x (length x - 1) - at_ x 0) * Rpower 10 (7 / INR (Nat.max nd 1)).

(* k'th difference quotients of a table with step h, and where they belong *)
Fixpoint quotients (h : R) (k : nat) (f : list R) (i : nat) : R :=
  match k with O => at_ f i | S k' => (quotients h k' f (S i) - quotients h k' f i) / h end.
Definition quotient_table (h : R) (k n : nat) (f : list R) : list R := map (quotients h k f) (seq 0 (n - k)).

(* misc.py:2501-2506; F j is the j'th derivative of f at x0, X j the j'th time derivative of x *)
Definition chain_rule (F X : nat -> R) (k : nat) : R :=
  match k with
  | O => F 0%nat
  | 1%nat => F 1%nat * X 1%nat
  | 2%nat => F 2%nat * X 1%nat ^ 2 + F 1%nat * X 2%nat
  | 3%nat => F 3%nat * X 1%nat ^ 3 + F 1%nat * X 3%nat + 3 * F 2%nat * X 1%nat * X 2%nat
  | 4%nat => F 4%nat * X 1%nat ^ 4 + F 1%nat * X 4%nat + 6 * F 3%nat * X 1%nat ^ 2 * X 2%nat
             + F 2%nat * (3 * X 2%nat ^ 2 + 4 * X 1%nat * X 3%nat)
  | _ => 0
  end.
