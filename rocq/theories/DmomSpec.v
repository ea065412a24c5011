(* Moments of a directional spectrum. *)
From Coq Require Import Reals List ZArith Bool String Ascii.
From Verif Require Import PolyModel SpectSpec DmomModel.
Import ListNotations.
Local Open Scope R_scope.

(* nt directions and nw frequencies *)
Definition directional (s : spec2) (nt nw : nat) : Prop :=
  (stype s = "dir" \/ stype s = "encdir")%string /\ (1 <= nt)%nat /\ (1 <= nw)%nat /\ List.length (first_of (sargs2 s)) = nw /\ List.length (second_of (sargs2 s)) = nt /\ List.length (rows s) = nt.
Definition freq (s : spec2) (j : nat) : R := at_R (first_of (sargs2 s)) j.
Definition angle (s : spec2) (i : nat) : R := at_R (second_of (sargs2 s)) i.
Definition dens (s : spec2) (i j : nat) : R := at_R (nth i (rows s) []) j.
(* the integral of k1^a k2^b w^c S(w, theta) by Simpson's rule in both variables *)
Definition integral (s : spec2) (nt nw a b c : nat) : R :=
  simpson nw (freq s) (fun j => simpson nt (angle s) (fun i =>
    (freq s j ^ 2 / gx s * cos (angle s i - sphi s)) ^ a * (freq s j ^ 2 / gy s * sin (angle s i - sphi s)) ^ b * freq s j ^ c * dens s i j)).
Fixpoint rep (n : nat) (c : ascii) (s : string) : string := match n with O => s | S n => String c (rep n c s) end.
(* the name of the moment: m0, mx, mxt, ... *)
Definition word (e : nat * nat * nat) : string :=
  match e with (O, O, O) => "m0" | (a, b, c) => String "m" (rep a "x" (rep b "y" (rep c "t" EmptyString))) end%string.
Definition order (e : nat * nat * nat) : nat := let '(a, b, c) := e in (a + b + c)%nat.
(* e is a moment of the wanted variables x, y, t and of order 0, 1, 2 or 4, at most nr *)
Definition wanted (nr : Z) (x y t : bool) (e : nat * nat * nat) : Prop :=
  let '(a, b, c) := e in
  (a + b + c = 0 \/ a + b + c = 1 \/ a + b + c = 2 \/ a + b + c = 4)%nat /\ ((a + b + c = 0)%nat \/ (Z.of_nat (a + b + c) <= nr)%Z) /\
  (a = 0%nat \/ x = true) /\ (b = 0%nat \/ y = true) /\ (c = 0%nat \/ t = true).
(* equal up to whole turns *)
Definition same_direction (a b : R) : Prop := exists k, a = b + 2 * PI * IZR k.
(* the spectrum with another angle phi *)
Definition turned (s : spec2) (phi : R) : spec2 := Spec2 (stype s) (rows s) (sargs2 s) phi (gx s) (gy s).
