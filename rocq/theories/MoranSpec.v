(* Spacings of a sample under a distribution function. *)
From Coq Require Import Reals Lra.
From Verif Require Import Base.
Local Open Scope R_scope.

(* the distribution function F at the ordered sample, with 0 before and 1 after it *)
Definition level (F : R -> R) (x : list R) (j : nat) : R :=
  match j with O => 0 | S i => if Nat.ltb i (List.length x) then F (nth i x 0) else 1 end.
(* the probability between neighbouring observations; there are n + 1 of them for n observations *)
Definition spacing (F : R -> R) (x : list R) (j : nat) : R := level F x (S j) - level F x j.
(* F is nondecreasing with values between 0 and 1 *)
Definition distribution_function (F : R -> R) : Prop := (forall x y, x <= y -> F x <= F y) /\ forall x, 0 <= F x <= 1.
Definition increasing (x : list R) : Prop := forall i, (S i < List.length x)%nat -> nth i x 0 < nth (S i) x 0.
(* f 0 + ... + f (n - 1), and the product *)
Fixpoint total (n : nat) (f : nat -> R) : R := match n with O => 0 | S m => total m f + f m end.
Fixpoint product (n : nat) (f : nat -> R) : R := match n with O => 1 | S m => product m f * f m end.
(* the number of observations that equal the next one *)
Fixpoint repeats (x : list R) : nat :=
  match x with a :: ((b :: _) as t) => ((if Req_EM_T a b then 1 else 0) + repeats t)%nat | _ => 0%nat end.
(* x lies in the closed interval from lo to hi, where None is infinite *)
Definition within (lo hi : option R) (x : R) : Prop := (forall a, lo = Some a -> a <= x) /\ (forall b, hi = Some b -> x <= b).
