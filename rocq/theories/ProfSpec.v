(* Profiles with one hill. *)
From Coq Require Import Reals List.
From Verif Require Import Base ProfModel.
Import ListNotations.
Local Open Scope R_scope.

Definition ascends (t : list R) : Prop := forall i j, (i < j < List.length t)%nat -> nth i t 0 < nth j t 0.
(* rises up to the point k and falls after it; pieces may be level *)
Definition hill (f : list R) (k : nat) : Prop :=
  (k < List.length f)%nat /\ (forall i j, (i <= j <= k)%nat -> nth i f 0 <= nth j f 0) /\ (forall i j, (k <= i <= j)%nat -> (j < List.length f)%nat -> nth j f 0 <= nth i f 0).
(* a profile over an increasing grid with one hill, the interval [lo, hi] of the search and the level alpha *)
Record sound (p : profile) (k : nat) (lo hi : R) : Prop := {
  same_length : List.length (args p) = List.length (data p);
  increasing_grid : ascends (args p);
  one_hill : hill (data p) k;
  limits : pmin p = Some lo /\ pmax p = Some hi;
  within_limits : forall i, (i < List.length (args p))%nat -> lo <= nth i (args p) 0 <= hi }.
(* a function of a real variable that rises up to m and falls after it *)
Definition hill_function (f : R -> R) (m : R) : Prop := (forall x y, x <= y -> y <= m -> f x <= f y) /\ (forall x y, m <= x -> x <= y -> f y <= f x).
(* the last number of the list with the property P, as position *)
Definition last_position {A} (P : A -> Prop) (l : list A) (i : nat) : Prop := (exists a, nth_error l i = Some a /\ P a) /\ forall j a, (i < j)%nat -> nth_error l j = Some a -> ~ P a.
(* parameter j is not fixed *)
Definition free (par_fix : option (list (option R))) (npar j : nat) : Prop := match par_fix with None => (j < npar)%nat | Some l => nth_error l j = Some None end.
