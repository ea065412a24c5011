(* Shape preservation *)
From Coq Require Import Reals.
From Verif Require Import Base.
Local Open Scope R_scope.

(* between two neighbouring data points F moves in the direction of the data only *)
Definition shape_preserving (x y : list R) (i : nat) (F : R -> R) : Prop :=
  forall s t, nth i x 0 <= s -> s <= t -> t <= nth (S i) x 0 ->
    (nth i y 0 <= nth (S i) y 0 -> F s <= F t) /\ (nth (S i) y 0 <= nth i y 0 -> F t <= F s).
Definition continuously_differentiable (F F1 : R -> R) : Prop :=
  (forall t, derivable_pt_lim F t (F1 t)) /\ continuity F1.
(* the data lie on a straight line / on a parabola *)
Definition on_line (a b : R) (x y : list R) : Prop :=
  List.length y = List.length x /\ forall i, (i < List.length x)%nat -> nth i y 0 = a + b * nth i x 0.
Definition on_parabola (a b c : R) (x y : list R) : Prop :=
  List.length y = List.length x /\
  forall i, (i < List.length x)%nat -> nth i y 0 = a + b * nth i x 0 + c * (nth i x 0) ^ 2.
(* strictly increasing chord slopes: convex data *)
Definition chord (x y : list R) (i : nat) : R := (nth (S i) y 0 - nth i y 0) / (nth (S i) x 0 - nth i x 0).
Definition convex_data (x y : list R) : Prop :=
  forall i, (S (S i) < List.length x)%nat -> chord x y i < chord x y (S i).
(* the slopes at both ends of a segment, measured in units of its chord, leave the circle of
   radius 3 inside which a cubic is known to be monotone *)
Definition too_steep (x y yp : list R) (i : nat) : Prop :=
  chord x y i <> 0 /\ 9 < (nth i yp 0 / chord x y i) ^ 2 + (nth (S i) yp 0 / chord x y i) ^ 2.
(* the curve lies below its chords *)
Definition convex_on (lo hi : R) (F : R -> R) : Prop :=
  forall s t l, lo <= s <= hi -> lo <= t <= hi -> 0 <= l <= 1 -> F (l * s + (1 - l) * t) <= l * F s + (1 - l) * F t.
