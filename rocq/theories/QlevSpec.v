(* What a user expects of quantile levels *)
From Coq Require Import Reals List Permutation Sorted.
From Verif Require Import Base.
Import ListNotations.
Local Open Scope R_scope.

(* argsort returns the positions of the entries in an order in which the entries do not decrease *)
Definition sorts (argsort : list R -> list nat) : Prop :=
  forall l, Permutation (argsort l) (seq 0 (List.length l)) /\ StronglySorted Rle (map (fun i => nth i l 0) (argsort l)).
Definition total (l : list R) : R := fold_right Rplus 0 l.
(* the part of the mass in the cells where the density is at least, or more than, L *)
Definition share_ge (pdf mass : list R) (L : R) : R := total (map (fun q => if Rle_dec L (fst q) then snd q else 0) (combine pdf mass)) / total mass.
Definition share_gt (pdf mass : list R) (L : R) : R := total (map (fun q => if Rlt_dec L (fst q) then snd q else 0) (combine pdf mass)) / total mass.
(* the number of cells that are not empty *)
Definition occupied (mass : list R) : nat := List.length (filter (fun v => if Rlt_dec 0 v then true else false) mass).
(* the number of entries that are at least, or more than, L *)
Definition count_ge (l : list R) (L : R) : nat := List.length (filter (fun v => if Rle_dec L v then true else false) l).
Definition count_gt (l : list R) (L : R) : nat := List.length (filter (fun v => if Rlt_dec L v then true else false) l).
(* half the distance between the neighbours of a point; at the ends the missing neighbour is the point itself *)
Definition half_width (x : list R) (i : nat) : R :=
  ((if (S i <? List.length x)%nat then nth (S i) x 0 else nth i x 0) - (if (0 <? i)%nat then nth (i - 1) x 0 else nth i x 0)) / 2.
(* the trapezoidal rule *)
Fixpoint trapezoid (x f : list R) : R :=
  match x, f with a :: ((b :: _) as x'), u :: ((v :: _) as f') => (b - a) * (u + v) / 2 + trapezoid x' f' | _, _ => 0 end.
