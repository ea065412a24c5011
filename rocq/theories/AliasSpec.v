(* Which arguments are changed. *)
From Coq Require Import Reals List.
From Verif Require Import Base AliasModel.
Import ListNotations.
Local Open Scope R_scope.

Definition in_order (x : list R) : Prop := forall i j, (i <= j < List.length x)%nat -> nth i x 0 <= nth j x 0.
Definition total (r : list R) : R := fold_right Rplus 0 r.
(* the observations after those with the given numbers are taken as missing *)
Definition missing_at (l : list nat) (x y : list (option R)) : Prop :=
  List.length y = List.length x /\ forall i, (In i l -> (i < List.length x)%nat -> nth i y (Some 0) = None) /\ (~ In i l -> nth i y (Some 0) = nth i x (Some 0)).
