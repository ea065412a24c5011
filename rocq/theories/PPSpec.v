(* What a piecewise polynomial is *)
From Coq Require Import Reals Sorted.
From Verif Require Import Base PolySpec.
Local Open Scope R_scope.

(* one column of coefficients per interval between consecutive, increasing breaks *)
Definition well_formed (cs : list (list R)) (bs : list R) : Prop :=
  StronglySorted Rlt bs /\ List.length bs = S (List.length cs) /\ cs <> [] /\ Forall (fun c => c <> []) cs.

(* the point lies strictly inside interval i *)
Definition in_piece (bs : list R) (i : nat) (x : R) : Prop := nth i bs 0 < x < nth (S i) bs 0.
Definition between_breaks (bs : list R) (x : R) : Prop := hd 0 bs <= x <= last bs 0.
