(* Vocabulary for the damage of cycles. *)
From Coq Require Import Reals List ZArith.
Import ListNotations.
Local Open Scope R_scope.

(* a cycle seen from the other end, enlarged c times, moved by s *)
Definition turned (c : R * R) : R * R := (snd c, fst c).
Definition enlarged (f : R) (c : R * R) : R * R := (f * fst c, f * snd c).
Definition moved (s : R) (c : R * R) : R * R := (fst c + s, snd c + s).
Definition range (c : R * R) : R := Rabs (snd c - fst c).
(* the lists D, E and F of numbers: F is D + E *)
Inductive added : list R -> list R -> list R -> Prop :=
| added_nil : added [] [] []
| added_cons a b l1 l2 l3 : added l1 l2 l3 -> added (a :: l1) (b :: l2) ((a + b) :: l3).
(* the smaller and the larger end of a cycle of integers *)
Definition low_high (c : Z * Z) : Z * Z := (Z.min (fst c) (snd c), Z.max (fst c) (snd c)).
(* the steps from each turning point to the next *)
Fixpoint steps (l : list Z) : list (R * R) :=
  match l with
  | a :: ((b :: _) as t) => (IZR a, IZR b) :: steps t
  | _ => []
  end.
