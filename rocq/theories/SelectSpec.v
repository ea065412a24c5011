(* What the selection helpers are supposed to do *)
From Coq Require Import Permutation.
From Verif Require Import Base SelectModel.
Local Open Scope nat_scope.

(* all positions of v in l, in increasing order *)
Definition positions {A} (eqb : A -> A -> bool) (l : list A) (v : A) : list nat :=
  filter (fun i => match nth_error l i with Some a => eqb a v | None => false end) (seq 0 (List.length l)).
(* the elements of arr at the positions where the condition holds *)
Fixpoint selected {A} (cond : list bool) (arr : list A) : list A :=
  match cond, arr with b :: c, a :: r => if b then a :: selected c r else selected c r | _, _ => [] end.
(* ind is a possible result of argsort: all positions, in ascending order of value *)
Definition is_argsort (arr : list Z) (ind : list nat) : Prop :=
  Permutation ind (seq 0 (List.length arr)) /\
  forall i j, i < j -> j < List.length ind -> (nth (nth i ind 0%nat) arr 0%Z <= nth (nth j ind 0%nat) arr 0%Z)%Z.
(* k is the last condition that holds at element i *)
Definition last_true (conds : list (list bool)) (i k : nat) : Prop :=
  nth i (nth k conds []) false = true /\ forall k', k < k' -> nth i (nth k' conds []) false = false.
Definition none_true (conds : list (list bool)) (i : nat) : Prop := forall k, nth i (nth k conds []) false = false.
(* e is the argument a broadcast to n elements *)
Definition broadcasts {A} (n : nat) (a e : list A) : Prop :=
  (List.length a = n /\ e = a) \/ exists v, a = [v] /\ e = repeat v n.
(* the branch computes g at each element *)
Definition branch_value {A B} (f : branch A B) (g : A -> B) : Prop :=
  match f with Fun h => forall l, h l = map g l | Const v => forall x, g x = v end.
(* numbers counted in halves: what storing one into an integer array makes of it *)
Definition cast_halves (h : Z) : Z := (2 * Z.quot h 2)%Z.
