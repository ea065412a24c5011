(* What accum and gridcount are supposed to compute *)
From Coq Require Import Reals.
From Verif Require Import Base.
Local Open Scope R_scope.

Definition sumR (l : list R) : R := fold_right Rplus 0 l.
(* the index ix, whose entries may be negative and then count from the end, denotes the cell s of an array of the given shape *)
Inductive denotes : list nat -> list Z -> list nat -> Prop :=
| denotes_nil : denotes [] [] []
| denotes_cons k shape i ix s cell : (- Z.of_nat k <= i < Z.of_nat k)%Z -> (Z.of_nat s = i mod Z.of_nat k)%Z -> denotes shape ix cell ->
    denotes (k :: shape) (i :: ix) (s :: cell).
(* position of a cell in row-major order *)
Fixpoint position (shape cell : list nat) : nat :=
  match shape, cell with _ :: shape', s :: cell' => s * fold_right Nat.mul 1%nat shape' + position shape' cell' | _, _ => 0 end.
(* in the order of the data, l are the entries of a whose index denotes the cell *)
Inductive group {A} (shape cell : list nat) : list (list Z) -> list A -> list A -> Prop :=
| group_nil : group shape cell [] [] []
| group_in ix accmap v a l : denotes shape ix cell -> group shape cell accmap a l -> group shape cell (ix :: accmap) (v :: a) (v :: l)
| group_out ix accmap v a l : ~ denotes shape ix cell -> group shape cell accmap a l -> group shape cell (ix :: accmap) (v :: a) l.

(* the share of an observation at v that a node at distance t steps receives *)
Definition tent (t : R) : R := Rmax 0 (1 - Rabs t).
(* a grid: lowest node and step in every dimension, with n nodes each *)
Definition node (g : R * R) (i : nat) : R := fst g + INR i * snd g.
Definition nodes (n : nat) (g : list (R * R)) : list (list R) := map (fun q => map (node q) (seq 0 n)) g.
(* share of the point p received by the node with indices idx *)
Fixpoint share (g : list (R * R)) (p : list R) (idx : list nat) : R :=
  match g, p, idx with q :: g', v :: p', i :: idx' => tent ((v - node q i) / snd q) * share g' p' idx' | _, _, _ => 1 end.
(* inside the grid, the upper edges excluded *)
Definition inside (n : nat) (g : list (R * R)) (p : list R) : Prop := Forall2 (fun q v => node q 0 <= v < node q (n - 1)) g p.
(* sum over all nodes of a grid with d dimensions *)
Fixpoint grid_sum (d n : nat) (f : list nat -> R) : R :=
  match d with O => f [] | S d' => sumR (map (fun i => grid_sum d' n (fun idx => f (i :: idx))) (seq 0 n)) end.
(* product of functions that are linear in one coordinate each *)
Fixpoint multilinear (ab : list (R * R)) (p : list R) : R := match ab, p with c :: ab', v :: p' => (fst c + snd c * v) * multilinear ab' p' | _, _ => 1 end.
Fixpoint coordinates (g : list (R * R)) (idx : list nat) : list R := match g, idx with q :: g', i :: idx' => node q i :: coordinates g' idx' | _, _ => [] end.
(* the result is indexed like meshgrid: the second coordinate first *)
Definition meshgrid_order (idx : list nat) : list nat := match idx with i0 :: i1 :: r => i1 :: i0 :: r | _ => idx end.
