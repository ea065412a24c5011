(* What the Chebyshev functions of several variables promise (documentation of src/wafo/polynomial.py). *)
From Coq Require Import Reals List.
From Verif Require Import OrthoModel ChebSpec ChndModel.
Import ListNotations.
Local Open Scope R_scope.

(* the sum over all multi-indices below the dimensions *)
Fixpoint multi_sum (dims : list nat) (g : list nat -> R) : R :=
  match dims with [] => g [] | n :: d => vsum n (fun i => multi_sum d (fun idx => g (i :: idx))) end.
(* T_i(x1) T_j(x2) ... *)
Fixpoint cheb_prod (idx : list nat) (pt : list R) : R :=
  match idx, pt with i :: idx', x :: pt' => chebT i x * cheb_prod idx' pt' | _, _ => 1 end.
(* sum of c_ij.. T_i(x1) T_j(x2) ...; [e] are the remaining indices, for several sets of coefficients *)
Definition cheb_series (dims : list nat) (c : tensor) (e : list nat) (pt : list R) : R :=
  multi_sum dims (fun idx => get c (idx ++ e) * cheb_prod idx pt).
(* the entries of an array in the order of its memory: the last index runs fastest *)
Fixpoint indices (dims : list nat) : list (list nat) :=
  match dims with [] => [[]] | n :: d => flat_map (fun i => map (cons i) (indices d)) (seq 0 n) end.
Definition flat (c : tensor) : list R := map (get c) (indices (shape c)).
Definition dot (u v : list R) : R := vsum (List.length u) (fun k => nth k u 0 * nth k v 0).
(* the p'th point of vectors of coordinates *)
Definition point (xs : list (list R)) (p : nat) : list R := map (fun x => nth p x 0) xs.
(* the point of a grid *)
Fixpoint grid_point (xs : list (list R)) (ps : list nat) : list R :=
  match xs, ps with x :: xs', p :: ps' => nth p x 0 :: grid_point xs' ps' | _, _ => [] end.
(* the least squares routine solves a square system with one unknown *)
Definition solves_one (lstsq : list (list R) -> list R -> list R) : Prop := forall a b, a <> 0 -> lstsq [[a]] [b] = [b / a].
(* the first coordinate, then the third and the following ones, then the second *)
Definition rotate {A} (l : list A) : list A := match l with x1 :: x2 :: xs => x1 :: xs ++ [x2] | _ => l end.
(* a point of [-1, 1] x [-1, 1] x ... moved to the domain *)
Fixpoint image (dom : list (R * R)) (pt : list R) : list R :=
  match dom, pt with d :: dom', x :: pt' => (x * (snd d - fst d) + (snd d + fst d)) / 2 :: image dom' pt' | _, _ => [] end.
(* the routine solves the square systems with the matrix a *)
Definition solves (lstsq : list (list R) -> list R -> list R) (a : list (list R)) : Prop :=
  forall b, List.length b = List.length a -> List.length (lstsq a b) = List.length a /\ forall i, (i < List.length a)%nat -> dot (nth i a []) (lstsq a b) = nth i b 0.
(* the columns divided by the entries of a vector *)
Definition divided (V : list (list R)) (z : list R) : list (list R) := map (fun r => map (fun p => fst p / snd p) (combine r z)) V.
