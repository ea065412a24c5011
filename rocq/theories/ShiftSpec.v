(* arrays and cyclic shifts *)
From Verif Require Import Base ShiftModel.

(* as many elements as the shape says *)
Definition array_ok {A} (x : ndarray A) : Prop := List.length (elements x) = product (shape x).
(* an index tuple of the shape *)
Definition index_of (s idx : list nat) : Prop := Forall2 (fun i n => i < n) idx s.
(* the list shifted k places to the left, the first k entries wrapped to the end *)
Fixpoint left_shift {A} (k : nat) (l : list A) : list A := match k with O => l | S k' => match l with [] => [] | a :: l' => left_shift k' (l' ++ [a]) end end.
