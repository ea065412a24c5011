From Coq Require Import Lia.
From Verif Require Import Base ShiftModel ShiftSpec ShiftProofs.

(* C75: shiftdim permutes the axes cyclically *)

Theorem c75_shift : forall A (x : ndarray A) n, array_ok x -> exists y, shiftdim x (Some (Z.of_nat n)) = Ok y /\ array_ok y /\ shape y = left_shift n (shape x) /\ forall idx, index_of (shape x) idx -> item y (left_shift n idx) = item x idx.
Proof. exact (@shift_spec). Qed.
Print Assumptions c75_shift.

Theorem c75_undone : forall A (x : ndarray A) n y, array_ok x -> n <= List.length (shape x) -> shiftdim x (Some (Z.of_nat n)) = Ok y -> shiftdim y (Some (Z.of_nat (List.length (shape x) - n))) = Ok x.
Proof. exact (@shift_undone). Qed.
Print Assumptions c75_undone.

Theorem c75_compose : forall A (x : ndarray A) n m y, array_ok x -> shiftdim x (Some (Z.of_nat n)) = Ok y -> shiftdim y (Some (Z.of_nat m)) = shiftdim x (Some (Z.of_nat (n + m))).
Proof. exact (@shift_compose). Qed.
Print Assumptions c75_compose.

Theorem c75_period : forall A (x : ndarray A) n, shiftdim x (Some (Z.of_nat (n + List.length (shape x)))) = shiftdim x (Some (Z.of_nat n)).
Proof. exact (@shift_period). Qed.
Print Assumptions c75_period.

Theorem c75_elements : forall A (x : ndarray A) idx, array_ok x -> index_of (shape x) idx -> exists v, item x idx = Some v.
Proof. exact (@item_some). Qed.
Print Assumptions c75_elements.

Theorem c75_determined : forall A (x y : ndarray A), array_ok x -> array_ok y -> shape x = shape y -> (forall idx, index_of (shape x) idx -> item x idx = item y idx) -> x = y.
Proof. exact (@array_ext). Qed.
Print Assumptions c75_determined.

Theorem c75_pad : forall A (x : ndarray A) k, array_ok x -> k <> 0 -> shiftdim x (Some (- Z.of_nat k)%Z) = Ok (nd (repeat 1 k ++ shape x) (elements x)).
Proof. exact (@pad_ones). Qed.
Print Assumptions c75_pad.

Theorem c75_drop : forall A (x : ndarray A) k a s, array_ok x -> shape x = repeat 1 k ++ a :: s -> a <> 1 -> shiftdim x None = Ok (nd (a :: s) (elements x)).
Proof. exact (@drop_ones). Qed.
Print Assumptions c75_drop.

Theorem c75_drop_then_pad : forall A (x : ndarray A) k a s, array_ok x -> shape x = repeat 1 k ++ a :: s -> a <> 1 -> k <> 0 -> exists y, shiftdim x None = Ok y /\ shiftdim y (Some (- Z.of_nat k)%Z) = Ok x.
Proof. exact (@pad_back). Qed.
Print Assumptions c75_drop_then_pad.

Theorem c75_pad_then_drop : forall A (x : ndarray A) k a s y, array_ok x -> shape x = a :: s -> a <> 1 -> shiftdim x (Some (- Z.of_nat k)%Z) = Ok y -> k <> 0 -> shiftdim y None = Ok x.
Proof. exact (@pad_drop). Qed.
Print Assumptions c75_pad_then_drop.

(* the leading axes are not removed when every axis has length one *)

Theorem c75_singletons_refuted : forall A (x : ndarray A) k, array_ok x -> shape x = repeat 1 k -> shiftdim x None = Ok x.
Proof. exact (@drop_all). Qed.
Print Assumptions c75_singletons_refuted.

Example c75_case : let x := nd [2; 3] [1; 2; 3; 4; 5; 6] in array_ok x /\ shiftdim x (Some 1%Z) = Ok (nd [3; 2] [1; 4; 2; 5; 3; 6]) /\ index_of (shape x) [1; 2].
Proof. exact (conj eq_refl (conj eq_refl (Forall2_cons (R := fun i n => i < n) 1 2 (le_n 2) (Forall2_cons (R := fun i n => i < n) 2 3 (le_n 3) (Forall2_nil _))))). Qed.
