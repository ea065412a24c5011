(* Theorems about common shapes, positions and labels in multiples of pi (C159). *)
From Coq Require Import List Arith ZArith String Permutation.
From Verif Require Import Base BcastModel BcastSpec BcastProofs BcastProofs2 BcastProofs3.
Import ListNotations.

(* common_shape. *)

Theorem c159_common : forall shapes shape t, common_shape shapes shape = Ok t ->
  (forall s, In s shapes -> fits s t) /\ (forall s, shape = Some s -> fits s t) /\
  forall u, (forall s, In s shapes -> fits s u) -> (forall s, shape = Some s -> fits s u) -> fits t u.
Proof. exact (common_least). Qed.
Print Assumptions c159_common.

Theorem c159_conform : forall shapes shape, (exists u, (forall s, In s shapes -> fits s u) /\ forall s, shape = Some s -> fits s u) -> exists t, common_shape shapes shape = Ok t.
Proof. exact (common_exists). Qed.
Print Assumptions c159_conform.

Theorem c159_error : forall shapes shape, ~ (exists u, (forall s, In s shapes -> fits s u) /\ forall s, shape = Some s -> fits s u) -> common_shape shapes shape = Err ValueError.
Proof. exact (common_error). Qed.
Print Assumptions c159_error.

Theorem c159_order : forall shapes shapes' shape, Permutation shapes shapes' -> common_shape shapes shape = common_shape shapes' shape.
Proof. exact (common_order). Qed.
Print Assumptions c159_order.

Example c159_shapes_case : common_shape [[4; 1]; []; [1; 5]]%nat (Some [3; 4; 1]%nat) = Ok [3; 4; 5]%nat /\ common_shape [[4]; [5]]%nat None = Err ValueError /\ common_shape [[0]; [1]; []]%nat None = Ok [0]%nat.
Proof. exact (shapes_case). Qed.

(* args_flat. *)

Theorem c159_three : forall {A : Type} (d0 : A) (x y z : array A), well_formed x -> well_formed y -> well_formed z ->
  match common_shape [shape_of x; shape_of y; shape_of z] None with
  | Err e => args_flat [x; y; z] = Err e
  | Ok t => exists pos, args_flat [x; y; z] = Ok (pos, Some t) /\ List.length pos = size t /\
      forall idx, inside t idx -> nth (place t idx) pos (d0, d0, d0) = (element d0 x idx, element d0 y idx, element d0 z idx)
  end.
Proof. exact (@flat_three). Qed.
Print Assumptions c159_three.

Theorem c159_rows : forall t k, (k < size t)%nat -> exists idx, inside t idx /\ place t idx = k.
Proof. exact (place_onto). Qed.
Print Assumptions c159_rows.

Theorem c159_one : forall {A : Type} (d0 : A) (p : array A), well_formed p ->
  (forall n, shape_of p = [n; 3%nat] -> exists pos, args_flat [p] = Ok (pos, None) /\ List.length pos = n /\
     forall k, (k < n)%nat -> nth k pos (d0, d0, d0) = (nth (3 * k) (data_of p) d0, nth (3 * k + 1) (data_of p) d0, nth (3 * k + 2) (data_of p) d0)) /\
  (forall a b c, p = Arr [3%nat] [a; b; c] -> args_flat [p] = Ok ([(a, b, c)], None)) /\
  ((forall n, shape_of p <> [n; 3%nat]) -> shape_of p <> [3%nat] -> args_flat [p] = Err ValueError).
Proof. exact (@flat_one). Qed.
Print Assumptions c159_one.

Theorem c159_number : forall {A : Type} (args : list (array A)), List.length args <> 1%nat -> List.length args <> 3%nat -> args_flat args = Err ValueError.
Proof. exact (@flat_number). Qed.
Print Assumptions c159_number.

Example c159_flat_case : args_flat [Arr [3%nat] [1%Z; 2%Z; 3%Z]; Arr [] [2%Z]; Arr [1%nat] [3%Z]] = Ok ([(1, 2, 3); (2, 2, 3); (3, 2, 3)]%Z, Some [3%nat]) /\ args_flat [Arr [2; 1]%nat [1%Z; 2%Z]; Arr [2]%nat [5%Z; 6%Z]; Arr [] [9%Z]] = Ok ([(1, 5, 9); (1, 6, 9); (2, 5, 9); (2, 6, 9)]%Z, Some [2; 2]%nat).
Proof. exact (flat_case). Qed.

(* num2pistr. *)

Theorem c159_pi : forall num den other nmax dmax, (0 < den < dmax)%Z -> (num < nmax)%Z -> num <> 0%Z -> pi_text (num2pistr num den other nmax dmax) num den.
Proof. exact (pi_fraction). Qed.
Print Assumptions c159_pi.

Theorem c159_unique : forall txt n d n' d', pi_text txt n d -> pi_text txt n' d' -> n = n' /\ d = d'.
Proof. exact (pi_unique). Qed.
Print Assumptions c159_unique.

Theorem c159_other : forall num den other nmax dmax, (dmax <= den)%Z \/ (nmax <= num)%Z \/ num = 0%Z -> num2pistr num den other nmax dmax = other.
Proof. exact (pi_other). Qed.
Print Assumptions c159_other.

Theorem c159_sign_refuted : ~ (forall num den other, (0 < den)%Z -> (10 <= Z.abs num)%Z -> num2pistr num den other 10 10 = other).
Proof. exact (pi_sign). Qed.
Print Assumptions c159_sign_refuted.

Local Open Scope string_scope.
Example c159_pi_case : num2pistr 3 4 "" 10 10 = "3\pi/4" /\ num2pistr (-1) 4 "" 10 10 = "-\pi/4" /\ num2pistr (-1) 1 "" 10 10 = "-\pi" /\ num2pistr (-25) 1 "-78.5" 10 10 = "-25\pi" /\ num2pistr 25 1 "78.5" 10 10 = "78.5".
Proof. exact (pi_case). Qed.
