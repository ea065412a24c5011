(* The transforms of arrays of dctpack.py *)
From Coq Require Import Reals ZArith List Bool.
From Verif Require Import Base OrthoModel ShiftModel ShiftSpec DctnModel DctnSpec DctnProofs DctnProofs2 DctnProofs3 DctnCases.
Import ListNotations.
Local Open Scope R_scope.

(* C129: the transform of an array is the separable sum over the asked axes; idctn undoes dctn *)

Theorem c129_formula : forall C x axes, array_ok x -> shape x <> [] -> good_axes (List.length (shape x)) axes -> (forall d, (d < List.length (shape x))%nat -> listed axes d = true -> (1 <= nth d (shape x) 0)%nat) ->
  exists y, transformn C x None axes = Ok y /\ array_ok y /\ shape y = shape x /\ forall idx, index_of (shape x) idx -> item y idx = Some (transformed C (listed axes) 0 (shape x) idx (entry x)).
Proof. exact (keep_formula). Qed.
Print Assumptions c129_formula.

Theorem c129_shape : forall C x n, array_ok x -> shape x <> [] -> List.length n = List.length (shape x) -> Forall (fun v => (1 <= v)%nat) n ->
  exists y, transformn C x (Some n) None = Ok y /\ array_ok y /\ shape y = n /\ forall idx, index_of n idx -> item y idx = Some (transformed C (fun _ => true) 0 n idx (entry x)).
Proof. exact (shape_formula). Qed.
Print Assumptions c129_shape.

Theorem c129_both : forall C x n axes, array_ok x -> shape x <> [] -> Forall (fun v => 0 <= v < Z.of_nat (List.length (shape x)))%Z axes -> NoDup axes -> List.length n = List.length axes -> Forall (fun v => (1 <= v)%nat) n ->
  exists y, transformn C x (Some n) (Some axes) = Ok y /\ array_ok y /\ List.length (shape y) = List.length (shape x) /\ (forall i, (i < List.length axes)%nat -> nth (Z.to_nat (nth i axes 0%Z)) (shape y) 0%nat = nth i n 0%nat) /\
    (forall d, (d < List.length (shape x))%nat -> ~ In (Z.of_nat d) axes -> nth d (shape y) 0%nat = nth d (shape x) 0%nat) /\
    forall idx, index_of (shape y) idx -> item y idx = Some (transformed C (listed (Some axes)) 0 (shape y) idx (entry x)).
Proof. exact (both_formula). Qed.
Print Assumptions c129_both.

Example c129_formula_case : exists y, dctn Two false sample None None = Ok y /\ item y [0%nat; 0%nat] = Some 32 /\ item y [0%nat; 1%nat] = Some (8 * (3 * cos (PI / 4) + 5 * cos (3 * (PI / 4))) / 2).
Proof. exact (sample_dct). Qed.

Example c129_both_case : List.length [4%nat] = List.length [1%Z] /\ NoDup [1%Z] /\ Forall (fun v => (0 <= v < Z.of_nat (List.length (shape sample)))%Z) [1%Z] /\ Forall (fun v => (1 <= v)%nat) [4%nat] /\ entry sample [0%nat; 3%nat] = 0 /\ entry sample [0%nat; 1%nat] = 5.
Proof. exact (sample_pad). Qed.

Theorem c129_inverse : forall t x axes, array_ok x -> shape x <> [] -> good_axes (List.length (shape x)) axes -> Forall (fun v => (1 <= v)%nat) (shape x) ->
  exists y, dctn t true x None axes = Ok y /\ idctn t true y None axes = Ok x.
Proof. exact (dctn_inverse). Qed.
Print Assumptions c129_inverse.

Theorem c129_unscaled : forall t x axes, array_ok x -> shape x <> [] -> good_axes (List.length (shape x)) axes -> Forall (fun v => (1 <= v)%nat) (shape x) ->
  exists y z, dctn t false x None axes = Ok y /\ idctn t false y None axes = Ok z /\ array_ok z /\ shape z = shape x /\ forall idx, index_of (shape x) idx -> item z idx = Some (factor (fun n => 2 * INR n) (listed axes) 0 (shape x) * entry x idx).
Proof. exact (dctn_unscaled). Qed.
Print Assumptions c129_unscaled.

Theorem c129_padded : forall t x n, array_ok x -> shape x <> [] -> List.length n = List.length (shape x) -> Forall (fun v => (1 <= v)%nat) n ->
  exists y z, dctn t true x (Some n) None = Ok y /\ idctn t true y None None = Ok z /\ array_ok z /\ shape z = n /\ forall idx, index_of n idx -> item z idx = Some (entry x idx).
Proof. exact (dctn_padded). Qed.
Print Assumptions c129_padded.

Theorem c129_energy : forall t x axes, array_ok x -> shape x <> [] -> good_axes (List.length (shape x)) axes -> Forall (fun v => (1 <= v)%nat) (shape x) ->
  exists y, dctn t true x None axes = Ok y /\ energy y = energy x.
Proof. exact (dctn_energy). Qed.
Print Assumptions c129_energy.

Example c129_inverse_case : array_ok sample /\ shape sample <> [] /\ good_axes 2 (Some [1%Z]) /\ good_axes 2 None /\ Forall (fun v => (1 <= v)%nat) (shape sample).
Proof. exact (sample_ok). Qed.

(* a pair of row transforms that undo each other, such as scipy's dst and idst with norm='ortho', gives a pair of array transforms that do *)

Theorem c129_any_pair : forall D C x axes, undoes (fun _ => 1) D C -> array_ok x -> shape x <> [] -> good_axes (List.length (shape x)) axes -> Forall (fun v => (1 <= v)%nat) (shape x) ->
  exists y, transformn C x None axes = Ok y /\ transformn D y None axes = Ok x.
Proof. exact (undo_one). Qed.
Print Assumptions c129_any_pair.

Theorem c129_zero_length : forall C x n, shape x <> [] -> List.length n = List.length (shape x) -> In 0%nat n -> transformn C x (Some n) None = Err ValueError.
Proof. exact (length_zero). Qed.
Print Assumptions c129_zero_length.

Theorem c129_wrong_count : forall C x n axes, shape x <> [] -> List.length n <> List.length (axes_list (List.length (shape x)) axes) -> transformn C x (Some n) axes = Err ValueError.
Proof. exact (wrong_count). Qed.
Print Assumptions c129_wrong_count.

Theorem c129_axis_outside : forall C x axes, shape x <> [] -> (exists v, In v axes /\ (v < - Z.of_nat (List.length (shape x)) \/ Z.of_nat (List.length (shape x)) <= v)%Z) -> transformn C x None (Some axes) = Err IndexError.
Proof. exact (axis_outside). Qed.
Print Assumptions c129_axis_outside.

(* axes counted from the end are accepted and ignored *)

Theorem c129_negative_axes_refuted : forall C x axes, array_ok x -> shape x <> [] -> Forall (fun v => - Z.of_nat (List.length (shape x)) <= v < 0)%Z axes -> transformn C x None (Some axes) = Ok x.
Proof. exact (negative_axes). Qed.
Print Assumptions c129_negative_axes_refuted.

Example c129_negative_axes_case : Forall (fun v => (- Z.of_nat (List.length (shape sample)) <= v < 0)%Z) [(-1)%Z; (-2)%Z] /\ exists y, dctn Two false sample None None = Ok y /\ y <> sample.
Proof. exact (sample_negative). Qed.

Example c129_scalar_case : dctn Two false (nd [] [7]) None None = Ok (nd [1%nat] [14]).
Proof. exact (sample_scalar). Qed.

(* with the factor sqrt(1/N) of the documentation type 3 would not be the inverse of type 2 *)

Theorem c129_documented_refuted : forall n i, (2 <= n)%nat -> (i < n)%nat -> vsum n (fun k => dct3_documented n i k * dct2 true n k i) < 1.
Proof. exact (documented). Qed.
Print Assumptions c129_documented_refuted.

Example c129_any_pair_case : forall t, undoes (fun _ => 1) (idct t true) (dct t true).
Proof. exact (undoes_ortho). Qed.
