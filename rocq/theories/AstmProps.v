(* Property theorems C15 - C17.  Vocabulary: AstmSpec.v. *)
From Verif Require Import Base CrossSpec AstmModel AstmSpec AstmProofs.
Local Open Scope Z_scope.

(* ---- C15 ------------------------------------------------------------------- *)
Theorem c15_astm_conserves_crossings : forall tp up, zigzag up tp ->
  exists cells, findrfc_astm3 tp = Ok cells /\
    forall u, crossings u tp = total (row_crossings u) cells.
Proof. exact astm3_conserves. Qed.
Print Assumptions c15_astm_conserves_crossings.

(* finding: when two neighbouring points are equal a whole cycle can disappear *)
Theorem c15_repeated_values_refuted : exists tp cells u, findrfc_astm3 tp = Ok cells /\
  crossings u tp = 2%nat /\ total (row_crossings u) cells = 0%nat.
Proof. exact astm3_repeated_lost. Qed.
Print Assumptions c15_repeated_values_refuted.

Example c15_case : zigzag true [-2; 1; -3; 5; -1; 3; -4; 4; -2] /\
  crossings 1 [-2; 1; -3; 5; -1; 3; -4; 4; -2] = 8%nat.
Proof. split; [simpl; lia|reflexivity]. Qed.

(* ---- C16 ------------------------------------------------------------------- *)
Theorem c16_astm_rows_exact : forall tp up, zigzag up tp ->
  exists rows, findrfc_astm3 tp = Ok (map Counted3 rows) /\
    (forall r, In r rows -> 0 < r_range r).
Proof. exact astm3_total. Qed.
Print Assumptions c16_astm_rows_exact.

(* finding: repeated values leave all-zero rows in the result *)
Theorem c16_repeated_values_refuted : exists tp cells,
  findrfc_astm3 tp = Ok cells /\ In Zero3 cells.
Proof. exact astm3_repeated. Qed.
Print Assumptions c16_repeated_values_refuted.

(* the example of the ASTM standard *)
Example c16_case : findrfc_astm3 [-2; 1; -3; 5; -1; 3; -4; 4; -2] =
  Ok (map Counted3 [Row3 3 (-1) false; Row3 4 (-2) false; Row3 4 2 true; Row3 8 2 false;
                    Row3 9 1 false; Row3 8 0 false; Row3 6 2 false]).
Proof. reflexivity. Qed.

(* ---- C17 ------------------------------------------------------------------- *)
Theorem c17_times_do_not_matter : forall tp t, length t = length tp ->
  match findrfc_astm5 tp t with Ok c => Ok (map drop_times c) | Err e => Err e end
  = findrfc_astm3 tp.
Proof. exact astm35. Qed.
Print Assumptions c17_times_do_not_matter.

Theorem c17_rows_are_input_pairs : forall tp t cells, length t = length tp ->
  findrfc_astm5 tp t = Ok cells -> forall r, In (Counted5 r) cells -> RowOk tp t r.
Proof. exact astm5_rows. Qed.
Print Assumptions c17_rows_are_input_pairs.

Example c17_case : findrfc_astm5 [-2; 1; -3; 5; -1; 3; -4] [0; 10; 20; 35; 50; 60; 70] =
  Ok (map Counted5 [Row5 3 (-1) false 0 10; Row5 4 (-2) false 10 10; Row5 4 2 true 50 10;
                    Row5 8 2 false 20 15; Row5 9 1 false 35 35]).
Proof. reflexivity. Qed.
