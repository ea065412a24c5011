(* Theorems about the parameters of waves (C160). *)
From Coq Require Import Reals List Arith ZArith String.
From Verif Require Import Base CrossModel CrossSpec EcrossModel WparModel WparSpec WparProofs3 WparCases.
Import ListNotations.
Local Open Scope R_scope.

(* wave_parameters. *)

Theorem c160_waves : forall m x t z, List.length x = List.length t -> ascending t -> findcross m x 0 (Some "tw"%string) = Ok z -> (3 <= List.length z)%nat ->
  exists w k, wave_parameters m x t = Ok w /\ (1 <= k)%nat /\ List.length z = (2 * k + 2)%nat /\
    List.length (Ac w) = k /\ List.length (At w) = S k /\ List.length (Hu w) = k /\ List.length (Hd w) = k /\ List.length (Tu w) = k /\
    List.length (Td w) = k /\ List.length (Tcf w) = k /\ List.length (Tcb w) = k /\
    forall i, (i < k)%nat -> describes x t w i (nth (2 * i) z 0%nat) (nth (2 * i + 1) z 0%nat) (nth (2 * i + 2) z 0%nat) (nth (2 * i + 3) z 0%nat).
Proof. exact (waves). Qed.
Print Assumptions c160_waves.

Theorem c160_positive : forall m x t w i, List.length x = List.length t -> ascending t -> wave_parameters m x t = Ok w -> (i < List.length (Ac w))%nat ->
  0 < nth i (Ac w) 0 /\ 0 < nth i (At w) 0 /\ 0 < nth (S i) (At w) 0 /\ 0 < nth i (Tcf w) 0 /\ 0 < nth i (Tcb w) 0 /\
  nth i (Tcf w) 0 + nth i (Tcb w) 0 < nth i (Td w) 0 /\ nth i (Tcf w) 0 + nth i (Tcb w) 0 < nth i (Tu w) 0 /\
  nth i (Hd w) 0 = nth i (Ac w) 0 + nth i (At w) 0 /\ nth i (Hu w) 0 = nth i (Ac w) 0 + nth (S i) (At w) 0.
Proof. exact (waves_positive). Qed.
Print Assumptions c160_positive.

Theorem c160_few : forall m x t z, (2 <= List.length t)%nat -> findcross m x 0 (Some "tw"%string) = Ok z -> (List.length z <= 2)%nat ->
  exists w, wave_parameters m x t = Ok w /\ nothing w.
Proof. exact (waves_few). Qed.
Print Assumptions c160_few.

Theorem c160_short : forall m x t k g, (List.length t < 2)%nat -> wave_parameters m x t = Err IndexError /\ wave_height_steepness m x t k g = Err IndexError.
Proof. exact (waves_short). Qed.
Print Assumptions c160_short.

Example c160_crossings_case : findcross Numba sea 0 (Some "tw"%string) = Ok [0; 2; 4; 6]%nat.
Proof. exact (sea_crossings). Qed.

Example c160_clock_case : ascending clock.
Proof. exact (clock_up). Qed.

Example c160_waves_case : wave_parameters Numba sea clock =
  Ok {| Ac := [3]; At := [2; 3]; Hu := [6]; Hd := [5]; Tu := [17 / 4]; Td := [17 / 4]; Tcf := [3 / 2]; Tcb := [3 / 4] |}.
Proof. exact (sea_waves). Qed.

(* wave_height_steepness. *)

Theorem c160_steepness : forall m x t w s g, List.length x = List.length t -> ascending t -> wave_parameters m x t = Ok w ->
  exists S H, wave_height_steepness m x t (Num (number s)) g = Ok (S, H) /\ List.length S = List.length (Ac w) /\ List.length H = List.length (Ac w) /\
  forall i, (i < List.length (Ac w))%nat ->
    documented s g (nth i (Ac w) 0) (nth i (Hd w) 0) (nth i (Hu w) 0) (nth i (Td w) 0) (nth i (Tu w) 0) (nth i (Tcf w) 0) (nth i (Tcb w) 0) (nth i S 0) (nth i H 0).
Proof. exact (steepness). Qed.
Print Assumptions c160_steepness.

Theorem c160_names : forall m x t s g, wave_height_steepness m x t (Name (name s)) g = wave_height_steepness m x t (Num (number s)) g.
Proof. exact (by_name). Qed.
Print Assumptions c160_names.

Theorem c160_unknown : forall m x t w g, List.length x = List.length t -> ascending t -> wave_parameters m x t = Ok w ->
  (forall k, (forall s, k <> number s) -> wave_height_steepness m x t (Num k) g = Err UnboundLocal) /\
  (forall n, (forall s, n <> name s) -> wave_height_steepness m x t (Name n) g = Err TypeError).
Proof. exact (unknown). Qed.
Print Assumptions c160_unknown.

Example c160_steepness_case : forall g, exists H, wave_height_steepness Numba sea clock (Name "Vcb"%string) g = Ok (H, [6]) /\ nth 0 H 0 = 4.
Proof. exact (sea_steep). Qed.
