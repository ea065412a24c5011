(* Theorems about level crossing spectra (C141). *)
From Coq Require Import Reals List ZArith String.
From Verif Require Import Base PolyModel ProcModel ProcSpec LcxModel LcxSpec LcxProofs LcxProofs2 LcxCases.
Import ListNotations.
Local Open Scope R_scope.
Local Open Scope string_scope.

(* The spectrum of a normal process, with its mean among at least 22 levels, gives its mean and standard deviation and is its own child. *)

Theorem c141_normal : forall polyfit c m s a i, least_squares polyfit -> 0 < c -> 0 < s -> increasingR a -> (22 <= List.length a)%nat -> (i < List.length a)%nat -> nth i a 0 = m -> init polyfit (map (rice c m s) a) a None None = Ok (Some m, Some s, Some (map (rice c m s) a)).
Proof. exact (init_exact). Qed.
Print Assumptions c141_normal.

Theorem c141_given : forall polyfit data args m s, data <> [] -> s <> 0 -> exists k, (k < List.length data)%nat /\ (forall j, (j < List.length data)%nat -> nth j data 0 <= nth k data 0) /\
  init polyfit data args (Some m) (Some s) = Ok (Some m, Some s, Some (map (rice (nth k data 0) m s) args)).
Proof. exact (init_given). Qed.
Print Assumptions c141_given.

(* At most 20 levels: TypeError. *)

Theorem c141_few : forall polyfit data args mean sigma, data <> [] -> (List.length args <= 20)%nat -> mean = None \/ sigma = None -> init polyfit data args mean sigma = Err TypeError.
Proof. exact (init_few). Qed.
Print Assumptions c141_few.

Theorem c141_unknown : forall fit dist data args umin umax, ~ known dist -> (forall d, In d data -> 0 <= d) -> increasingR args -> List.length data = List.length args -> (exists k, (k < List.length args)%nat /\ umax < nth k args 0) -> extrapolate fit dist data args (Some umin) (Some umax) = Err NotImplementedError.
Proof. exact (extrapolate_unknown). Qed.
Print Assumptions c141_unknown.

(* The mean half way between two levels: division by zero. *)

Theorem c141_between_levels_refuted : forall polyfit c s, least_squares polyfit -> 0 < c -> 0 < s -> init polyfit (map (rice c 0 s) half_levels) half_levels None None = Ok (None, None, None).
Proof. exact (init_between). Qed.
Print Assumptions c141_between_levels_refuted.

(* Extrapolation: 401 levels with steps 1/100 below umin, the counts between the limits, and 401 levels above umax. *)

Theorem c141_extrapolate : forall fit dist data args umin umax, known dist -> increasingR args -> List.length data = List.length args -> (forall d, In d data -> 0 <= d) -> umin < umax ->
  (exists k, (k < List.length args)%nat /\ nth k args 0 < umin) -> (exists k, (k < List.length args)%nat /\ umax < nth k args 0) ->
  exists low high ylow yhigh, interpolated args data umin ylow /\ interpolated args data umax yhigh /\ exceedances args data umax high /\ exceedances (mirror args) (rev data) (- umin) low /\
    let mid := filter (fun ft => if Rlt_dec umin (snd ft) then (if Rlt_dec (snd ft) umax then true else false) else false) (combine data args) in
    let levels := (map (fun k => umin - INR k / 100) (rev (seq 0 401)) ++ map snd mid ++ map (fun k => umax + INR k / 100) (seq 0 401))%list in
    increasingR levels /\
    extrapolate fit dist data args (Some umin) (Some umax) =
      Ok ((map (fun k => (ylow + 1) * fit low (INR k / 100)) (rev (seq 0 401)) ++ map fst mid ++ map (fun k => (yhigh + 1) * fit high (INR k / 100)) (seq 0 401))%list, levels).
Proof. exact (extrapolate_ok). Qed.
Print Assumptions c141_extrapolate.

Theorem c141_default : forall fit dist data args a b, common data args <> [] -> first_of (common data args) = Some a -> last_of (common data args) = Some b -> extrapolate fit dist data args None None = extrapolate fit dist data args (Some a) (Some b).
Proof. exact (extrapolate_default). Qed.
Print Assumptions c141_default.

(* Counts of at most 1, as of a normalised spectrum, have no default limits. *)

Theorem c141_intensity_refuted : forall fit dist data args umax, data <> [] -> (forall d, In d data -> 0 <= d <= 1) -> extrapolate fit dist data args None umax = Err ValueError.
Proof. exact (extrapolate_small). Qed.
Print Assumptions c141_intensity_refuted.

Theorem c141_beyond : forall fit dist data args umin umax, data <> [] -> List.length data = List.length args -> (forall v, In v args -> v <= umax) -> extrapolate fit dist data args (Some umin) (Some umax) = Err IndexError.
Proof. exact (extrapolate_beyond). Qed.
Print Assumptions c141_beyond.

Example c141_normal_case : least_squares line /\ 0 < 100 /\ 0 < 3 /\ increasingR whole_levels /\ (22 <= List.length whole_levels)%nat /\ (11 < List.length whole_levels)%nat /\ nth 11 whole_levels 0 = 0.
Proof. exact (exact_case). Qed.

Example c141_extrapolate_case : let data := [1; 3; 9; 4; 2] in let args := [0; 1; 2; 3; 4] in known "expon" /\ increasingR args /\ List.length data = List.length args /\ (forall d, In d data -> 0 <= d) /\ 1 / 2 < 5 / 2 /\
  (exists k, (k < List.length args)%nat /\ nth k args 0 < 1 / 2) /\ (exists k, (k < List.length args)%nat /\ 5 / 2 < nth k args 0) /\ common data args = [2; 3].
Proof. exact (tail_case). Qed.

Example c141_sample_case : exceedances [0; 1; 2; 3; 4] [1; 3; 9; 4; 2] (5 / 2) [3 / 2; 3 / 2; 1 / 2; 1 / 2].
Proof. exact (sample_case). Qed.
