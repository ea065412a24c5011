(* Theorems about profile likelihoods and their confidence intervals (C149). *)
From Coq Require Import Reals ZArith List Bool String.
From Verif Require Import Base CrossModel EcrossModel KdeModel ProfModel ProfSpec ProfProofs ProfProofs2 ProfProofs3 ProfProofs4.
Import ListNotations.
Local Open Scope R_scope.

(* Bounds of a profile with one hill: points above the level are inside, points below it are outside. *)

Theorem c149_bounds : forall m chi2isf p alpha k lo hi, sound p k lo hi -> profile_max p - 1 / 2 * chi2isf alpha < nth k (data p) 0 ->
  exists a b, get_bounds m chi2isf p alpha = Ok (Some a, Some b) /\ lo <= a /\ b <= hi /\ forall i, (i < List.length (args p))%nat ->
    (profile_max p - 1 / 2 * chi2isf alpha < nth i (data p) 0 -> a <= nth i (args p) 0 <= b) /\ (nth i (data p) 0 < profile_max p - 1 / 2 * chi2isf alpha -> nth i (args p) 0 < a \/ b < nth i (args p) 0).
Proof. exact (bounds_exact). Qed.
Print Assumptions c149_bounds.

(* A higher confidence gives a wider interval. *)

Theorem c149_nested : forall m chi2isf p alpha alpha' k lo hi a b a' b', sound p k lo hi -> profile_max p - 1 / 2 * chi2isf alpha < nth k (data p) 0 -> chi2isf alpha <= chi2isf alpha' ->
  get_bounds m chi2isf p alpha = Ok (Some a, Some b) -> get_bounds m chi2isf p alpha' = Ok (Some a', Some b') -> a' <= a /\ b <= b'.
Proof. exact (bounds_nested). Qed.
Print Assumptions c149_nested.

(* From the profile function to the bounds, on the whole grid. *)

Theorem c149_interval : forall m prof chi2isf alpha0 alpha p_opt pvec lo hi, ascends pvec -> In p_opt pvec -> (forall p, In p pvec -> lo <= p <= hi) -> hill_function prof p_opt -> 0 < chi2isf alpha <= chi2isf alpha0 ->
  exists pts, get_profile prof (1 / 2 * chi2isf alpha0) p_opt pvec = Ok pts /\
  exists a b, get_bounds m chi2isf (Profile (map fst pts) (map snd pts) (prof p_opt) (Some lo) (Some hi)) alpha = Ok (Some a, Some b) /\ lo <= a <= p_opt /\ p_opt <= b <= hi /\
  forall x, In x pvec -> (prof p_opt - 1 / 2 * chi2isf alpha < prof x -> a <= x <= b) /\ (prof x < prof p_opt - 1 / 2 * chi2isf alpha -> x < a \/ b < x).
Proof. exact (interval). Qed.
Print Assumptions c149_interval.

Theorem c149_piece : forall prof alpha_range p_opt pvec, ascends pvec -> In p_opt pvec -> exists pre B A post,
  pvec = pre ++ B ++ p_opt :: A ++ post /\ get_profile prof alpha_range p_opt pvec = Ok (map (fun p => (p, prof p)) (B ++ p_opt :: A)) /\
  (pre <> [] -> exists q B', B = q :: B' /\ prof q < prof p_opt - alpha_range) /\ (post <> [] -> exists A' q, A = A' ++ [q] /\ prof q < prof p_opt - alpha_range).
Proof. exact (profile_piece). Qed.
Print Assumptions c149_piece.

(* The grid of the profile. *)

Theorem c149_grid : forall n p_opt pmin pmax, (4 <= n)%nat -> pmin <= p_opt <= pmax -> let pvec := adaptive_pvec n p_opt pmin pmax in
  ascends pvec /\ In pmin pvec /\ In p_opt pvec /\ In pmax pvec /\ forall p, In p pvec -> pmin <= p <= pmax.
Proof. exact (grid_points). Qed.
Print Assumptions c149_grid.

Theorem c149_points_refuted : (List.length (adaptive_pvec 4 0 (-5) 5) > 4)%nat.
Proof. exact (too_many). Qed.
Print Assumptions c149_points_refuted.

(* The search for the ends of the grid, and the maximum of the profile. *)

Theorem c149_search : forall prof d range st p0 p_opt sign r conv st', 0 <= d -> sign = 1 \/ sign = -1 -> 0 < sign * (p0 - p_opt) -> search_p_min_max prof d range st p0 p_opt sign = (r, conv, st') ->
  0 < sign * (r - p_opt) /\ snd st' - snd st = fst st' - fst st /\ fst st <= fst st' /\ (conv = true -> prof r < snd st').
Proof. exact (search_main). Qed.
Print Assumptions c149_search.

Theorem c149_maximum : forall d, 0 <= d -> forall vals pm lv pm' lv', fold_left (correct d) vals (pm, lv) = (pm', lv') ->
  pm <= pm' /\ lv' - lv = pm' - pm /\ (forall v, In v vals -> v <= pm' + d) /\ (pm' = pm \/ In pm' vals).
Proof. exact (corrected). Qed.
Print Assumptions c149_maximum.

(* Which parameter is profiled. *)

Theorem c149_index : forall pf npar i, (free pf npar i -> exists l, set_indexes pf npar (Some i) = Ok (i, l) /\ forall j, In j l <-> free pf npar j /\ j <> i) /\ (~ free pf npar i -> set_indexes pf npar (Some i) = Err IndexError).
Proof. exact (index_given). Qed.
Print Assumptions c149_index.

Theorem c149_default_index : forall pf npar, match pf with
  | None => (0 < npar)%nat -> exists l, set_indexes None npar None = Ok (0%nat, l)
  | Some par_fix => (forall i, last_position (fun o => o = None) par_fix i -> exists l, set_indexes (Some par_fix) npar None = Ok (i, l)) /\
      ((forall o, In o par_fix -> o <> None) -> set_indexes (Some par_fix) npar None = Err IndexError)
  end.
Proof. exact (index_default). Qed.
Print Assumptions c149_default_index.

Theorem c149_first_free_refuted : exists par_fix i l, set_indexes (Some par_fix) 3 None = Ok (i, l) /\ free (Some par_fix) 3 0 /\ i = 1%nat.
Proof. exact (first_free_refuted). Qed.
Print Assumptions c149_first_free_refuted.

(* A profile that is not a hill. *)

Theorem c149_wide : forall m chi2isf p alpha, List.length (args p) = List.length (data p) -> ascends (args p) -> let L := profile_max p - 1 / 2 * chi2isf alpha in
  nth 0 (data p) 0 < L -> nth (List.length (data p) - 1) (data p) 0 < L -> (exists k, L < nth k (data p) 0 /\ (k < List.length (data p))%nat) ->
  exists a b, get_bounds m chi2isf p alpha = Ok (Some a, Some b) /\ a < b /\ (forall i, (i < List.length (data p))%nat -> L < nth i (data p) 0 -> a <= nth i (args p) 0 <= b) /\
    (exists i, (S i < List.length (data p))%nat /\ nth i (args p) 0 <= a < nth (S i) (args p) 0 /\ nth i (data p) 0 <= L < nth (S i) (data p) 0) /\
    (exists j, (S j < List.length (data p))%nat /\ nth j (args p) 0 <= b < nth (S j) (args p) 0 /\ nth (S j) (data p) 0 < L <= nth j (data p) 0).
Proof. exact (bounds_wide). Qed.
Print Assumptions c149_wide.

Example c149_two_hills_case : forall m, let p := Profile [0; 1; 2; 3; 4] [-2; 0; -2; 0; -2] 0 (Some (-1)) (Some 5) in List.length (args p) = List.length (data p) /\ ascends (args p) /\ exists a b, get_bounds m (fun _ => 2) p (5 / 100) = Ok (Some a, Some b) /\ 0 <= a <= 1 /\ 3 <= b <= 4.
Proof. exact (two_hills). Qed.

Theorem c149_valley_refuted : forall m, let p := Profile [0; 1; 2] [0; -10; 0] 0 (Some 0) (Some 2) in
  get_bounds m (fun _ => 2) p (5 / 100) = Ok (Some (1 / 10), Some (19 / 10)) /\ nth 1 (data p) 0 < 0 - 1 / 2 * 2 < nth 0 (data p) 0.
Proof. exact (valley). Qed.
Print Assumptions c149_valley_refuted.

Example c149_case : ascends [-3; -2; 0; 1; 4] /\ In 0 [-3; -2; 0; 1; 4] /\ (forall p, In p [-3; -2; 0; 1; 4] -> -3 <= p <= 4) /\ hill_function (fun x => - (x * x)) 0 /\ 0 < 2 <= 4.
Proof. exact (interval_case). Qed.
