From Coq Require Import Reals ZArith Lra Lia String.
From Coquelicot Require Import Coquelicot.
From Verif Require Import Base WaveModel WaveSpec WaveCase WaveProofs WaveProofs2 WaveProofs3 WaveProofs4 WaveProofs5.
Local Open Scope R_scope.

(* ---- C55: hyperbolic_ratio ---- *)
Theorem c55_quotient : forall a b sa sb, hyper sb b <> 0 -> hyperbolic_ratio (Num a) (Num b) sa sb = Num (hyper sa a / hyper sb b).
Proof. exact hyperbolic_ratio_spec. Qed.
Print Assumptions c55_quotient.
(* the only zero of the denominator *)
Theorem c55_denominator : forall s x, hyper s x = 0 <-> s < 0 /\ x = 0.
Proof. exact hyper_zero. Qed.
Print Assumptions c55_denominator.
(* there: 1 for 0/0 and otherwise the infinity of the sign of the numerator *)
Theorem c55_zero_denominator : forall a sa sb, sb < 0 ->
  hyperbolic_ratio (Num a) (Num 0) sa sb = (if Req_EM_T (hyper sa a) 0 then Num 1 else if Rlt_dec 0 (hyper sa a) then PInf else NInf).
Proof. exact hyperbolic_ratio_zero. Qed.
Print Assumptions c55_zero_denominator.
(* only exp(|a| - |b|) can be large *)
Theorem c55_bounded_terms : forall s x, exists r, hyper_term (sgn s) (xabs (Num x)) = Num r /\ Rabs r <= 2.
Proof. exact term_bound. Qed.
Print Assumptions c55_bounded_terms.
Example c55_case : hyperbolic_ratio (Num (-2)) (Num 1) (-1) 1 = Num (sinh (-2) / cosh 1).
Proof. rewrite hyperbolic_ratio_spec; unfold hyper; destruct (Rlt_dec 1 0); try lra; [|pose proof (cosh_pos 1); lra]. destruct (Rlt_dec (-1) 0); [reflexivity|lra]. Qed.

(* ---- C56: sensor types ---- *)
Theorem c56_ids : forall i, (0 <= i < 18)%Z -> exists s, sensor_type [Int i] = Ok [Str s] /\ sensor_typeid [Str s] = Ok [Int i] /\ lower s = s.
Proof. exact ids_roundtrip. Qed.
Print Assumptions c56_ids.
Theorem c56_names : forall s i, sensor_typeid [Str s] = Ok [Int i] -> (0 <= i < 18)%Z /\ sensor_type [Int i] = Ok [Str (lower s)].
Proof. exact names_roundtrip. Qed.
Print Assumptions c56_names.
(* upper and lower case do not matter *)
Theorem c56_case_insensitive : forall s t, same_word s t -> sensor_typeid [Str s] = sensor_typeid [Str t].
Proof. exact case_insensitive. Qed.
Print Assumptions c56_case_insensitive.
(* several arguments are treated one by one *)
Theorem c56_typeid_lists : forall names, exists r, sensor_typeid (map Str names) = Ok r /\ List.length r = List.length names /\
  forall k, (k < List.length names)%nat -> sensor_typeid [Str (nth k names EmptyString)] = Ok [nth k r NaNArg].
Proof. exact typeid_total. Qed.
Print Assumptions c56_typeid_lists.
Theorem c56_type_lists : forall ids, ids <> [] -> exists r, sensor_type (map Int ids) = Ok r /\ List.length r = List.length ids /\
  forall k, (k < List.length ids)%nat -> sensor_type [Int (nth k ids 0%Z)] = Ok [nth k r NaNArg].
Proof. exact type_total. Qed.
Print Assumptions c56_type_lists.
Theorem c56_unknown_ids : forall i, (i < 0 \/ 17 < i)%Z -> sensor_type [Int i] = Ok [NaNArg].
Proof. exact type_unknown. Qed.
Print Assumptions c56_unknown_ids.
(* the id of an unknown name is not accepted back *)
Theorem c56_unknown_names_refuted : forall s, lookup sensorid_table (lower s) = None -> exists r, sensor_typeid [Str s] = Ok r /\ sensor_type r = Err TypeError.
Proof. exact unknown_name. Qed.
Print Assumptions c56_unknown_names_refuted.
Example c56_case_zp : same_word "Z_P" "z_p".
Proof.
  apply same_cons; [right; exists 25%nat; split; reflexivity|]. apply same_cons; [left; reflexivity|].
  apply same_cons; [right; exists 15%nat; split; reflexivity|]. apply same_empty.
Qed.
Example c56_case : sensor_typeid [Str "W"; Str "v"; Str "rubbish"]%string = Ok [Int 11; Int 10; NaNArg] /\ lower "N_Tt"%string = "n_tt"%string.
Proof. split; reflexivity. Qed.

(* ---- C57: dispersion relation ---- *)
Theorem c57_k2w : forall k1 k2 h g, 0 <= g -> positive_depth h ->
  exists w th, k2w [(k1, k2, h, g, 0, 0)] = Pair [w] [th] /\ 0 <= w /\
    let k := sqrt (k1 ^ 2 + k2 ^ 2) in w ^ 2 = g * (k * tanh_depth k h) /\ k * cos th = k1 /\ k * sin th = k2 /\ - PI < th <= PI.
Proof. exact k2w_spec. Qed.
Print Assumptions c57_k2w.
Theorem c57_deep_wavenumber : forall k1 k2 g limit rtol atol, 0 < g ->
  exists w th, k2w [(k1, k2, Deep, g, 0, 0)] = Pair [w] [th] /\ w2k [(w, th, Deep)] [g] limit rtol atol = Ok (Pair [k1] [k2], true).
Proof. exact deep_roundtrip. Qed.
Print Assumptions c57_deep_wavenumber.
Theorem c57_deep_frequency : forall w th g limit rtol atol, 0 < g -> 0 < w -> - PI < th <= PI ->
  exists k1 k2, w2k [(w, th, Deep)] [g] limit rtol atol = Ok (Pair [k1] [k2], true) /\ k2w [(k1, k2, Deep, g, 0, 0)] = Pair [w] [th].
Proof. exact deep_roundtrip_w. Qed.
Print Assumptions c57_deep_frequency.
(* any depths: w2k returns for every entry a wave number of the sign of the frequency, and when it does not warn that wave number
   solves the dispersion relation within the tolerance *)
Theorem c57_w2k : forall pts g limit rtol atol, 0 < g -> 0 <= rtol -> 0 <= atol -> pts <> [] -> (forall w th h, In (w, th, h) pts -> positive_depth h) ->
  exists k1 k2 ok, w2k pts [g] limit rtol atol = Ok (Pair k1 k2, ok) /\ List.length k1 = List.length pts /\ List.length k2 = List.length pts /\
  forall i, (i < List.length pts)%nat -> let w := fst (fst (nth i pts nopt)) in let th := snd (fst (nth i pts nopt)) in let h := snd (nth i pts nopt) in
  exists k, nth i k1 0 = k * cos th /\ nth i k2 0 = k * sin th /\ (w <> 0 -> 0 < w * k) /\ (w = 0 -> k = 0) /\ (ok = true -> solves g rtol atol w h k).
Proof. exact w2k_spec. Qed.
Print Assumptions c57_w2k.
(* the dispersion relation has exactly one positive solution *)
Theorem c57_unique : forall g h w a b, 0 < g -> 0 < h -> 0 < a -> 0 < b -> dispersion_relation g h w a -> dispersion_relation g h w b -> a = b.
Proof. exact wave_number_unique. Qed.
Print Assumptions c57_unique.
Theorem c57_exists : forall g h w, 0 < g -> 0 < h -> w <> 0 -> exists k, w ^ 2 / g < k /\ dispersion_relation g h w k.
Proof. exact wave_number_exists. Qed.
Print Assumptions c57_exists.
(* how far from it the returned wave number is *)
Theorem c57_error : forall g h w rtol atol k kt, 0 < g -> 0 < h < 10 ^ 25 -> 0 < w -> solves g rtol atol w (Depth h) k -> 0 < kt -> dispersion_relation g h w kt ->
  Rabs (k - kt) * tanh (Rmin k kt * h) <= 4 * tolerance rtol atol k.
Proof. exact wave_number_error. Qed.
Print Assumptions c57_error.
Theorem c57_finite_roundtrip : forall w th h g limit rtol atol k1 k2, 0 < g -> 0 <= rtol -> 0 <= atol -> 0 <= w -> 0 < h < 10 ^ 25 ->
  w2k [(w, th, Depth h)] [g] limit rtol atol = Ok (Pair [k1] [k2], true) ->
  exists w' th', k2w [(k1, k2, Depth h, g, 0, 0)] = Pair [w'] [th'] /\
    Rabs (w' ^ 2 - w ^ 2) <= 4 * g * tolerance rtol atol (sqrt (k1 ^ 2 + k2 ^ 2)) /\ (0 < w -> - PI < th <= PI -> th' = th).
Proof. exact finite_roundtrip. Qed.
Print Assumptions c57_finite_roundtrip.
(* empty input gives one array where the caller unpacks two; two constants of gravity only in deep water *)
Theorem c57_empty_refuted : forall g limit rtol atol, w2k [] g limit rtol atol = Ok (Single [], true) /\ k2w [] = Single [].
Proof. exact dispersion_empty. Qed.
Print Assumptions c57_empty_refuted.
Theorem c57_two_constants : forall w th h g0 g1 limit rtol atol, h <= 10 ^ 25 -> w2k [(w, th, Depth h)] [g0; g1] limit rtol atol = Err ValueError.
Proof. exact w2k_two_constants. Qed.
Print Assumptions c57_two_constants.
(* the loop ends without a warning, e.g. when the tolerance is large *)
Example c57_case : exists k1 k2, w2k [(1, 0, Depth 1)] [1] 100 1000 0 = Ok (Pair [k1] [k2], true).
Proof.
  unfold w2k. cbn [forallb snd is_deep andb]. destruct (Rlt_dec (10 ^ 25) 1) as [H|_]; [exfalso; assert (1 <= 10 ^ 25) by (apply pow_R1_Rle; lra); lra|].
  cbn [List.length Nat.eqb hd last map fst snd combine]. set (p := start 1 1 (Depth 1)).
  assert (G : good 1 1000 0 p) by (apply start_good; cbn; lra).
  assert (A : active p = true). { unfold p, start. cbn [active below_limit]. destruct (Req_EM_T 1 0); [lra|]. destruct (Rlt_dec 1 (10 ^ 25)) as [|H]; [reflexivity|]. exfalso. apply H. apply Rlt_pow_R1; [lra|lia]. }
  assert (K : pk p = 1). { unfold p, start, deep_k. cbn [pk]. rewrite sgn_pos by lra. field. }
  pose proof (step_good 1 1000 0 p ltac:(lra) ltac:(lra) ltac:(lra) G) as G1. set (q := reactivate 1000 0 (newton 1 p)) in *.
  assert (Aq : active q = false).
  { (* the first step is less than 1000 times the new wave number *)
    unfold q, reactivate. cbn [active]. set (k := pk (newton 1 p)). set (d := phn (newton 1 p)).
    assert (E : k = 1 - d /\ - 1000 * k <= d <= 1000 * k).
    { unfold k, d, newton. rewrite A, K. change (ph p) with (Depth 1). change (pw p) with 1. cbn [depth_value]. cbv zeta.
      set (D := (1 * tanh (1 * 1) - 1 ^ 2 / 1) / slope (1 * 1)).
      assert (B : -1 <= D <= 0).
      { assert (T : 0 < tanh (1 * 1) < 1) by (pose proof (tanh_pos (1 * 1) ltac:(lra)); pose proof (tanh_abs_lt (1 * 1)) as Z; apply Rabs_def2 in Z; lra).
        assert (S1 : 1 - tanh (1 * 1) < slope (1 * 1)).
        { unfold slope. destruct (Rlt_dec (Rabs (1 * 1)) 350) as [_|H]; [|exfalso; apply H; rewrite Rabs_pos_eq; lra].
          pose proof (cosh_pos (1 * 1)) as Cp. pose proof (cosh_sinh (1 * 1)) as Cs. unfold tanh in *. set (c := cosh (1 * 1)) in *. set (s := sinh (1 * 1)) in *.
          assert (1 < s). { pose proof (sinh_ge (1 * 1) ltac:(lra)) as Q. assert (s <> 1 * 1); [|unfold s in *; lra].
            unfold s. intros Q1. destruct (MVT_cor2 (fun x => sinh x - x) (fun x => cosh x - 1) 0 (1 * 1) ltac:(lra)) as (z & Ez & Hz).
            { intros z _. apply derivable_pt_lim_minus; [apply derivable_pt_lim_sinh|apply derivable_pt_lim_id]. }
            rewrite sinh_zero in Ez. pose proof (cosh_sinh z). pose proof (sinh_pos z ltac:(lra)). pose proof (cosh_ge_1 z). nra. }
          assert (s < c) by nra. assert (c <= s + 1) by nra.
          apply (Rmult_lt_reg_r (c ^ 2)); [nra|]. replace ((1 - s / c) * c ^ 2) with (c ^ 2 - s * c) by (field; lra). replace ((s / c + 1 * 1 / c ^ 2) * c ^ 2) with (s * c + 1) by (field; lra). nra. }
        assert (S0 : 0 < slope (1 * 1)) by lra. replace D with (- ((1 - tanh (1 * 1)) / slope (1 * 1))) by (unfold D; field; lra).
        assert (0 <= (1 - tanh (1 * 1)) / slope (1 * 1)) by (apply Rdiv_le_0_compat; lra).
        assert ((1 - tanh (1 * 1)) / slope (1 * 1) <= 1) by (apply (Rmult_le_reg_r (slope (1 * 1))); auto; unfold Rdiv; rewrite Rmult_assoc, Rinv_l by lra; lra). lra. }
      destruct (Req_EM_T (Rabs (1 - D)) 0) as [Z|Z]; [rewrite Rabs_pos_eq in Z by lra; lra|]. cbn [pk phn]. lra. }
    destruct (Rlt_dec (1000 * Rabs k) (Rabs d)) as [L|L]; [|reflexivity]. exfalso. assert (Rabs d <= 1000 * Rabs k); [|lra]. rewrite (Rabs_pos_eq k) by lra. apply Rabs_le. lra. }
  change 100%nat with (S (S 98)). cbn [w2k_loop existsb map]. rewrite A. cbn [orb]. fold q. rewrite Aq. cbn [orb]. do 2 eexists. reflexivity.
Qed.

(* ---- C103: transfer functions ---- *)
(* Hw Gwt is, for every sensor, what a sensor in a plane wave of linear wave theory reads; igam = 2 changes its sign *)
Theorem c103_linear_theory : forall tf s h wk theta, water tf = Depth h -> 0 < h -> 0 <= rho tf * grav tf -> (below_surface s = true -> 0 <= level tf h) ->
  (forall w k, In (w, k) wk -> 0 <= w /\ 0 < k) ->
  exists Hw Gwt, tran tf s wk theta = Ok (Hw, Gwt) /\ List.length Hw = List.length wk /\ List.length Gwt = List.length theta /\
  forall i j, (i < List.length theta)%nat -> (j < List.length wk)%nat ->
    let w := fst (nth j wk (0, 0)) in let k := snd (nth j wk (0, 0)) in
    0 <= nth j Hw 0 /\ forall t,
    Cmult (Cmult (RtoC (nth j Hw 0)) (nth j (nth i Gwt []) (RtoC 0))) (cos (- (w * t)), sin (- (w * t))) =
    re (if Z.eqb (igam tf) 2 then -1 else 1) (field (wave_of tf h w k (nth i theta 0)) s (px tf) (py tf) (level tf h) t).
Proof. exact tran_spec. Qed.
Print Assumptions c103_linear_theory.
Example c103_case : let tf := Transfer 1 2 (-3) (Depth 10) 9.81 1028 1 1 90 0 in water tf = Depth 10 /\ 0 <= rho tf * grav tf /\ level tf 10 = 7.
Proof. cbn. repeat split; try lra. Qed.
(* the fields are consistent with each other: time derivatives, slopes, curvatures *)
Theorem c103_time_derivatives : forall v x y lev t,
  has_derivative (fun t => field v N x y lev t) t (field v N_t x y lev t) /\
  has_derivative (fun t => field v N_t x y lev t) t (field v N_tt x y lev t) /\
  has_derivative (fun t => field v X_p x y lev t) t (field v U x y lev t) /\
  has_derivative (fun t => field v Y_p x y lev t) t (field v V x y lev t) /\
  has_derivative (fun t => field v Z_p x y lev t) t (field v W x y lev t) /\
  has_derivative (fun t => field v U x y lev t) t (field v U_t x y lev t) /\
  has_derivative (fun t => field v V x y lev t) t (field v V_t x y lev t) /\
  has_derivative (fun t => field v W x y lev t) t (field v W_t x y lev t).
Proof. exact field_t. Qed.
Print Assumptions c103_time_derivatives.
Theorem c103_space_derivatives : forall v x y lev t,
  has_derivative (fun x => field v N x y lev t) x (field v N_x x y lev t) /\
  has_derivative (fun y => field v N x y lev t) y (field v N_y x y lev t) /\
  has_derivative (fun x => field v N_x x y lev t) x (field v N_xx x y lev t) /\
  has_derivative (fun y => field v N_y x y lev t) y (field v N_yy x y lev t) /\
  has_derivative (fun y => field v N_x x y lev t) y (field v N_xy x y lev t).
Proof. exact field_xy. Qed.
Print Assumptions c103_space_derivatives.
Theorem c103_incompressible : forall v x y lev t, dirx v ^ 2 + diry v ^ 2 = 1 ->
  exists a b c, has_derivative (fun x => field v U x y lev t) x a /\ has_derivative (fun y => field v V x y lev t) y b /\
    has_derivative (fun lev => field v W x y lev t) lev c /\ Cplus (Cplus a b) c = (0, 0).
Proof. exact incompressible. Qed.
Print Assumptions c103_incompressible.
Theorem c103_irrotational : forall v x y lev t,
  exists a b, has_derivative (fun lev => field v U x y lev t) lev a /\ has_derivative (fun x => field v W x y lev t) x a /\
              has_derivative (fun lev => field v V x y lev t) lev b /\ has_derivative (fun y => field v W x y lev t) y b.
Proof. exact irrotational. Qed.
Print Assumptions c103_irrotational.
Theorem c103_momentum : forall v x y lev t, 0 < wavenumber v -> 0 < deep v -> dispersion_relation (gravity v) (deep v) (omega v) (wavenumber v) ->
  exists a b c, has_derivative (fun x => field v P x y lev t) x a /\ has_derivative (fun y => field v P x y lev t) y b /\ has_derivative (fun lev => field v P x y lev t) lev c /\
    a = re (- density v) (field v U_t x y lev t) /\ b = re (- density v) (field v V_t x y lev t) /\ c = re (- density v) (field v W_t x y lev t).
Proof. exact momentum. Qed.
Print Assumptions c103_momentum.
Theorem c103_boundaries : forall v x y t, 0 < wavenumber v -> 0 < deep v ->
  field v W x y (deep v) t = field v N_t x y (deep v) t /\ field v Z_p x y (deep v) t = field v N x y (deep v) t /\ field v W x y 0 t = (0, 0).
Proof. exact boundary_conditions. Qed.
Print Assumptions c103_boundaries.
Theorem c103_default_angles : forall tf h w k theta, bet tf = 1 \/ bet tf = -1 -> thetax tf = 90 -> thetay tf = 0 ->
  dirx (wave_of tf h w k theta) = bet tf * cos theta /\ diry (wave_of tf h w k theta) = bet tf * sin theta /\ dirx (wave_of tf h w k theta) ^ 2 + diry (wave_of tf h w k theta) ^ 2 = 1.
Proof. exact default_angles. Qed.
Print Assumptions c103_default_angles.
(* with the default water depth, infinity, all transfer functions below the surface are zero *)
Theorem c103_default_depth_refuted : forall tf s wk theta, water tf = Deep -> (igam tf = 1 \/ igam tf = 2)%Z -> below_surface s = true ->
  exists Gwt, tran tf s wk theta = Ok (repeat 0 (List.length wk), Gwt).
Proof. exact tran_deep. Qed.
Print Assumptions c103_default_depth_refuted.
(* a negative Hw, whose sign should move to Gwt, raises *)
Theorem c103_negative_refuted : forall tf wk theta w k, In (w, k) wk -> w < 0 -> tran tf N_t wk theta = Err IndexError.
Proof. exact tran_negative. Qed.
Print Assumptions c103_negative_refuted.
(* every name of sensor_type is a sensor; its number, which the documentation allows too, is not *)
Theorem c103_names : forall i, (i < 18)%nat -> exists s a, nth_error documented i = Some (s, a) /\ sensor_type [Int (Z.of_nat i)] = Ok [Str s] /\ find_sensor (Str s) = Ok a
  /\ (8 <= i -> find_sensor (Str (capital s)) = Ok a)%nat.
Proof. exact sensors_by_id. Qed.
Print Assumptions c103_names.
Theorem c103_ids_refuted : forall i, find_sensor (Int i) = Err KeyError.
Proof. exact sensor_id_raises. Qed.
Print Assumptions c103_ids_refuted.
Theorem c103_pressure : forall z Hm0 h g rho kw, exists p, wave_pressure z Hm0 h g rho kw = Num p /\ p = rho * g * Hm0 / 2 * (cosh (kw * (h + z)) / cosh (kw * h)).
Proof. exact pressure_amplitude. Qed.
Print Assumptions c103_pressure.
