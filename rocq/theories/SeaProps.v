From Coq Require Import Reals Lra.
From Coquelicot Require Import Coquelicot.
From Verif Require Import Base PolyModel WaveModel SeaModel SeaSpec SeaProofs SeaProofs2 SeaProofs3 SeaProofs4 SeaProofs5 SeaProofs6 SeaProofs7 SeaProofs8 SeaProofs9 SeaCases.
Local Open Scope R_scope.

(* C113: the Bretschneider spectrum *)

Theorem c113_energy : forall g H T N M, log_gamma g -> 0 <= H -> 0 < T -> 1 < N -> 0 < M -> total_energy (bret_call g (Bret H T N M)) ((H / 4) ^ 2).
Proof. exact (bret_energy). Qed.
Print Assumptions c113_energy.

Theorem c113_band : forall g H T M W, 0 < H -> 0 < T -> 0 < M -> 0 < W -> g 1 = 0 -> area (bret_call g (Bret H T (M + 1) M)) 0 W ((H / 4) ^ 2 * exp (- ((M + 1) / M * Rpower (2 * PI / T / W) M))).
Proof. exact (bret_band). Qed.
Print Assumptions c113_band.

Theorem c113_formula : forall g H T w, g 1 = 0 -> 0 < H -> 0 < T -> 0 < w -> let wp := 2 * PI / T in bret_call g (Bret H T 5 4) w = 5 / 16 * H ^ 2 * wp ^ 4 / w ^ 5 * exp (- (5 / 4) * (wp / w) ^ 4).
Proof. exact (bret_formula). Qed.
Print Assumptions c113_formula.

Theorem c113_peak : forall g H T N M, 0 < H -> 0 < T -> 0 < N -> 0 < M -> single_peak (bret_call g (Bret H T N M)) (2 * PI / T).
Proof. exact (bret_peak). Qed.
Print Assumptions c113_peak.

Theorem c113_sign : forall g H T N M w, 0 < H -> 0 < T -> (0 < w -> 0 < bret_call g (Bret H T N M) w) /\ (w <= 0 -> bret_call g (Bret H T N M) w = 0).
Proof. exact (bret_sign). Qed.
Print Assumptions c113_sign.

Theorem c113_units : forall g H T N M a c w, 0 < H -> 0 < T -> 0 < a -> 0 < c -> bret_call g (Bret (a * H) (c * T) N M) (w / c) = a ^ 2 * c * bret_call g (Bret H T N M) w.
Proof. exact (bret_homogeneous). Qed.
Print Assumptions c113_units.

Theorem c113_accepts : forall H T N M s, bretschneider H T N M true = Ok s -> 0 <= H /\ 0 < T /\ s = Bret H T N M.
Proof. exact (bret_ok). Qed.
Print Assumptions c113_accepts.

Theorem c113_rejects : forall H T N M, (H < 0 \/ T <= 0) <-> bretschneider H T N M true = Err ValueError.
Proof. exact (bret_rejects). Qed.
Print Assumptions c113_rejects.

(* the gamma function of the hypotheses exists and takes the value one at one *)

Theorem c113_gamma : log_gamma gammaln_real.
Proof. exact (gammaln_real_ok). Qed.
Print Assumptions c113_gamma.

Theorem c113_gamma_one : forall g, log_gamma g -> g 1 = 0.
Proof. exact (log_gamma_1). Qed.
Print Assumptions c113_gamma_one.

Example c113_case : total_energy (bret_call gammaln_real (Bret 7 11 5 4)) (49 / 16).
Proof. replace (49 / 16) with ((7 / 4) ^ 2) by field. apply bret_energy; try apply gammaln_real_ok; lra. Qed.

(* C114: the Jonswap spectrum *)

Theorem c114_energy : forall g quad H T gamma sa sb N M wnc chk s, exact_quad quad -> 0 < H -> 0 < T -> 0 < sa -> 0 < sb -> 0 < N -> 0 < M -> jonswap g quad H T gamma sa sb None N M Integration wnc chk = Ok s -> jgamma s <> 1 -> area (jons_call g s) 0 (wnc * (2 * PI / T)) ((H / 4) ^ 2).
Proof. exact (jonswap_energy). Qed.
Print Assumptions c114_energy.

Theorem c114_no_peak_enhancement : forall g quad H T sa sb Ag N M m wnc w s, jonswap g quad H T (Some 1) sa sb Ag N M m wnc true = Ok s -> jons_call g s w = bret_call g (Bret H T N M) w.
Proof. exact (jonswap_bret). Qed.
Print Assumptions c114_no_peak_enhancement.

Theorem c114_formula : forall g s w, g 1 = 0 -> 0 < jHm0 s -> 0 < jTp s -> jN s = 5 -> jM s = 4 -> 0 < w -> let wp := 2 * PI / jTp s in jons_call g s w = jAg s * (5 / 16 * jHm0 s ^ 2 * wp ^ 4 / w ^ 5 * exp (- (5 / 4) * (wp / w) ^ 4)) * Rpower (jgamma s) (exp (- ((w / wp - 1) ^ 2 / (2 * (if Rle_dec w wp then jsigmaA s else jsigmaB s) ^ 2)))).
Proof. exact (jons_formula). Qed.
Print Assumptions c114_formula.

Theorem c114_shape : forall g quad H T gamma sa sb N M wnc s, exact_quad quad -> 0 < H -> 0 < T -> 0 < sa -> 0 < sb -> 0 < N -> 0 < M -> jonswap g quad H T gamma sa sb None N M Integration wnc true = Ok s -> single_peak (jons_call g s) (2 * PI / T) /\ (forall w, 0 < w -> 0 < jons_call g s w) /\ (forall w, w <= 0 -> jons_call g s w = 0).
Proof. exact (jonswap_shape). Qed.
Print Assumptions c114_shape.

Theorem c114_gamma : forall g quad H T gamma sa sb Ag N M m wnc chk s, 0 < T -> jonswap g quad H T gamma sa sb Ag N M m wnc chk = Ok s -> 1 <= jgamma s /\ (gamma = None -> jgamma s <= 7) /\ (forall y, gamma = Some y -> 1 <= y -> jgamma s = y).
Proof. exact (jonswap_gamma). Qed.
Print Assumptions c114_gamma.

Theorem c114_peakfact_range : forall H T, 0 < T -> 1 <= jonswap_peakfact H T <= 7.
Proof. exact (peakfact_bounds). Qed.
Print Assumptions c114_peakfact_range.

Theorem c114_peakfact_steep : forall H T, 0 < H -> 0 < T -> T <= 514285714285714 / 10 ^ 14 * sqrt H -> 1 < jonswap_peakfact H T.
Proof. exact (peakfact_above). Qed.
Print Assumptions c114_peakfact_steep.

Theorem c114_peakfact_long : forall H T, 0 < T -> H <= 0 \/ 514285714285714 / 10 ^ 14 * sqrt H < T -> jonswap_peakfact H T = 1.
Proof. exact (peakfact_one). Qed.
Print Assumptions c114_peakfact_long.

Theorem c114_arguments : forall g quad H T y sa sb a N M m wnc, 1 < y ->
  (a <= 0 -> jonswap g quad H T (Some y) sa sb (Some a) N M m wnc true = Err ValueError)
  /\ (wnc < 1 -> jonswap g quad H T (Some y) sa sb None N M Integration wnc true = Err ValueError)
  /\ jonswap g quad H T (Some y) sa sb None N M Custom wnc true = Err TypeError
  /\ jonswap g quad H T (Some y) sa sb None N M Unknown wnc true = Err KeyError
  /\ (H < 0 \/ T <= 0 -> 0 < a -> jonswap g quad H T (Some y) sa sb (Some a) N M m wnc true = Err ValueError)
  /\ (0 <= H -> 0 < T -> 0 < a -> jonswap g quad H T (Some y) sa sb (Some a) N M m wnc true = Ok (Jons H T y sa sb a N M))
  /\ (0 <= H -> 0 < T -> 1 <= wnc -> exists s, jonswap g quad H T (Some y) sa sb None N M Integration wnc true = Ok s).
Proof. exact (jonswap_errors). Qed.
Print Assumptions c114_arguments.

(* the parametric normalisation: the height of the peak relative to the Bretschneider spectrum *)

Theorem c114_parametric_peak : forall g quad H T y sa sb N M wnc s, 0 < H -> 0 < T -> 1 < y -> jonswap g quad H T (Some y) sa sb None N M Parametric wnc true = Ok s ->
  let f1 := 41 / 10 * Rpower (N - 2 * Rpower M (28 / 100) + 53 / 10) (96 / 100 - 145 / 100 * Rpower M (1 / 10)) in
  let f2 := (22 / 10 * Rpower M (- (33 / 10)) + 57 / 100) * Rpower N (53 / 100 - 58 / 100 * Rpower M (37 / 100)) + 94 / 100 - 104 / 100 * Rpower M (- (19 / 10)) in
  jons_call g s (2 * PI / T) = (1 + f1 * Rpower (ln y) f2) * bret_call g (Bret H T N M) (2 * PI / T).
Proof. exact (parametric_peak). Qed.
Print Assumptions c114_parametric_peak.

Example c114_parametric_peak_case : forall g quad, exists s, jonswap g quad 7 11 (Some (33 / 10)) (7 / 100) (9 / 100) None 5 4 Parametric 6 true = Ok s.
Proof. exact (parametric_case). Qed.

(* the ranges of M and gamma are not checked when N is in range *)

Theorem c114_parametric_range_refuted : forall g quad H T y sa sb N M wnc, 0 <= H -> 0 < T -> 1 < y -> 3 <= N <= 50 -> exists s, jonswap g quad H T (Some y) sa sb None N M Parametric wnc true = Ok s.
Proof. exact (parametric_unchecked). Qed.
Print Assumptions c114_parametric_range_refuted.

(* the documented use of jonswap_seastate: the spectrum carries at most a third of the energy of its Hm0 *)

Theorem c114_seastate_refuted : forall g quad u10 fetch m gr, g 1 = 0 -> 0 < u10 -> 0 < gr -> 16 * u10 ^ 2 <= gr * fetch -> let ss := jonswap_seastate u10 fetch m gr in sgamma ss <> 1 -> exists s, jonswap g quad (sHm0 ss) (sTp ss) (Some (sgamma ss)) (ssigmaA ss) (ssigmaB ss) (Some (sAg ss)) 5 4 Integration 6 true = Ok s /\ jHm0 s = sHm0 ss /\ forall W, 0 < W -> exists e, area (jons_call g s) 0 W e /\ e <= 1 / 3 * (jHm0 s / 4) ^ 2.
Proof. exact (seastate_refuted). Qed.
Print Assumptions c114_seastate_refuted.

Example c114_case : exists s, jonswap gammaln_real (fun f a b => RInt f a b) 7 11 None (7 / 100) (9 / 100) None 5 4 Integration 6 true = Ok s /\ jgamma s <> 1
  /\ area (jons_call gammaln_real s) 0 (6 * (2 * PI / 11)) ((7 / 4) ^ 2).
Proof.
  assert (HS : 26 / 10 < sqrt 7). { rewrite <- (sqrt_Rsqr (26 / 10)) by lra. apply sqrt_lt_1; unfold Rsqr; lra. }
  assert (G1 : 1 < jonswap_peakfact 7 11) by (apply peakfact_above; [lra|lra|]; replace (10 ^ 14) with 100000000000000 by ring; lra).
  assert (E : exists s, jonswap gammaln_real (fun f a b => RInt f a b) 7 11 None (7 / 100) (9 / 100) None 5 4 Integration 6 true = Ok s).
  { unfold jonswap, integrate_ag, chk_seastate. destruct (Req_EM_T _ 1); [lra|]. destruct (Rlt_dec 6 1); [lra|]. cbn [bind]. destruct (Rlt_dec 7 0); [lra|]. destruct (Rle_dec 11 0); [lra|]. cbn. now eexists. }
  destruct E as [s E]. exists s. assert (N : jgamma s <> 1). { apply jonswap_inv in E. destruct E as (_ & _ & -> & _). unfold gamma_of. lra. }
  repeat split; [easy|easy|]. eapply (jonswap_energy gammaln_real (fun f a b => RInt f a b)); try exact E; try lra. intros f a b l A. now apply is_RInt_unique.
Qed.

Example c114_seastate_case : let ss := jonswap_seastate 10 10000 Hasselman73 (981 / 100) in 16 * 10 ^ 2 <= 981 / 100 * 10000 /\ sgamma ss <> 1.
Proof. cbn [jonswap_seastate sgamma]. split; lra. Qed.

(* C115: spectra with two peaks, McCormick and Wallop *)

Theorem c115_torsethaugen_accepts : forall g quad H T wnc gr, 0 < H -> 0 < T -> 0 < gr -> exists p, torsethaugen g quad H T Integration wnc gr true = Ok p.
Proof. exact (torse_accept). Qed.
Print Assumptions c115_torsethaugen_accepts.

Theorem c115_torsethaugen_split : forall g quad H T wnc gr wind swell, 0 < H -> 0 < gr -> torsethaugen g quad H T Integration wnc gr true = Ok (wind, swell) -> 0 <= jHm0 wind /\ 0 <= jHm0 swell /\ jHm0 wind ^ 2 + jHm0 swell ^ 2 = H ^ 2 /\ 1 <= jgamma wind /\ 1 <= jgamma swell /\ (jTp wind = T /\ jgamma swell = 1 \/ jTp swell = T /\ jgamma wind = 1).
Proof. exact (torse_split). Qed.
Print Assumptions c115_torsethaugen_split.

Theorem c115_torsethaugen_energy : forall g quad H T wnc gr wind swell, log_gamma g -> exact_quad quad -> 0 < H -> 0 < gr -> torsethaugen g quad H T Integration wnc gr true = Ok (wind, swell) -> forall p, p = wind \/ p = swell -> (jgamma p = 1 -> total_energy (jons_call g p) ((jHm0 p / 4) ^ 2)) /\ (jgamma p <> 1 -> area (jons_call g p) 0 (6 * (2 * PI / jTp p)) ((jHm0 p / 4) ^ 2)).
Proof. exact (torse_energy). Qed.
Print Assumptions c115_torsethaugen_energy.

(* the normalized cutoff frequency is accepted and ignored *)

Theorem c115_torsethaugen_cutoff_refuted : forall g quad H T m gr chk wnc wnc', torsethaugen g quad H T m wnc gr chk = torsethaugen g quad H T m wnc' gr chk.
Proof. exact (torse_wnc). Qed.
Print Assumptions c115_torsethaugen_cutoff_refuted.

Theorem c115_ochihubble_accepts : forall H par, (0 <= H /\ (0 <= par <= 10)%Z) <-> exists p, ochihubble H par true = Ok p.
Proof. exact (ochi_accepts). Qed.
Print Assumptions c115_ochihubble_accepts.

Theorem c115_torsethaugen_sum : forall g wind swell W a b, area (jons_call g wind) 0 W a -> area (jons_call g swell) 0 W b -> area (torsethaugen_call g (wind, swell)) 0 W (a + b).
Proof. exact (torset_sum). Qed.
Print Assumptions c115_torsethaugen_sum.

(* the energy is that of Hm0 within half a percent, and not exactly for any of the eleven spectra *)

Theorem c115_ochihubble_energy_refuted : forall g H par p, log_gamma g -> ochihubble H par true = Ok p -> exists e, total_energy (ochihubble_call g p) e /\ Rabs (e - (H / 4) ^ 2) <= 5 / 1000 * (H / 4) ^ 2 /\ (0 < H -> e <> (H / 4) ^ 2).
Proof. exact (ochi_energy). Qed.
Print Assumptions c115_ochihubble_energy_refuted.

Theorem c115_ochihubble_unchecked : forall H i, (1 <= i <= 11)%Z -> ochihubble H (- i) false = ochihubble H (11 - i) false.
Proof. exact (ochi_unchecked). Qed.
Print Assumptions c115_ochihubble_unchecked.

Theorem c115_mccormick_energy : forall g fmin gam H T Tz M s W, g 1 = 0 -> 0 < H -> mccormick fmin gam H T Tz M true = Ok s -> 0 < bM s -> 0 < W -> bN s = bM s + 1 /\ area (bret_call g s) 0 W ((H / 4) ^ 2 * exp (- ((bM s + 1) / bM s * Rpower (2 * PI / T / W) (bM s)))).
Proof. exact (mccormick_band). Qed.
Print Assumptions c115_mccormick_energy.

Theorem c115_mccormick_best : forall fmin gam H T Tz s, minimiser fmin -> (forall x, 1 <= x -> continuity_pt gam x /\ gam x <> 0) -> 0 < H ->
  mccormick fmin gam H T Tz None true = Ok s ->
  let tz := match Tz with Some t => t | None => 8143 / 10000 * T end in
  let misfit x := (Rpower (1 + x) x / gam (1 + x) - T / tz) ^ 2 in
  1 / 100 <= 1 / bM s <= 5 /\ forall x, 1 / 100 <= x <= 5 -> misfit (1 / bM s) <= misfit x.
Proof. exact (mccormick_best). Qed.
Print Assumptions c115_mccormick_best.

Example c115_mccormick_case : exists fmin gam s, minimiser fmin /\ (forall x, 1 <= x -> continuity_pt gam x /\ gam x <> 0) /\ mccormick fmin gam 7 11 None None true = Ok s.
Proof. exact mccormick_call. Qed.

Theorem c115_mccormick_calm_refuted : forall fmin gam H T Tz chk, H <= 0 -> mccormick fmin gam H T Tz None chk = Err TypeError.
Proof. exact (mccormick_zero). Qed.
Print Assumptions c115_mccormick_calm_refuted.

Theorem c115_wallop : forall H T s, 0 < H -> wallop H T None true = Ok s -> let Lp := 981 / 100 * T ^ 2 / (2 * PI) in bM s = 4 /\ bN s = Rabs (ln (2 * (PI * H / 4 / Lp) ^ 2) / ln 2).
Proof. exact (wallop_exponent). Qed.
Print Assumptions c115_wallop.

Example c115_case : (exists p, torsethaugen gammaln_real (fun f a b => RInt f a b) 7 11 Integration 6 (981 / 100) true = Ok p) /\ (exists p, ochihubble 7 3 true = Ok p)
  /\ (exists s, mccormick (fun _ _ _ => 1 / 4) (fun x => exp (gammaln_real x)) 7 11 None None true = Ok s /\ 0 < bM s) /\ (exists s, wallop 7 11 None true = Ok s).
Proof.
  split; [apply torse_accept; lra|]. split; [apply (proj1 (ochi_accepts 7 3)); split; [lra|easy]|].
  unfold mccormick, wallop, bretschneider, chk_seastate. destruct (Rlt_dec 0 7); [|lra]. cbn [bind]. destruct (Rlt_dec 7 0); [lra|]. destruct (Rle_dec 11 0); [lra|]. cbn [bind].
  split; eexists; [split; [reflexivity|cbn; lra]|reflexivity].
Qed.

(* C116: the depth factor of the TMA spectrum *)

Theorem c116_range : forall gr h w k, 0 < gr -> 0 < h -> 0 < w -> 0 < k -> dispersion gr h w k -> 0 < phi1 k w (Some h) gr < 1.
Proof. exact (phi1_bounds). Qed.
Print Assumptions c116_range.

Theorem c116_ratio : forall gr h w (k : R -> R) dk, 0 < gr -> 0 < h -> 0 < w -> locally w (fun v => 0 < k v /\ dispersion gr h v (k v)) -> is_derive k w dk -> phi1 (k w) w (Some h) gr = (dk / k w ^ 3) / (Derive (fun v => v ^ 2 / gr) w / (w ^ 2 / gr) ^ 3).
Proof. exact (phi1_ratio). Qed.
Print Assumptions c116_ratio.

Theorem c116_still : forall gr h k, phi1 k 0 (Some h) gr = 0.
Proof. exact (phi1_zero). Qed.
Print Assumptions c116_still.

Theorem c116_tma : forall g s gr h w k, 0 < gr -> 0 < h -> 0 < w -> 0 < k -> dispersion gr h w k -> 0 < jons_call g s w -> 0 < tma_call g s k (Some h) gr w < jons_call g s w.
Proof. exact (tma_bounds). Qed.
Print Assumptions c116_tma.

Theorem c116_tma_deep : forall g s gr w k, tma_call g s k None gr w = jons_call g s w.
Proof. exact (tma_deep). Qed.
Print Assumptions c116_tma_deep.

Theorem c116_wave_number : forall gr h w, 0 < gr -> 0 < h -> 0 < w -> exists k, 0 < k /\ dispersion gr h w k.
Proof. exact (tma_witness). Qed.
Print Assumptions c116_wave_number.

Example c116_case : exists k, 0 < k /\ dispersion (981 / 100) 20 1 k /\ 0 < phi1 k 1 (Some 20) (981 / 100) < 1.
Proof. destruct (tma_witness (981 / 100) 20 1) as (k & Hk & D); try lra. exists k. split; [easy|]. split; [easy|]. apply phi1_bounds; try lra; easy. Qed.
