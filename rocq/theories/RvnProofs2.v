From Coq Require Import Reals Lra Lia Psatz.
From Coquelicot Require Import Coquelicot.
From Verif Require Import RvModel RvSpec RvProofs RvProofs2 RvProofs3 RvnModel RvnProofs.
Local Open Scope R_scope.

Lemma ndtr_comp (g : R -> R) (x l : R) : is_derive g x l -> is_derive (fun t => ndtr (g t)) x (l * norm_pdf (g x)).
Proof. intros D. apply (is_derive_comp ndtr g x (norm_pdf (g x)) l); [apply ndtr_derive|exact D]. Qed.
Lemma derive_to (f : R -> R) (x l k : R) : is_derive f x l -> l = k -> is_derive f x k. Proof. now intros D <-. Qed.
Lemma derive_ext (f g : R -> R) (x l : R) : (forall t : R, f t = g t) -> is_derive f x l -> is_derive g x l. Proof. intros E. exact (is_derive_ext f g x l E). Qed.
Lemma derive_scaled (f : R -> R) (x l a b : R) : is_derive f x l -> is_derive (fun t => a + b * f t) x (b * l).
Proof. intros D. apply (derive_to _ x (plus 0 (b * l))); [|apply Rplus_0_l]. apply (is_derive_plus (fun _ => a)); [apply (@is_derive_const R_AbsRing R_NormedModule)|]. exact (is_derive_scal f x b l D). Qed.
Lemma exp_half y : 0 < y -> exp (/ 2 * ln y) = sqrt y. Proof. intros H. exact (Rpower_sqrt y H). Qed.
Lemma log_cdf x : exp (norm_logcdf x) = ndtr x. Proof. apply exp_ln, ndtr_values. Qed.
Lemma sf_cdf x : norm_sf x = 1 - ndtr x. Proof. apply ndtr_neg. Qed.
Lemma log_sf x : exp (norm_logsf x) = 1 - ndtr x. Proof. unfold norm_logsf. rewrite log_cdf. apply ndtr_neg. Qed.
Lemma norm_pdf_eq x e : - x ^ 2 / 2 = e -> norm_pdf x = exp e / sqrt (2 * PI). Proof. now intros <-. Qed.
Lemma sq x : 0 < x -> exists s, 0 < s /\ sqrt x = s /\ x = s * s.
Proof. intros H. exists (sqrt x). split; [now apply sqrt_lt_R0|]. split; [reflexivity|]. symmetry. apply sqrt_sqrt. lra. Qed.

Lemma norm_coherent : coherent norm.
Proof.
  apply make; unfold inside; cbn [RvModel.low RvModel.high RvModel.pdf RvModel.cdf RvModel.ppf RvModel.sf RvModel.isf RvModel.logpdf RvModel.logcdf RvModel.logsf norm defined].
  - intros x _. split; [apply norm_pdf_pos|apply ndtr_derive].
  - intros x _. apply ndtr_values.
  - intros q H. split; [now split|]. now apply ndtr_ndtri.
  - intros x _. apply sf_cdf.
  - intros q H. unfold norm_isf, norm_ppf. now rewrite ndtri_neg.
  - intros x _. apply norm_log.
  - intros x _. apply log_cdf.
  - intros x _. apply log_sf.
Qed.
Lemma alpha_coherent a : coherent (alpha a).
Proof.
  pose proof (ndtr_values a) as Va. apply make; unfold inside; cbn -[pow]; unfold norm_cdf; try exact I.
  - intros x [H _]. split; [apply Rmult_lt_0_compat; [|apply norm_pdf_pos]; apply div_pos; [|lra]; apply div_pos; [lra|apply pow_lt; exact H]|].
    apply (derive_ext (fun t => 0 + / ndtr a * ndtr (a - 1 / t))); [intros t; unfold Rdiv; ring|]. eapply derive_to; [apply derive_scaled, (ndtr_comp (fun t => a - 1 / t) x (/ x ^ 2))|].
    + auto_derive; [lra|]. field. lra.
    + field. lra.
  - intros x [H _]. pose proof (ndtr_values (a - 1 / x)). assert (0 < 1 / x) by (apply div_pos; lra). assert (ndtr (a - 1 / x) < ndtr a) by (apply ndtr_increasing; lra). split; [apply div_pos; lra|apply div_lt1; lra].
  - intros q H. assert (Q : 0 < q * ndtr a < 1) by nra. pose proof (ndtr_ndtri _ Q) as E. assert (L : ndtri (q * ndtr a) < a) by (apply ndtr_iff; rewrite E; nra). split; [split; [apply div_pos; lra|exact I]|]. replace (a - 1 / (1 / (a - ndtri (q * ndtr a)))) with (ndtri (q * ndtr a)) by (field; lra). rewrite E. field. lra.
  - intros x [H _]. rewrite exp_minus, exp_plus, norm_log, exp_ln by lra. replace (-2 * ln x) with (- (ln x + ln x)) by ring. rewrite exp_Ropp, exp_plus, exp_ln by exact H. field. lra.
Qed.
Lemma fatiguelife_coherent c : 0 < c -> coherent (fatiguelife c).
Proof.
  intros Hc. pose proof PI_RGT_0 as Pi0. apply make; unfold inside; cbn -[pow]; unfold norm_cdf; try exact I; try reflexivity.
  - intros x [H _]. split; [apply exp_pos|]. apply (derive_to _ x ((/ 2 / sqrt x + / 2 / sqrt x / x) / c * norm_pdf (1 / c * (sqrt x - 1 / sqrt x)))).
    + apply (ndtr_comp (fun t => 1 / c * (sqrt t - 1 / sqrt t))). pose proof (sqrt_lt_R0 x H). assert (sqrt x * sqrt x = x) by (apply sqrt_sqrt; lra). auto_derive; [repeat split; lra|]. rewrite H1 || idtac. replace (sqrt x * sqrt x) with x by lra. field. lra.
    + rewrite !exp_minus, !exp_ln by lra. replace (/ 2 * (ln (2 * PI) + 3 * ln x)) with (/ 2 * ln (2 * PI) + (ln x + / 2 * ln x)) by field. rewrite !exp_plus, !exp_half, exp_ln by lra. destruct (sq x H) as (s & Hs & -> & ->). rewrite (norm_pdf_eq _ (- ((s * s - 1) ^ 2 / (2 * (s * s) * c ^ 2)))) by (field; lra). rewrite exp_Ropp. pose proof root2pi. field. pose proof (exp_pos ((s * s - 1) ^ 2 / (2 * (s * s) * c ^ 2))). repeat split; nra || lra.
  - intros x _. apply ndtr_values.
  - intros q H. set (t := c * ndtri q). assert (P : 0 < t ^ 2 + 4) by nra. pose proof (sqrt_lt_R0 _ P) as S0. pose proof (sqrt_sqrt (t ^ 2 + 4) ltac:(lra)) as S2. set (r := sqrt (t ^ 2 + 4)) in *. assert (U : 0 < t + r) by nra. split; [split; [nra|exact I]|]. replace (/ 4 * (t + r) ^ 2) with (((t + r) / 2) * ((t + r) / 2)) by field. rewrite sqrt_square by lra. replace ((t + r) / 2 - 1 / ((t + r) / 2)) with t by (apply (Rmult_eq_reg_r (2 * (t + r))); [field_simplify; [nra|lra]|lra]). unfold t. replace (1 / c * (c * ndtri q)) with (ndtri q) by (field; lra). now apply ndtr_ndtri.
Qed.
Lemma root_2_pi : sqrt (2 / PI) = 2 / sqrt (2 * PI).
Proof.
  pose proof PI_RGT_0. pose proof root2pi. assert (E : 2 / PI = (2 / sqrt (2 * PI)) * (2 / sqrt (2 * PI))). { replace (2 / sqrt (2 * PI) * (2 / sqrt (2 * PI))) with (4 / (sqrt (2 * PI) * sqrt (2 * PI))) by (field; lra). rewrite root2pi_sq. field. lra. }
  rewrite E. apply sqrt_square. left. apply div_pos; lra.
Qed.
Lemma halfnorm_coherent : coherent halfnorm.
Proof.
  pose proof PI_RGT_0 as Pi0. apply make; unfold inside; cbn -[pow]; unfold norm_cdf; try exact I.
  - intros x [H _]. split; [apply Rmult_lt_0_compat; [apply sqrt_lt_R0; apply div_pos; lra|apply exp_pos]|]. apply (derive_ext (fun t => -1 + 2 * ndtr t)); [intros t; ring|]. eapply derive_to; [apply derive_scaled, ndtr_derive|]. rewrite root_2_pi. rewrite (norm_pdf_eq x (- x * x / 2)) by field. unfold Rdiv. ring.
  - intros x [H _]. pose proof (ndtr_half x H). pose proof (ndtr_values x). lra.
  - intros q H. split; [split; [apply ndtri_half; lra|exact I]|]. rewrite ndtr_ndtri by lra. field.
  - intros x _. rewrite exp_minus, exp_half by (apply div_pos; lra). replace (- x * x / 2) with (- (x * x / 2)) by field. rewrite exp_Ropp. reflexivity.
Qed.
Lemma johnsonsb_coherent a b : 0 < b -> coherent (johnsonsb a b).
Proof.
  intros Hb. apply make; unfold inside; cbn -[pow]; unfold norm_cdf, norm_ppf; try exact I.
  - intros x H. assert (0 < x * (1 - x)) by nra. split; [apply Rmult_lt_0_compat; [apply div_pos; lra|apply norm_pdf_pos]|]. apply (ndtr_comp (fun t => a + b * ln (t / (1 - t)))). auto_derive; [split; [lra|split; [apply div_pos; lra|exact I]]|]. field. lra.
  - intros x _. apply ndtr_values.
  - intros q H. set (z := -1 / b * (ndtri q - a)). pose proof (exp_pos z). split; [split; [apply div_pos; lra|apply div_lt1; lra]|]. replace (1 / (1 + exp z) / (1 - 1 / (1 + exp z))) with (/ exp z) by (field; lra). rewrite ln_Rinv, ln_exp by apply exp_pos. unfold z. replace (a + b * - (-1 / b * (ndtri q - a))) with (ndtri q) by (field; lra). now apply ndtr_ndtri.
Qed.
Lemma johnsonsu_coherent a b : 0 < b -> coherent (johnsonsu a b).
Proof.
  intros Hb. assert (R1 : forall x, 0 < sqrt (x * x + 1) /\ 0 < x + sqrt (x * x + 1)). { intros x. assert (P : 0 < x * x + 1) by nra. pose proof (sqrt_lt_R0 _ P). pose proof (sqrt_sqrt _ (Rlt_le _ _ P)). split; nra. } apply make; unfold inside; cbn -[pow sinh]; unfold norm_cdf, norm_ppf; try exact I.
  - intros x _. destruct (R1 x) as [P1 P2]. split; [apply Rmult_lt_0_compat; [apply div_pos; lra|apply norm_pdf_pos]|]. apply (ndtr_comp (fun t => a + b * ln (t + sqrt (t * t + 1)))). auto_derive; [repeat split; nra|]. field. lra.
  - intros x _. apply ndtr_values.
  - intros q H. split; [now split|]. set (y := (ndtri q - a) / b). assert (C : sinh y * sinh y + 1 = cosh y * cosh y). { unfold sinh, cosh. rewrite exp_Ropp. pose proof (exp_pos y). field. lra. } rewrite C. rewrite sqrt_square by (unfold cosh; pose proof (exp_pos y); pose proof (exp_pos (- y)); lra). replace (sinh y + cosh y) with (exp y) by (unfold sinh, cosh; field). rewrite ln_exp. unfold y. replace (a + b * ((ndtri q - a) / b)) with (ndtri q) by (field; lra). now apply ndtr_ndtri.
Qed.
Lemma inv_root_derive x : 0 < x -> is_derive (fun t => 1 / sqrt t) x (- / 2 / (x * sqrt x)).
Proof. intros H. pose proof (sqrt_lt_R0 x H). assert (E : sqrt x * sqrt x = x) by (apply sqrt_sqrt; lra). auto_derive; [repeat split; lra|]. rewrite E. field. lra. Qed.
Lemma levy_cdf x : 0 < x -> cdf levy x = 2 * ndtr (- (1 / sqrt x)).
Proof.
  intros H. cbn. rewrite <- erfc_ndtr. f_equal. destruct (sq x H) as (s & Hs & -> & ->). assert (S2 : 0 < sqrt 2) by (apply sqrt_lt_R0; lra). replace (/ 2 / (s * s)) with ((1 / s / sqrt 2) * (1 / s / sqrt 2)). { apply sqrt_square. left. apply div_pos; [apply div_pos|]; lra. } replace (1 / s / sqrt 2 * (1 / s / sqrt 2)) with (1 / (s * s) / (sqrt 2 * sqrt 2)) by (field; lra). rewrite (sqrt_sqrt 2) by lra. field. lra.
Qed.
Lemma levy_density x : 0 < x -> / 2 / (x * sqrt x) * norm_pdf (1 / sqrt x) * 2 = 1 / sqrt (2 * PI * x) / x * exp (- 1 / (2 * x)).
Proof.
  intros H. pose proof PI_RGT_0. rewrite (sqrt_mult (2 * PI)) by lra. pose proof root2pi. destruct (sq x H) as (s & Hs & -> & ->). rewrite (norm_pdf_eq _ (- 1 / (2 * (s * s)))) by (field; lra). field. lra.
Qed.
Lemma levy_coherent : coherent levy.
Proof.
  pose proof PI_RGT_0 as Pi0. apply make; unfold inside; try exact I.
  - intros x [H _]. cbn in H. rewrite <- (levy_density x H) || idtac. replace (pdf levy x) with (/ 2 / (x * sqrt x) * norm_pdf (1 / sqrt x) * 2) by (rewrite levy_density by exact H; reflexivity). pose proof (sqrt_lt_R0 x H). split.
    + apply Rmult_lt_0_compat; [apply Rmult_lt_0_compat; [apply div_pos; nra|apply norm_pdf_pos]|lra].
    + apply (derive_loc (fun t => 0 + 2 * ndtr (- (1 / sqrt t)))).
      * eapply derive_to; [apply derive_scaled, (ndtr_comp (fun t => - (1 / sqrt t))), (is_derive_opp (fun t => 1 / sqrt t)), inv_root_derive, H|]. rewrite norm_pdf_even. unfold opp; cbn. unfold Rdiv. ring.
      * exists x. split; [exact H|]. intros t Ht. apply Rabs_def2 in Ht. rewrite levy_cdf by lra. ring.
  - intros x [H _]. cbn in H. rewrite levy_cdf by exact H. pose proof (sqrt_lt_R0 x H). assert (0 < 1 / sqrt x) by (apply div_pos; lra). pose proof (ndtr_half _ H1). rewrite ndtr_neg. pose proof (ndtr_values (1 / sqrt x)). lra.
  - intros q H. pose proof (ndtr_ndtri (q / 2) ltac:(lra)) as E. assert (N : ndtri (q / 2) < 0) by (apply ndtr_iff; rewrite E, ndtr_0; lra). assert (P : 0 < ppf levy q). { cbn. apply div_pos; nra. } split; [cbn in *; now split|]. rewrite levy_cdf by exact P. cbn. replace (1 / (- ndtri (q / 2) * - ndtri (q / 2))) with ((1 / - ndtri (q / 2)) * (1 / - ndtri (q / 2))) by (field; lra). rewrite sqrt_square by (left; apply div_pos; lra). replace (- (1 / (1 / - ndtri (q / 2)))) with (ndtri (q / 2)) by (field; lra). rewrite E. field.
Qed.
Lemma levy_l_coherent : coherent levy_l.
Proof.
  pose proof PI_RGT_0 as Pi0. apply make; unfold inside; cbn -[pow]; unfold norm_cdf, norm_ppf; try exact I.
  - intros x [_ H]. rewrite Rabs_left by exact H. assert (H' : 0 < - x) by lra. rewrite <- levy_density by exact H'. pose proof (sqrt_lt_R0 _ H'). split.
    + apply Rmult_lt_0_compat; [apply Rmult_lt_0_compat; [apply div_pos; nra|apply norm_pdf_pos]|lra].
    + apply (derive_loc (fun t => -1 + 2 * ndtr (1 / sqrt (- t)))).
      * eapply derive_to; [apply derive_scaled, (ndtr_comp (fun t => 1 / sqrt (- t)))|].
        -- apply (is_derive_comp (fun t => 1 / sqrt t) (fun t => - t) x (- / 2 / (- x * sqrt (- x))) (-1)); [apply inv_root_derive, H'|]. auto_derive; [exact I|ring].
        -- unfold scal; cbn. unfold mult; cbn. unfold Rdiv. ring.
      * exists (- x). split; [exact H'|]. intros t Ht. apply Rabs_def2 in Ht. rewrite Rabs_left by lra. ring.
  - intros x [_ H]. rewrite Rabs_left by exact H. assert (H' : 0 < - x) by lra. pose proof (sqrt_lt_R0 _ H') as S0. assert (P : 0 < 1 / sqrt (- x)) by (apply div_pos; lra). pose proof (ndtr_half _ P). pose proof (ndtr_values (1 / sqrt (- x))). lra.
  - intros q H. pose proof (ndtri_half ((q + 1) / 2) ltac:(lra)) as P. set (v := ndtri ((q + 1) / 2)) in *. assert (N : - 1 / (v * v) < 0). { assert (0 < 1 / (v * v)) by (apply div_pos; nra). replace (- 1 / (v * v)) with (- (1 / (v * v))) by (field; lra). lra. } split; [now split|]. rewrite Rabs_left by exact N. replace (- (-1 / (v * v))) with ((1 / v) * (1 / v)) by (field; lra). rewrite sqrt_square by (left; apply div_pos; lra). replace (1 / (1 / v)) with v by (field; lra). unfold v. rewrite ndtr_ndtri by lra. field.
Qed.
Lemma lognorm_coherent s : 0 < s -> coherent (lognorm s).
Proof.
  intros Hs. pose proof root2pi as R0. apply make; unfold inside; cbn -[pow]; unfold norm_cdf, norm_ppf; try exact I; try reflexivity.
  - intros x [H _]. split; [apply exp_pos|]. apply (derive_to _ x (/ (s * x) * norm_pdf (ln x / s))).
    + apply (ndtr_comp (fun t => ln t / s)). auto_derive; [lra|]. field. lra.
    + unfold lognorm_logpdf. assert (0 < s * x) by nra. rewrite exp_minus, exp_ln by nra. rewrite (norm_pdf_eq _ (- ln x ^ 2 / (2 * s ^ 2))) by (field; lra). field. lra.
  - intros x _. apply ndtr_values.
  - intros q H. split; [split; [apply exp_pos|exact I]|]. rewrite ln_exp. replace (s * ndtri q / s) with (ndtri q) by (field; lra). now apply ndtr_ndtri.
  - intros x _. apply sf_cdf.
  - intros x _. apply log_cdf.
  - intros x _. apply log_sf.
Qed.
Lemma gilbrat_coherent : coherent gilbrat.
Proof.
  pose proof (lognorm_coherent 1 ltac:(lra)) as C. apply make; unfold inside; cbn -[pow]; unfold norm_cdf, norm_ppf; try exact I; try reflexivity.
  - intros x H. destruct (density _ C x H) as [A B]. split; [exact A|]. apply (derive_ext (cdf (lognorm 1))); [|exact B]. intros t. cbn. unfold norm_cdf. f_equal. field.
  - intros x _. apply ndtr_values.
  - intros q H. split; [split; [apply exp_pos|exact I]|]. rewrite ln_exp. now apply ndtr_ndtri.
Qed.
Lemma power_derive (g : R -> R) (c x l : R) : is_derive g x l -> is_derive (fun t => 1 - ndtr (g t) ^^ c) x (- (c * (ndtr (g x) ^^ c / ndtr (g x)) * (l * norm_pdf (g x)))).
Proof.
  intros D. pose proof (ndtr_values (g x)) as V. apply (derive_to _ x (plus 0 (opp (scal (l * norm_pdf (g x)) (c * (ndtr (g x) ^^ c / ndtr (g x))))))); [|unfold plus, opp, scal; cbn; unfold mult; cbn; ring].
  apply (is_derive_plus (fun _ => 1)); [apply (@is_derive_const R_AbsRing R_NormedModule)|]. apply (is_derive_opp (fun t => ndtr (g t) ^^ c)). apply (is_derive_comp (fun u => u ^^ c) (fun t => ndtr (g t)) x); [|now apply ndtr_comp]. unfold Rpower. auto_derive; [lra|]. field. lra.
Qed.
Lemma powernorm_coherent c : 0 < c -> coherent (powernorm c).
Proof.
  intros Hc. apply make; unfold inside; cbn -[pow]; unfold norm_cdf, norm_ppf; try exact I; rewrite ?Rmult_1_r.
  - intros x _. pose proof (ndtr_values (- x)) as V. split; [apply Rmult_lt_0_compat; [pose proof (norm_pdf_pos x); nra|apply pow_pos]|]. eapply derive_to; [apply (power_derive (fun t => - t) c x (-1)); auto_derive; [exact I|ring]|]. rewrite pow_pred, norm_pdf_even by lra. ring.
  - intros x _. pose proof (ndtr_values (- x)) as V. pose proof (pow_pos (ndtr (- x)) c). pose proof (pow_small _ _ Hc V). lra.
  - intros q H. split; [now split|]. rewrite Ropp_involutive. assert (P : 0 < 1 / c) by (apply div_pos; lra). rewrite ndtr_ndtri by (split; [apply pow_pos|apply pow_small; lra]). rewrite pow_inv by (lra || (field; lra)). ring.
  - intros x _. rewrite !exp_plus, norm_log, exp_ln by exact Hc. unfold norm_logcdf, log_ndtr. reflexivity.
Qed.
Lemma powerlognorm_coherent c s : 0 < c -> 0 < s -> coherent (powerlognorm c s).
Proof.
  intros Hc Hs. apply make; unfold inside; cbn -[pow]; unfold norm_cdf, norm_ppf; try exact I; rewrite ?Rmult_1_r.
  - intros x [H _]. pose proof (ndtr_values (- ln x / s)) as V. split; [apply Rmult_lt_0_compat; [|apply pow_pos]; apply Rmult_lt_0_compat; [apply div_pos; nra|apply norm_pdf_pos]|]. eapply derive_to; [apply (power_derive (fun t => - ln t / s) c x (- / x / s)); auto_derive; [lra|field; lra]|]. rewrite pow_pred by lra. replace (norm_pdf (- ln x / s)) with (norm_pdf (ln x / s)) by (rewrite <- norm_pdf_even; f_equal; field; lra). field. repeat split; lra.
  - intros x _. pose proof (ndtr_values (- ln x / s)) as V. pose proof (pow_pos (ndtr (- ln x / s)) c). pose proof (pow_small _ _ Hc V). lra.
  - intros q H. split; [split; [apply exp_pos|exact I]|]. rewrite ln_exp. assert (P : 0 < 1 / c) by (apply div_pos; lra). replace (- (- s * ndtri ((1 - q) ^^ (1 / c))) / s) with (ndtri ((1 - q) ^^ (1 / c))) by (field; lra). rewrite ndtr_ndtri by (split; [apply pow_pos|apply pow_small; lra]). rewrite pow_inv by (lra || (field; lra)). ring.
Qed.
