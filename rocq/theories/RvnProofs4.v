From Coq Require Import Reals Lra Lia Psatz.
From Coquelicot Require Import Coquelicot.
From Verif Require Import RvModel RvSpec RvProofs RvProofs2 RvProofs3 RvnModel RvnSpec RvnProofs RvnProofs2.
Local Open Scope R_scope.

Lemma derive_add (f g : R -> R) (x l m : R) : is_derive f x l -> is_derive g x m -> is_derive (fun t => f t + g t) x (l + m).
Proof. intros A B. exact (is_derive_plus f g x l m A B). Qed.
Lemma derive_mul (f g : R -> R) (x l m : R) : is_derive f x l -> is_derive g x m -> is_derive (fun t => f t * g t) x (l * g x + f x * m).
Proof. intros A B. apply (is_derive_mult f g x l m A B). intros; apply Rmult_comm. Qed.
Lemma foldnorm_density c : has_density (fun _ => True) (foldnorm_pdf c) (foldnorm_cdf c).
Proof.
  intros x _. unfold foldnorm_pdf, foldnorm_cdf, norm_cdf. split; [pose proof (norm_pdf_pos (x + c)); pose proof (norm_pdf_pos (x - c)); lra|].
  apply (derive_ext (fun t => (0 + 1 * ndtr (t - c)) + (-1 + 1 * ndtr (t + c)))); [intros t; ring|]. eapply derive_to; [apply derive_add; apply derive_scaled; [apply (ndtr_comp (fun t => t - c) x 1)|apply (ndtr_comp (fun t => t + c) x 1)]; auto_derive; trivial; ring|]. ring.
Qed.
Lemma foldnorm_values c x : 0 < x -> 0 < foldnorm_cdf c x < 1.
Proof.
  intros H. unfold foldnorm_cdf, norm_cdf. assert (E : ndtr (c - x) = 1 - ndtr (x - c)) by (rewrite <- ndtr_neg; f_equal; ring). assert (L : ndtr (c - x) < ndtr (x + c)) by (apply ndtr_increasing; lra). pose proof (ndtr_values (x + c)). pose proof (ndtr_values (c - x)). lra.
Qed.
Lemma exponnorm_pdf_eq K x : exponnorm_pdf K x = 1 / K * exp (/ 2 * (1 / K) ^ 2 - 1 / K * x) * ndtr (x - 1 / K).
Proof. unfold exponnorm_pdf. cbn zeta. rewrite erfc_ndtr, Ropp_involutive. generalize (exp (/ 2 * (1 / K) ^ 2 - 1 / K * x)), (ndtr (x - 1 / K)), (1 / K). intros e n k. field. Qed.
Lemma exponnorm_shift K x : exp (1 / K * (/ 2 * (1 / K) - x)) * norm_pdf (x - 1 / K) = norm_pdf x.
Proof. unfold norm_pdf, Rdiv at 4. unfold Rdiv. rewrite <- Rmult_assoc, <- exp_plus. f_equal. f_equal. generalize (/ K). intros k. field. Qed.
Lemma exp_lin (k x : R) : is_derive (fun t => exp (k * (/ 2 * k - t))) x (- k * exp (k * (/ 2 * k - x))).
Proof. auto_derive; [exact I|]. replace (/ 2 * k + - x) with (/ 2 * k - x) by ring. ring. Qed.
Lemma exponnorm_density K : 0 < K -> has_density (fun _ => True) (exponnorm_pdf K) (exponnorm_cdf K).
Proof.
  intros HK x _. rewrite exponnorm_pdf_eq. pose proof (ndtr_values (x - 1 / K)) as V. assert (0 < 1 / K) by (apply div_pos; lra). split; [apply Rmult_lt_0_compat; [apply Rmult_lt_0_compat; [assumption|apply exp_pos]|lra]|].
  unfold exponnorm_cdf, norm_cdf. cbn zeta. apply (derive_ext (fun t => ndtr t + (0 + -1 * (exp (1 / K * (/ 2 * (1 / K) - t)) * ndtr (t - 1 / K))))); [intros t; ring|]. eapply derive_to.
  - apply derive_add; [apply ndtr_derive|]. apply derive_scaled. apply (derive_mul (fun t => exp (1 / K * (/ 2 * (1 / K) - t))) (fun t => ndtr (t - 1 / K)) x (- (1 / K) * exp (1 / K * (/ 2 * (1 / K) - x)))); [apply exp_lin|]. apply (ndtr_comp (fun t => t - 1 / K) x 1). auto_derive; [exact I|ring].
  - rewrite Rmult_1_l, exponnorm_shift. replace (/ 2 * (1 / K) ^ 2 - 1 / K * x) with (1 / K * (/ 2 * (1 / K) - x)) by ring. ring.
Qed.
Lemma exponnorm_others K x : 0 < K -> exp (exponnorm_logpdf K x) = exponnorm_pdf K x /\ exponnorm_sf K x = 1 - exponnorm_cdf K x /\ exponnorm_cdf K x < 1.
Proof.
  intros HK. pose proof (ndtr_values (x - 1 / K)) as V. assert (0 < 1 / K) by (apply div_pos; lra). split; [|split].
  - unfold exponnorm_logpdf, exponnorm_pdf. cbn zeta. rewrite erfc_ndtr, Ropp_involutive. rewrite exp_plus, exp_ln by nra. ring.
  - unfold exponnorm_sf, exponnorm_cdf, norm_cdf. cbn zeta. rewrite ndtr_neg. ring.
  - unfold exponnorm_cdf, norm_cdf. cbn zeta. pose proof (exp_pos (1 / K * (/ 2 * (1 / K) - x))). pose proof (ndtr_values x). nra.
Qed.
Lemma root_derive x : 0 < x -> is_derive sqrt x (/ (2 * sqrt x)).
Proof. intros H. auto_derive; [exact H|]. ring. Qed.
Lemma cube_root x : 0 < x -> sqrt (2 * PI * x ^^ 3) = sqrt (2 * PI) * (x * sqrt x).
Proof.
  intros H. pose proof PI_RGT_0. replace (x ^^ 3) with (x ^ 3) by (rewrite <- Rpower_pow by exact H; f_equal; cbn; ring). rewrite sqrt_mult by (try lra; apply pow_le; lra). f_equal. destruct (sq x H) as (s & Hs & -> & ->). replace ((s * s) ^ 3) with ((s * s * s) * (s * s * s)) by ring. apply sqrt_square. nra.
Qed.
(* the two normal terms of the inverse Gaussian distribution *)
Lemma mirror mu s : 0 < mu -> 0 < s -> exp (2 / mu) * norm_pdf ((s * s + mu) / (s * mu)) = norm_pdf ((s * s - mu) / (s * mu)).
Proof.
  intros Hm Hs. unfold norm_pdf. unfold Rdiv at 2. rewrite <- Rmult_assoc, <- exp_plus. unfold Rdiv at 4. f_equal. f_equal. field. lra.
Qed.
Lemma invgauss_density mu : 0 < mu -> has_density (fun x => 0 < x) (invgauss_pdf mu) (invgauss_cdf mu).
Proof.
  intros Hm x H. pose proof PI_RGT_0. pose proof root2pi as R0. assert (Hs := sqrt_lt_R0 x H). assert (E2 : sqrt x * sqrt x = x) by (apply sqrt_sqrt; lra).
  assert (EP : invgauss_pdf mu x = / (x * sqrt x) * norm_pdf ((x - mu) / (sqrt x * mu))).
  { unfold invgauss_pdf. rewrite cube_root by exact H. rewrite (norm_pdf_eq _ (- 1 / (2 * x) * ((x - mu) / mu) ^ 2)). - field. lra. - generalize dependent (sqrt x). intros s Hs E2. subst x. field. lra. }
  rewrite EP. split; [apply Rmult_lt_0_compat; [apply Rinv_0_lt_compat; nra|apply norm_pdf_pos]|].
  apply (derive_loc (fun t => ndtr (sqrt t / mu - 1 / sqrt t) + (0 + exp (2 / mu) * ndtr (- (sqrt t / mu + 1 / sqrt t))))).
  - eapply derive_to; [apply derive_add; [apply (ndtr_comp (fun t => sqrt t / mu - 1 / sqrt t) x (/ (2 * sqrt x) / mu + / 2 / (x * sqrt x)))|apply derive_scaled, (ndtr_comp (fun t => - (sqrt t / mu + 1 / sqrt t)) x (- (/ (2 * sqrt x) / mu - / 2 / (x * sqrt x))))]|].
    + auto_derive; [repeat split; lra|]. rewrite E2. field. lra.
    + auto_derive; [repeat split; lra|]. rewrite E2. field. lra.
    + rewrite norm_pdf_even. pose proof (mirror mu (sqrt x) Hm Hs) as M. rewrite E2 in M. replace (sqrt x / mu + 1 / sqrt x) with ((x + mu) / (sqrt x * mu)) by (rewrite <- E2 at 1; field; lra). replace (sqrt x / mu - 1 / sqrt x) with ((x - mu) / (sqrt x * mu)) by (rewrite <- E2 at 1; field; lra). rewrite (Rmult_comm (exp _)), Rmult_assoc, (Rmult_comm (norm_pdf _) (exp _)), M. field. lra.
  - exists x. split; [exact H|]. intros t Ht. apply Rabs_def2 in Ht. assert (T : 0 < t) by lra. unfold invgauss_cdf, norm_cdf. cbn zeta. destruct (sq t T) as (s & Ps & Es & Et). replace (sqrt (1 / t)) with (1 / s) by (rewrite Et; replace (1 / (s * s)) with (1 / s * (1 / s)) by (field; lra); symmetry; apply sqrt_square; left; apply div_pos; lra). rewrite Es. replace (1 / s * (t - mu) / mu) with (s / mu - 1 / s) by (rewrite Et; field; lra). replace (- (1 / s) * (t + mu) / mu) with (- (s / mu + 1 / s)) by (rewrite Et; field; lra). replace (2 / mu) with (1 / mu + 1 / mu) by (field; lra). rewrite exp_plus. ring.
Qed.
Lemma invgauss_log mu x : 0 < mu -> 0 < x -> exp (invgauss_logpdf mu x) = invgauss_pdf mu x.
Proof.
  intros Hm H. pose proof PI_RGT_0. pose proof root2pi. pose proof (sqrt_lt_R0 x H). unfold invgauss_logpdf, invgauss_pdf. rewrite cube_root by exact H. replace (- / 2 * ln (2 * PI) - 3 / 2 * ln x) with (- (/ 2 * ln (2 * PI)) + - (ln x + / 2 * ln x)) by field. unfold Rminus at 1. rewrite !exp_plus, !exp_Ropp, exp_plus, !exp_half, exp_ln by lra. rewrite <- exp_Ropp. replace (- (((x - mu) / mu) ^ 2 / (2 * x))) with (- 1 / (2 * x) * ((x - mu) / mu) ^ 2) by (field; lra). field. lra.
Qed.
Lemma recipinvgauss_density mu : 0 < mu -> has_density (fun x => 0 < x) (recipinvgauss_pdf mu) (recipinvgauss_cdf mu).
Proof.
  intros Hm x H. pose proof PI_RGT_0. pose proof root2pi as R0. assert (Hs := sqrt_lt_R0 x H). assert (E2 : sqrt x * sqrt x = x) by (apply sqrt_sqrt; lra).
  assert (M : exp (2 / mu) * norm_pdf (1 / sqrt x * (1 / mu + x)) = norm_pdf (1 / sqrt x * (1 / mu - x))). { rewrite (norm_pdf_eq (1 / sqrt x * (1 / mu - x)) (2 / mu + - (1 / sqrt x * (1 / mu + x)) ^ 2 / 2)); [rewrite exp_plus; unfold norm_pdf, norm_pdf_C; unfold Rdiv; ring|]. generalize dependent (sqrt x). intros s Hs E2. subst x. field. lra. }
  assert (EP : recipinvgauss_pdf mu x = / sqrt x * norm_pdf (1 / sqrt x * (1 / mu - x))).
  { unfold recipinvgauss_pdf. rewrite sqrt_mult by lra. rewrite (norm_pdf_eq _ (- (1 - mu * x) ^ 2 / (2 * x * mu ^ 2))). - field. lra. - try clear EP; clear M; generalize dependent (sqrt x). intros s Hs E2. subst x. field. lra. }
  rewrite EP. split; [apply Rmult_lt_0_compat; [apply Rinv_0_lt_compat; lra|apply norm_pdf_pos]|].
  unfold recipinvgauss_cdf, norm_cdf. cbn zeta. apply (derive_ext (fun t => (1 + -1 * ndtr (1 / sqrt t * (1 / mu - t))) + (0 + - exp (2 / mu) * ndtr (- (1 / sqrt t) * (1 / mu + t))))); [intros t; ring|].
  eapply derive_to; [apply derive_add; apply derive_scaled; [apply (ndtr_comp (fun t => 1 / sqrt t * (1 / mu - t)) x (- / 2 / (x * sqrt x) / mu - / 2 / sqrt x))|apply (ndtr_comp (fun t => - (1 / sqrt t) * (1 / mu + t)) x (/ 2 / (x * sqrt x) / mu - / 2 / sqrt x))]|].
  - auto_derive; [repeat split; lra|]. try clear EP; clear M; generalize dependent (sqrt x). intros s Hs E2. subst x. field. lra.
  - auto_derive; [repeat split; lra|]. try clear EP; clear M; generalize dependent (sqrt x). intros s Hs E2. subst x. field. lra.
  - replace (- (1 / sqrt x) * (1 / mu + x)) with (- (1 / sqrt x * (1 / mu + x))) by ring. rewrite norm_pdf_even. transitivity (- (- / 2 / (x * sqrt x) / mu - / 2 / sqrt x) * norm_pdf (1 / sqrt x * (1 / mu - x)) - (/ 2 / (x * sqrt x) / mu - / 2 / sqrt x) * (exp (2 / mu) * norm_pdf (1 / sqrt x * (1 / mu + x)))); [ring|]. rewrite M. field. lra.
Qed.
Lemma recipinvgauss_log mu x : 0 < mu -> 0 < x -> exp (recipinvgauss_logpdf mu x) = recipinvgauss_pdf mu x.
Proof. intros Hm H. pose proof PI_RGT_0. unfold recipinvgauss_logpdf, recipinvgauss_pdf. assert (0 < 2 * PI * x) by nra. rewrite exp_minus, exp_half by assumption. pose proof (sqrt_lt_R0 _ H1). field. lra. Qed.
