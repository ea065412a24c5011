From Coq Require Import Reals Lra Lia Psatz.
From Coquelicot Require Import Coquelicot.
From Verif Require Import RvModel RvSpec.
Local Open Scope R_scope.

(* ---- general facts ---- *)
Lemma inside_between d x y z : inside d x -> inside d z -> x <= y <= z -> inside d y.
Proof. unfold inside. intros [A B] [C D] [E F]. destruct (low d), (high d); split; try exact I; lra. Qed.
Lemma increasing_cdf d : (forall x, inside d x -> 0 < pdf d x /\ is_derive (cdf d) x (pdf d x)) -> forall x y, inside d x -> inside d y -> x < y -> cdf d x < cdf d y.
Proof.
  intros H x y Hx Hy L. assert (Bt : forall t, x <= t <= y -> inside d t) by (intros; now apply (inside_between d x t y)).
  destruct (MVT_gen (cdf d) x y (pdf d)) as (c & Hc & E); rewrite ?Rmin_left, ?Rmax_right in * by lra.
  - intros t Ht. apply H, Bt. lra.
  - intros t Ht. apply continuity_pt_filterlim. apply (ex_derive_continuous (cdf d)). eexists. apply H, Bt, Ht.
  - assert (0 < pdf d c) by (apply H, Bt, Hc). nra.
Qed.
Lemma make d : (forall x, inside d x -> 0 < pdf d x /\ is_derive (cdf d) x (pdf d x)) -> (forall x, inside d x -> 0 < cdf d x < 1) -> (forall q, 0 < q < 1 -> inside d (ppf d q) /\ cdf d (ppf d q) = q) ->
  defined (sf d) (fun f => forall x, inside d x -> f x = 1 - cdf d x) -> defined (isf d) (fun f => forall q, 0 < q < 1 -> f q = ppf d (1 - q)) ->
  defined (logpdf d) (fun f => forall x, inside d x -> exp (f x) = pdf d x) -> defined (logcdf d) (fun f => forall x, inside d x -> exp (f x) = cdf d x) -> defined (logsf d) (fun f => forall x, inside d x -> exp (f x) = 1 - cdf d x) -> coherent d.
Proof.
  intros H V Q S1 S2 S3 S4 S5. constructor; try assumption. intros x Hx. destruct (Q (cdf d x) (V x Hx)) as [I E].
  destruct (Rtotal_order (ppf d (cdf d x)) x) as [L|[->|L]]; [|reflexivity|].
  - apply (increasing_cdf d H) in L; [lra|assumption|assumption].
  - apply (increasing_cdf d H) in L; [lra|assumption|assumption].
Qed.
Lemma quantile_unique d x q : coherent d -> inside d x -> 0 < q < 1 -> cdf d x = q -> ppf d q = x.
Proof. intros C I Q E. rewrite <- E. now apply unquantile. Qed.

(* ---- powers ---- *)
Lemma pow_pos x c : 0 < x ^^ c. Proof. apply exp_pos. Qed.
Lemma pow_pred x c : 0 < x -> x ^^ (c - 1) = x ^^ c / x.
Proof. intros H. unfold Rminus. rewrite Rpower_plus, Rpower_Ropp, Rpower_1 by exact H. reflexivity. Qed.
Lemma pow_succ x c : 0 < x -> x ^^ (c + 1) = x ^^ c * x.
Proof. intros H. rewrite Rpower_plus, Rpower_1 by exact H. reflexivity. Qed.
Lemma pow_inv x a b : 0 < x -> a * b = 1 -> (x ^^ a) ^^ b = x.
Proof. intros H E. rewrite Rpower_mult, E. now apply Rpower_1. Qed.
Lemma pow_small x c : 0 < c -> 0 < x < 1 -> x ^^ c < 1.
Proof. intros C [H1 H2]. unfold Rpower. rewrite <- exp_0. apply exp_increasing. assert (ln x < 0) by (rewrite <- ln_1; apply ln_increasing; lra). nra. Qed.
Lemma pow_large x c : 0 < c -> 1 < x -> 1 < x ^^ c.
Proof. intros C H. unfold Rpower. rewrite <- exp_0. apply exp_increasing. assert (0 < ln x) by (rewrite <- ln_1; apply ln_increasing; lra). nra. Qed.
Lemma pow_small_neg x c : c < 0 -> 0 < x < 1 -> 1 < x ^^ c.
Proof. intros C [H1 H2]. unfold Rpower. rewrite <- exp_0. apply exp_increasing. assert (ln x < 0) by (rewrite <- ln_1; apply ln_increasing; lra). nra. Qed.
Lemma pow_large_neg x c : c < 0 -> 1 < x -> x ^^ c < 1.
Proof. intros C H. unfold Rpower. rewrite <- exp_0. apply exp_increasing. assert (0 < ln x) by (rewrite <- ln_1; apply ln_increasing; lra). nra. Qed.
Lemma exp_lt1 x : x < 0 -> exp x < 1. Proof. intros. rewrite <- exp_0. now apply exp_increasing. Qed.
Lemma exp_gt1 x : 0 < x -> 1 < exp x. Proof. intros. rewrite <- exp_0. now apply exp_increasing. Qed.
Lemma ln_lt0 x : 0 < x < 1 -> ln x < 0. Proof. intros. rewrite <- ln_1. apply ln_increasing; lra. Qed.
Lemma ln_gt0 x : 1 < x -> 0 < ln x. Proof. intros. rewrite <- ln_1. apply ln_increasing; lra. Qed.
Lemma exp_logp x c : exp (c * ln x) = x ^^ c. Proof. reflexivity. Qed.
Lemma exp_minus x y : exp (x - y) = exp x / exp y. Proof. unfold Rminus. now rewrite exp_plus, exp_Ropp. Qed.
Lemma div_pos a b : 0 < a -> 0 < b -> 0 < a / b. Proof. intros. now apply Rdiv_lt_0_compat. Qed.
Lemma div_lt1 a b : 0 < b -> a < b -> a / b < 1. Proof. intros. apply (Rmult_lt_reg_r b); [lra|]. field_simplify; lra. Qed.

Lemma expon_coherent : coherent expon.
Proof.
  apply make; unfold inside; cbn; unfold expm1, log1p.
  - intros x [H _]. split; [apply exp_pos|]. auto_derive; [exact I|]. ring.
  - intros x [H _]. pose proof (exp_pos (- x)). pose proof (exp_lt1 (- x)). lra.
  - intros q H. rewrite Ropp_involutive, exp_ln by lra. pose proof (ln_lt0 (1 + - q)). repeat split; lra.
  - intros. ring.
  - intros. do 2 f_equal. ring.
  - reflexivity.
  - exact I.
  - intros. ring.
Qed.
Lemma weibull_min_coherent c : 0 < c -> coherent (weibull_min c).
Proof.
  intros Hc. apply make; unfold inside; cbn; unfold expm1, log1p, xlogy.
  - intros x [H _]. split; [pose proof (pow_pos x (c - 1)); pose proof (exp_pos (- x ^^ c)); apply Rmult_lt_0_compat; [nra|assumption]|]. rewrite pow_pred by exact H. unfold Rpower. auto_derive; [lra|]. field. lra.
  - intros x [H _]. pose proof (exp_pos (- x ^^ c)). pose proof (pow_pos x c). pose proof (exp_lt1 (- x ^^ c)). lra.
  - intros q H. pose proof (ln_lt0 (1 + - q)). rewrite pow_inv by (lra || (field; lra)). rewrite Ropp_involutive, exp_ln by lra. split; [split; [apply pow_pos|exact I]|lra].
  - intros. ring.
  - exact I.
  - intros x [H _]. rewrite exp_minus, exp_plus, exp_ln by exact Hc. rewrite exp_logp, exp_Ropp. unfold Rdiv. reflexivity.
  - exact I.
  - intros. ring.
Qed.
Lemma weibull_max_coherent c : 0 < c -> coherent (weibull_max c).
Proof.
  intros Hc. apply make; unfold inside; cbn; unfold expm1, log1p, xlogy.
  - intros x [_ H]. split; [pose proof (pow_pos (- x) (c - 1)); pose proof (exp_pos (- (- x) ^^ c)); apply Rmult_lt_0_compat; [nra|assumption]|]. rewrite pow_pred by lra. unfold Rpower. auto_derive; [lra|]. field. lra.
  - intros x [_ H]. pose proof (exp_pos (- (- x) ^^ c)). pose proof (pow_pos (- x) c). pose proof (exp_lt1 (- (- x) ^^ c)). lra.
  - intros q H. pose proof (ln_lt0 q H). rewrite Ropp_involutive, pow_inv by (lra || (field; lra)). rewrite Ropp_involutive, exp_ln by lra. pose proof (pow_pos (- ln q) (1 / c)). split; [split; [exact I|lra]|reflexivity].
  - intros. ring.
  - exact I.
  - intros x [_ H]. rewrite exp_minus, exp_plus, exp_ln by exact Hc. rewrite exp_logp, exp_Ropp. unfold Rdiv. reflexivity.
  - intros. reflexivity.
  - exact I.
Qed.
Lemma exponweib_pdf a c x : 0 < a -> 0 < c -> 0 < x -> exp (ln a + ln c + (a - 1) * ln (- (exp (- x ^^ c) - 1)) + - x ^^ c + (c - 1) * ln x) = a * c * ((1 - exp (- x ^^ c)) ^^ a / (1 - exp (- x ^^ c))) * exp (- x ^^ c) * (x ^^ c / x).
Proof.
  intros Ha Hc Hx. assert (P : 0 < 1 - exp (- x ^^ c)) by (pose proof (pow_pos x c); pose proof (exp_lt1 (- x ^^ c)); lra). rewrite !exp_plus, !exp_ln, !exp_logp by assumption. replace (- (exp (- x ^^ c) - 1)) with (1 - exp (- x ^^ c)) by ring. rewrite !pow_pred by assumption. ring.
Qed.
Lemma exponweib_coherent a c : 0 < a -> 0 < c -> coherent (exponweib a c).
Proof.
  intros Ha Hc. apply make; unfold inside; cbn; unfold expm1, log1p, xlogy.
  - intros x [H _]. split; [apply exp_pos|]. assert (P : 0 < 1 - exp (- x ^^ c)) by (pose proof (pow_pos x c); pose proof (exp_lt1 (- x ^^ c)); lra). rewrite exponweib_pdf by assumption. unfold Rpower in *. auto_derive; [split; [exact H|split; [lra|exact I]]|]. replace (- (exp (- exp (c * ln x)) + - (1))) with (1 - exp (- exp (c * ln x))) by ring. field. lra.
  - intros x [H _]. assert (P : 0 < - (exp (- x ^^ c) - 1) < 1) by (pose proof (exp_pos (- x ^^ c)); pose proof (pow_pos x c); pose proof (exp_lt1 (- x ^^ c)); lra). split; [apply pow_pos|now apply pow_small].
  - intros q H. split; [split; [apply pow_pos|exact I]|]. assert (P : 0 < q ^^ (1 / a) < 1) by (split; [apply pow_pos|apply pow_small; [apply div_pos; lra|exact H]]). pose proof (ln_lt0 (1 + - q ^^ (1 / a))). rewrite (pow_inv (- ln _)) by (lra || (field; lra)). rewrite Ropp_involutive, exp_ln by lra. replace (- (1 + - q ^^ (1 / a) - 1)) with (q ^^ (1 / a)) by ring. apply pow_inv; [lra|field; lra].
  - exact I.
  - exact I.
  - reflexivity.
  - exact I.
  - exact I.
Qed.
Lemma exponpow_coherent b : 0 < b -> coherent (exponpow b).
Proof.
  intros Hb. apply make; unfold inside; cbn; unfold expm1, log1p, xlogy.
  - intros x [H _]. split; [apply exp_pos|]. rewrite exp_minus, !exp_plus, exp_ln by exact Hb. rewrite exp_logp, pow_pred by exact H. unfold Rpower. auto_derive; [lra|]. replace (exp (- (exp (exp (b * ln x)) + - (1)))) with (exp 1 / exp (exp (exp (b * ln x)))) by (rewrite <- exp_minus; f_equal; ring). field. split; [lra|apply Rgt_not_eq, exp_pos].
  - intros x [H _]. pose proof (pow_pos x b). pose proof (exp_gt1 (x ^^ b)). pose proof (exp_pos (- (exp (x ^^ b) - 1))). pose proof (exp_lt1 (- (exp (x ^^ b) - 1))). lra.
  - intros q H. split; [split; [apply pow_pos|exact I]|]. pose proof (ln_lt0 (1 + - q)). pose proof (ln_gt0 (1 + - ln (1 + - q))). rewrite pow_inv by (lra || (field; lra)). rewrite exp_ln by lra. replace (- (1 + - ln (1 + - q) - 1)) with (ln (1 + - q)) by ring. rewrite exp_ln by lra. ring.
  - intros. ring.
  - intros q H. do 2 f_equal. replace (1 + - (1 - q)) with q by ring. reflexivity.
  - reflexivity.
  - exact I.
  - exact I.
Qed.
Lemma gompertz_coherent c : 0 < c -> coherent (gompertz c).
Proof.
  intros Hc. apply make; unfold inside; cbn; unfold expm1, log1p, xlogy.
  - intros x [H _]. split; [apply exp_pos|]. rewrite exp_minus, exp_plus, exp_ln by exact Hc. auto_derive; [exact I|]. replace (- c * (exp x + - (1))) with (- (c * (exp x - 1))) by ring. rewrite exp_Ropp. field. apply Rgt_not_eq, exp_pos.
  - intros x [H _]. pose proof (exp_gt1 x H). pose proof (exp_pos (- c * (exp x - 1))). assert (0 < c * (exp x - 1)) by (apply Rmult_lt_0_compat; lra). pose proof (exp_lt1 (- c * (exp x - 1))). lra.
  - intros q H. pose proof (ln_lt0 (1 + - q)). assert (P : 0 < - 1 / c * ln (1 + - q)). { replace (- 1 / c * ln (1 + - q)) with (- ln (1 + - q) / c) by (field; lra). apply div_pos; lra. } split; [split; [apply ln_gt0; lra|exact I]|]. rewrite exp_ln by lra. replace (- c * (1 + - 1 / c * ln (1 + - q) - 1)) with (ln (1 + - q)) by (field; lra). rewrite exp_ln by lra. ring.
  - exact I.
  - exact I.
  - reflexivity.
  - exact I.
  - exact I.
Qed.
Lemma gumbel_r_coherent : coherent gumbel_r.
Proof.
  apply make; unfold inside; cbn; unfold expm1, log1p.
  - intros x _. split; [apply exp_pos|]. unfold Rminus. rewrite exp_plus. auto_derive; [exact I|]. ring.
  - intros x _. pose proof (exp_pos (- x)). pose proof (exp_pos (- exp (- x))). pose proof (exp_lt1 (- exp (- x))). lra.
  - intros q H. pose proof (ln_lt0 q H). rewrite Ropp_involutive, exp_ln by lra. rewrite Ropp_involutive, exp_ln by lra. repeat split.
  - exact I.
  - exact I.
  - reflexivity.
  - reflexivity.
  - exact I.
Qed.
Lemma gumbel_l_coherent : coherent gumbel_l.
Proof.
  apply make; unfold inside; cbn; unfold expm1, log1p.
  - intros x _. split; [apply exp_pos|]. unfold Rminus. rewrite exp_plus. auto_derive; [exact I|]. ring.
  - intros x _. pose proof (exp_pos x). pose proof (exp_pos (- exp x)). pose proof (exp_lt1 (- exp x)). lra.
  - intros q H. pose proof (ln_lt0 (1 + - q)). rewrite exp_ln by lra. rewrite Ropp_involutive, exp_ln by lra. repeat split. ring.
  - intros. ring.
  - intros q H. do 3 f_equal. ring.
  - reflexivity.
  - exact I.
  - intros. ring.
Qed.
Lemma invweibull_coherent c : 0 < c -> coherent (invweibull c).
Proof.
  intros Hc. apply make; unfold inside; cbn; unfold expm1, log1p, xlogy; try exact I.
  - intros x [H _]. split; [pose proof (pow_pos x (- c - 1)); pose proof (exp_pos (- x ^^ (- c))); apply Rmult_lt_0_compat; [nra|assumption]|]. rewrite pow_pred by lra. unfold Rpower. auto_derive; [lra|]. field. lra.
  - intros x [H _]. pose proof (exp_pos (- x ^^ (- c))). pose proof (pow_pos x (- c)). pose proof (exp_lt1 (- x ^^ (- c))). lra.
  - intros q H. pose proof (ln_lt0 q H). rewrite pow_inv by (lra || (field; lra)). rewrite Ropp_involutive, exp_ln by lra. split; [split; [apply pow_pos|exact I]|reflexivity].
Qed.
