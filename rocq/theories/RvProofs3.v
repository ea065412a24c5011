From Coq Require Import Reals Lra Lia Psatz.
From Coquelicot Require Import Coquelicot.
From Verif Require Import RvModel RvSpec RvProofs RvProofs2.
Local Open Scope R_scope.

(* ---- functions in two pieces ---- *)
Lemma derive_loc (f h : R -> R) (x l : R) : is_derive f x l -> (exists e, 0 < e /\ forall t, Rabs (t - x) < e -> f t = h t) -> is_derive h x l.
Proof. intros D (e & E & H). apply (is_derive_ext_loc f); [|exact D]. exists (mkposreal e E). intros t Ht. apply H. exact Ht. Qed.
Lemma glue (h f g : R -> R) (m x l : R) : (forall t, t < m -> h t = f t) -> (forall t, m < t -> h t = g t) -> h m = f m -> f m = g m \/ x <> m -> (x <= m -> is_derive f x l) -> (m <= x -> is_derive g x l) -> is_derive h x l.
Proof.
  intros Hf Hg Hm Em Df Dg. destruct (Rtotal_order x m) as [L|[E|L]].
  - apply (derive_loc f); [apply Df; lra|]. exists (m - x). split; [lra|]. intros t Ht. symmetry. apply Hf. apply Rabs_def2 in Ht. lra.
  - subst x. destruct Em as [Em|Em]; [|congruence]. specialize (Df (Rle_refl m)). specialize (Dg (Rle_refl m)). apply is_derive_Reals in Df. apply is_derive_Reals in Dg. apply is_derive_Reals. intros eps He. destruct (Df eps He) as [d1 H1]. destruct (Dg eps He) as [d2 H2]. assert (P : 0 < Rmin d1 d2) by (apply Rmin_pos; [apply d1|apply d2]). exists (mkposreal _ P). intros t Nt Lt. cbn in Lt. assert (Rabs t < d1) by (eapply Rlt_le_trans; [exact Lt|apply Rmin_l]). assert (Rabs t < d2) by (eapply Rlt_le_trans; [exact Lt|apply Rmin_r]). destruct (Rlt_dec t 0).
    + rewrite (Hf (m + t)) by lra. rewrite Hm. now apply H1.
    + rewrite (Hg (m + t)) by lra. rewrite Hm, Em. now apply H2.
  - apply (derive_loc g); [apply Dg; lra|]. exists (x - m). split; [lra|]. intros t Ht. symmetry. apply Hg. apply Rabs_def2 in Ht. lra.
Qed.

Lemma uniform_coherent : coherent uniform.
Proof. apply make; unfold inside; cbn; try exact I; try tauto. intros x H. split; [lra|]. auto_derive; [exact I|reflexivity]. Qed.
Lemma rayleigh_coherent : coherent rayleigh.
Proof.
  apply make; unfold inside; cbn; unfold expm1, log1p; try exact I.
  - intros x [H _]. split; [apply exp_pos|]. rewrite exp_minus, exp_ln by exact H. auto_derive; [exact I|]. replace (- / 2 * (x * (x * 1))) with (- (/ 2 * x * x)) by ring. rewrite exp_Ropp. field. apply Rgt_not_eq, exp_pos.
  - intros x [H _]. pose proof (exp_pos (- / 2 * (x * (x * 1)))). pose proof (exp_lt1 (- / 2 * (x * (x * 1)))). nra.
  - intros q H. pose proof (ln_lt0 (1 + - q)). assert (P : 0 < -2 * ln (1 + - q)) by lra. rewrite Rmult_1_r, sqrt_sqrt by lra. replace (- / 2 * (-2 * ln (1 + - q))) with (ln (1 + - q)) by field. rewrite exp_ln by lra. split; [split; [now apply sqrt_lt_R0|exact I]|ring].
  - intros x _. replace (- / 2 * x * x) with (- / 2 * (x * (x * 1))) by ring. ring.
  - intros q H. do 3 f_equal. ring.
  - reflexivity.
  - intros x _. replace (- / 2 * x * x) with (- / 2 * (x * (x * 1))) by ring. ring.
Qed.
Lemma truncrayleigh_coherent c : 0 <= c -> coherent (truncrayleigh c).
Proof.
  intros Hc. apply make; unfold inside; cbn; unfold expm1, log1p; try exact I.
  - intros x [H _]. split; [apply Rmult_lt_0_compat; [lra|apply exp_pos]|]. auto_derive; [exact I|]. unfold Rdiv. replace ((x + c) * (x + c) - c * c) with ((x + c) * (x + c) + - (c * c)) by ring. field.
  - intros x [H _]. set (a := - ((x + c) * (x + c) - c * c) / 2). assert (a < 0) by (unfold a; nra). pose proof (exp_pos a). pose proof (exp_lt1 a). lra.
  - intros q H. pose proof (ln_lt0 (1 + - q)). assert (P : c * c < c * c - 2 * ln (1 + - q)) by lra. set (s := sqrt (c * c - 2 * ln (1 + - q))). assert (S2 : s * s = c * c - 2 * ln (1 + - q)) by (apply sqrt_sqrt; nra). assert (0 <= s) by apply sqrt_pos. split; [split; [nra|exact I]|]. replace (- ((s - c + c) * (s - c + c) - c * c) / 2) with (ln (1 + - q)) by nra. rewrite exp_ln by lra. ring.
  - intros. ring.
  - intros x [H _]. unfold Rminus at 1. rewrite exp_plus, exp_ln by lra. do 2 f_equal. field.
  - intros. ring.
Qed.
Lemma reciprocal_coherent a b : 0 < a < b -> coherent (reciprocal a b).
Proof.
  intros [Ha Hb]. assert (Q : 1 < b * 1 / a) by (apply (Rmult_lt_reg_r a); [lra|]; field_simplify; lra). assert (L : 0 < ln (b * 1 / a)) by now apply ln_gt0. assert (E : ln b = ln a + ln (b * 1 / a)) by (rewrite <- ln_mult by lra; f_equal; field; lra).
  apply make; unfold inside; cbn; try exact I.
  - intros x [H _]. split; [apply div_pos; nra|]. auto_derive; [lra|]. field. lra.
  - intros x [H1 H2]. assert (ln a < ln x) by (apply ln_increasing; lra). assert (ln x < ln b) by (apply ln_increasing; lra). split; [apply div_pos; lra|apply div_lt1; lra].
  - intros q H. assert (P1 : 1 < (b * 1 / a) ^^ q) by (apply pow_large; lra). assert (P2 : (b * 1 / a) ^^ q < b * 1 / a). { rewrite <- (Rpower_1 (b * 1 / a)) at 2 by lra. apply Rpower_lt; lra. } assert (a * (b * 1 / a) = b) by (field; lra). split; [split; nra|]. rewrite ln_mult by lra. unfold Rpower at 1. rewrite ln_exp. field. lra.
  - intros x [H _]. rewrite exp_minus, exp_Ropp, !exp_ln by lra. field. lra.
Qed.
Lemma truncexpon_coherent b : 0 < b -> coherent (truncexpon b).
Proof.
  intros Hb. pose proof (exp_lt1 (- b)) as Eb. pose proof (exp_pos (- b)) as Pb. apply make; unfold inside; cbn; unfold expm1, log1p; try exact I.
  - intros x [H1 _]. split; [apply div_pos; [apply exp_pos|lra]|]. auto_derive; [lra|]. field. lra.
  - intros x [H1 H2]. pose proof (exp_lt1 (- x)). assert (exp (- b) < exp (- x)) by (apply exp_increasing; lra). replace ((exp (- x) - 1) / (exp (- b) - 1)) with ((1 - exp (- x)) / (1 - exp (- b))) by (field; lra). split; [apply div_pos; lra|apply div_lt1; lra].
  - intros q H. assert (P : exp (- b) < 1 + q * (exp (- b) - 1) < 1) by nra. assert (L1 : - b < ln (1 + q * (exp (- b) - 1))) by (rewrite <- (ln_exp (- b)) at 1; apply ln_increasing; lra). pose proof (ln_lt0 (1 + q * (exp (- b) - 1))). rewrite Ropp_involutive, exp_ln by lra. split; [split; lra|]. field. lra.
  - intros x [H _]. rewrite exp_minus, exp_ln by lra. reflexivity.
Qed.
Lemma bradford_coherent c : 0 < c -> coherent (bradford c).
Proof.
  intros Hc. pose proof (ln_gt0 (1 + c)) as L. apply make; unfold inside; cbn; unfold expm1, log1p; try exact I.
  - intros x [H1 H2]. split; [apply div_pos; [apply div_pos; nra|lra]|]. auto_derive; [repeat split; nra|]. field. repeat split; nra.
  - intros x [H1 H2]. pose proof (ln_gt0 (1 + c * x)). assert (ln (1 + c * x) < ln (1 + c)) by (apply ln_increasing; nra). split; [apply div_pos; nra|apply div_lt1; lra].
  - intros q H. assert (P1 : 1 < exp (q * ln (1 + c))) by (apply exp_gt1; nra). assert (P2 : exp (q * ln (1 + c)) < 1 + c). { rewrite <- (exp_ln (1 + c)) at 2 by lra. apply exp_increasing. nra. } split; [split; [apply div_pos; lra|apply div_lt1; lra]|]. replace (1 + c * ((exp (q * ln (1 + c)) - 1) / c)) with (exp (q * ln (1 + c))) by (field; lra). rewrite ln_exp. field. lra.
Qed.
Lemma genhalflogistic_coherent c : 0 < c -> coherent (genhalflogistic c).
Proof.
  intros Hc. assert (IC : forall x, x < 1 / c -> 0 < 1 - c * x). { intros x H. assert (c * (1 / c) = 1) by (field; lra). nra. } apply make; unfold inside; cbn; try exact I.
  - intros x [H1 H2]. specialize (IC x H2). rewrite pow_pred by exact IC. pose proof (pow_pos (1 - c * x) (1 / c)) as P. replace ((1 - c * x) ^^ (1 / c) / (1 - c * x) * (1 - c * x)) with ((1 - c * x) ^^ (1 / c)) by (field; lra). split; [apply div_pos; [assert (0 < (1 - c * x) ^^ (1 / c) / (1 - c * x)) by (apply div_pos; lra); lra|nra]|]. unfold Rpower in *. auto_derive; [replace (1 + - (c * x)) with (1 - c * x) by ring; replace (1 * / c) with (1 / c) by (field; lra); sides|]. replace (1 + - (c * x)) with (1 - c * x) by ring. replace (1 * / c) with (1 / c) by (field; lra). field. repeat split; lra.
  - intros x [H1 H2]. specialize (IC x H2). pose proof (pow_pos (1 - c * x) (1 / c)). assert ((1 - c * x) ^^ (1 / c) < 1) by (apply pow_small; [apply div_pos; lra|nra]). split; [apply div_pos; lra|apply div_lt1; lra].
  - intros q H. assert (P : 0 < (1 - q) / (1 + q) < 1) by (split; [apply div_pos; lra|apply div_lt1; lra]). set (t := (1 - q) / (1 + q)) in *. pose proof (pow_pos t c). pose proof (pow_small t c Hc P). assert (0 < 1 / c) by (apply div_pos; lra). split; [split; nra|]. replace (1 - c * (1 / c * (1 - t ^^ c))) with (t ^^ c) by (field; lra). rewrite pow_inv by (lra || (field; lra)). unfold t. field. lra.
Qed.
Lemma halflogistic_coherent : coherent halflogistic.
Proof.
  apply make; unfold inside; cbn; unfold log1p, artanh; try exact I.
  - intros x [H _]. split; [apply exp_pos|]. pose proof (one_exp (- x)) as P. rewrite !exp_minus. replace (2 * ln (1 + exp (- x))) with (ln (1 + exp (- x)) + ln (1 + exp (- x))) by ring. rewrite exp_plus, !exp_ln by lra. unfold tanh, sinh, cosh. pose proof (exp_pos (x / 2)) as E. pose proof (exp_pos (- (x / 2))) as E'. auto_derive; [sides|]. replace (x * / 2) with (x / 2) by reflexivity. rewrite !exp_Ropp. replace (exp x) with (exp (x / 2) * exp (x / 2)) by (rewrite <- exp_plus; f_equal; field). field. repeat split; nra.
  - intros x [H _]. unfold tanh, sinh, cosh. assert (exp (- (x / 2)) < exp (x / 2)) by (apply exp_increasing; lra). pose proof (exp_pos (- (x / 2))). split; [apply div_pos; lra|apply div_lt1; lra].
  - intros q H. assert (P : 1 < (1 + q) / (1 - q)) by (apply (Rmult_lt_reg_r (1 - q)); [lra|]; field_simplify; lra). pose proof (ln_gt0 _ P). split; [split; [lra|exact I]|]. replace (2 * (ln ((1 + q) / (1 - q)) / 2) / 2) with (ln ((1 + q) / (1 - q)) / 2) by field. unfold tanh, sinh, cosh. set (y := ln ((1 + q) / (1 - q)) / 2). assert (E : exp y * exp y = (1 + q) / (1 - q)) by (rewrite <- exp_plus; unfold y; replace (ln ((1 + q) / (1 - q)) / 2 + ln ((1 + q) / (1 - q)) / 2) with (ln ((1 + q) / (1 - q))) by field; apply exp_ln; lra). pose proof (exp_pos y). rewrite exp_Ropp. replace ((exp y - / exp y) / 2 / ((exp y + / exp y) / 2)) with ((exp y * exp y - 1) / (exp y * exp y + 1)) by (field; split; nra). rewrite E. field. split; lra.
  - reflexivity.
Qed.
Lemma atan_pos x : 0 < x -> 0 < atan x. Proof. intros. rewrite <- atan_0. now apply atan_increasing. Qed.
Lemma cauchy_coherent : coherent cauchy.
Proof.
  pose proof PI_RGT_0 as Pi0. apply make; unfold inside; cbn; try exact I.
  - intros x _. split; [apply div_pos; [apply div_pos; lra|nra]|]. auto_derive; [exact I|]. unfold Rsqr. field. split; nra.
  - intros x _. pose proof (atan_bound x). assert (E : / 2 + 1 / PI * atan x = (PI / 2 + atan x) / PI) by (field; lra). rewrite E. split; [apply div_pos; lra|apply div_lt1; lra].
  - intros q Hq. split; [now split|]. rewrite atan_tan by nra. field. lra.
  - intros x _. field. lra.
  - intros q Hq. f_equal. field.
Qed.
Lemma halfcauchy_coherent : coherent halfcauchy.
Proof.
  pose proof PI_RGT_0 as Pi0. apply make; unfold inside; cbn; unfold log1p; try exact I.
  - intros x [Hx _]. split; [apply div_pos; [apply div_pos; lra|nra]|]. auto_derive; [exact I|]. unfold Rsqr. field. split; nra.
  - intros x [Hx _]. pose proof (atan_bound x). pose proof (atan_pos x Hx). replace (2 / PI * atan x) with (atan x / (PI / 2)) by (field; lra). split; [apply div_pos; lra|apply div_lt1; lra].
  - intros q Hq. split; [split; [apply tan_gt_0; nra|exact I]|]. rewrite atan_tan by nra. field. lra.
  - intros x [Hx _]. rewrite exp_minus, !exp_ln by (nra || (apply div_pos; lra)). reflexivity.
Qed.
Lemma hypsecant_coherent : coherent hypsecant.
Proof.
  pose proof PI_RGT_0 as Pi0. apply make; unfold inside; cbn; try exact I.
  - intros x _. unfold cosh. pose proof (exp_pos x). pose proof (exp_pos (- x)). split; [apply div_pos; [lra|apply Rmult_lt_0_compat; lra]|]. auto_derive; [exact I|]. unfold Rsqr. rewrite exp_Ropp. field. repeat split; nra.
  - intros x _. pose proof (atan_bound (exp x)). pose proof (atan_pos (exp x) (exp_pos x)). replace (2 / PI * atan (exp x)) with (atan (exp x) / (PI / 2)) by (field; lra). split; [apply div_pos; lra|apply div_lt1; lra].
  - intros q Hq. split; [now split|]. assert (0 < tan (PI * q / 2)) by (apply tan_gt_0; nra). rewrite exp_ln by assumption. rewrite atan_tan by nra. field. lra.
Qed.
Lemma asin_root q : 0 < q < 1 -> 0 < asin (sqrt q) < PI / 2.
Proof.
  intros H. assert (S0 : 0 < sqrt q) by (apply sqrt_lt_R0; lra). assert (S2 : sqrt q * sqrt q = q) by (apply sqrt_sqrt; lra). assert (S1 : sqrt q < 1) by nra. rewrite asin_atan by lra. split; [|pose proof (atan_bound (sqrt q / sqrt (1 - Rsqr (sqrt q)))); lra]. apply atan_pos, div_pos; [exact S0|]. apply sqrt_lt_R0. unfold Rsqr. lra.
Qed.
Lemma anglit_coherent : coherent anglit.
Proof.
  pose proof PI_RGT_0 as Pi0. apply make; unfold inside; cbn; try exact I.
  - intros x Hx. split; [apply cos_gt_0; lra|]. assert (E : cos (2 * x) = 2 * sin (x + PI / 4) * cos (x + PI / 4)). { rewrite <- sin_2a. replace (2 * (x + PI / 4)) with (PI / 2 + 2 * x) by field. now rewrite cos_sin. } rewrite E. auto_derive; [exact I|]. replace (PI * / 4) with (PI / 4) by reflexivity. ring.
  - intros x Hx. assert (0 < sin (x + PI / 4)) by (apply sin_gt_0; lra). assert (0 < cos (x + PI / 4)) by (apply cos_gt_0; lra). pose proof (sin2_cos2 (x + PI / 4)) as S. unfold Rsqr in S. nra.
  - intros q Hq. pose proof (asin_root q Hq). replace (asin (sqrt q) - PI / 4 + PI / 4) with (asin (sqrt q)) by ring. assert (S0 : 0 < sqrt q) by (apply sqrt_lt_R0; lra). assert (S2 : sqrt q * sqrt q = q) by (apply sqrt_sqrt; lra). rewrite sin_asin by nra. split; [split; lra|]. rewrite Rmult_1_r. exact S2.
Qed.
Lemma arcsine_coherent : coherent arcsine.
Proof.
  pose proof PI_RGT_0 as Pi0. apply make; unfold inside; cbn; try exact I.
  - intros x Hx. assert (S : 0 < sqrt (x * (1 - x))) by (apply sqrt_lt_R0; nra). split; [apply div_pos; [apply div_pos; lra|exact S]|].
    apply (derive_loc (fun t => 2 / PI * atan (sqrt t / sqrt (1 - t)))).
    + assert (0 < sqrt x) by (apply sqrt_lt_R0; lra). assert (0 < sqrt (1 - x)) by (apply sqrt_lt_R0; lra). assert (Q1 : sqrt x * sqrt x = x) by (apply sqrt_sqrt; lra). assert (Q2 : sqrt (1 - x) * sqrt (1 - x) = 1 - x) by (apply sqrt_sqrt; lra). auto_derive; [replace (1 + - x) with (1 - x) by ring; sides|]. replace (1 + - x) with (1 - x) by ring. rewrite sqrt_mult by lra. unfold Rsqr. set (u := sqrt x) in *. set (v := sqrt (1 - x)) in *. assert (UV : u * u + v * v = 1) by lra. clearbody u v. assert (D : 1 + u * / v * (u * / v * 1) = / (v * v)) by (replace (1 + u * / v * (u * / v * 1)) with ((u * u + v * v) / (v * v)) by (field; lra); rewrite UV; field; lra). rewrite D. replace (1 * / (2 * u) * / v + u * (- (- (1) * / (2 * v)) * / (v * v))) with ((u * u + v * v) / (2 * u * (v * v * v))) by (field; lra). rewrite UV. field. lra.
    + exists (Rmin x (1 - x)). split; [apply Rmin_pos; lra|]. intros t Ht. apply Rabs_def2 in Ht. pose proof (Rmin_l x (1 - x)). pose proof (Rmin_r x (1 - x)). assert (T : 0 < t < 1) by lra. assert (Q0 : 0 < sqrt t) by (apply sqrt_lt_R0; lra). assert (Q1 : sqrt t * sqrt t = t) by (apply sqrt_sqrt; lra). rewrite asin_atan by nra. unfold Rsqr. rewrite Q1. reflexivity.
  - intros x Hx. pose proof (asin_root x Hx). replace (2 / PI * asin (sqrt x)) with (asin (sqrt x) / (PI / 2)) by (field; lra). split; [apply div_pos; lra|apply div_lt1; lra].
  - intros q Hq. assert (A : 0 < PI / 2 * q < PI / 2) by nra. assert (S0 : 0 < sin (PI / 2 * q)) by (apply sin_gt_0; lra). assert (C0 : 0 < cos (PI / 2 * q)) by (apply cos_gt_0; lra). pose proof (sin2_cos2 (PI / 2 * q)) as S. unfold Rsqr in S. rewrite Rmult_1_r. split; [nra|]. rewrite sqrt_square by lra. rewrite asin_sin by lra. field. lra.
Qed.
Lemma laplace_coherent : coherent laplace.
Proof.
  apply make; unfold inside; cbn; try exact I.
  - intros x _. split; [pose proof (exp_pos (- Rabs x)); lra|]. apply (glue _ (fun t => / 2 * exp t) (fun t => 1 - / 2 * exp (- t)) 0).
    + intros t Ht. destruct (Rlt_dec 0 t); [lra|reflexivity].
    + intros t Ht. destruct (Rlt_dec 0 t); [reflexivity|lra].
    + destruct (Rlt_dec 0 0); [lra|reflexivity].
    + left. rewrite Ropp_0, exp_0. field.
    + intros L. auto_derive; [exact I|]. rewrite Rabs_left1, Ropp_involutive by exact L. ring.
    + intros L. auto_derive; [exact I|]. rewrite Rabs_right by lra. ring.
  - intros x _. destruct (Rlt_dec 0 x).
    + pose proof (exp_pos (- x)). pose proof (exp_lt1 (- x)). lra.
    + pose proof (exp_pos x). destruct (Req_dec x 0) as [->|]; [rewrite exp_0; lra|]. pose proof (exp_lt1 x). lra.
  - intros q H. split; [now split|]. destruct (Rlt_dec (/ 2) q).
    + pose proof (ln_lt0 (2 * (1 - q))). destruct (Rlt_dec 0 (- ln (2 * (1 - q)))); [|lra]. rewrite Ropp_involutive, exp_ln by lra. field.
    + destruct (Rlt_dec 0 (ln (2 * q))) as [L|L]; [exfalso|rewrite exp_ln by lra; field]. destruct (Req_dec (2 * q) 1) as [E|E]; [rewrite E, ln_1 in L; lra|]. pose proof (ln_lt0 (2 * q)). lra.
Qed.
Lemma loglaplace_coherent c : 0 < c -> coherent (loglaplace c).
Proof.
  intros Hc. assert (P1 : forall a, 1 ^^ a = 1) by (intros; unfold Rpower; now rewrite ln_1, Rmult_0_r, exp_0). apply make; unfold inside; cbn; try exact I.
  - intros x [H _]. split; [pose proof (pow_pos x ((if Rlt_dec x 1 then c else - c) - 1)); apply Rmult_lt_0_compat; lra|]. rewrite pow_pred by exact H. apply (glue _ (fun t => / 2 * t ^^ c) (fun t => 1 - / 2 * t ^^ (- c)) 1).
    + intros t Ht. destruct (Rlt_dec t 1); [reflexivity|lra].
    + intros t Ht. destruct (Rlt_dec t 1); [lra|reflexivity].
    + destruct (Rlt_dec 1 1); [lra|]. rewrite !P1. field.
    + left. rewrite !P1. field.
    + intros L. replace (c / 2 * (x ^^ (if Rlt_dec x 1 then c else - c) / x)) with (c / 2 * (x ^^ c / x)). 2: { destruct (Rlt_dec x 1); [reflexivity|]. replace x with 1 by lra. now rewrite !P1. } unfold Rpower. auto_derive; [exact H|]. field. lra.
    + intros L. destruct (Rlt_dec x 1); [lra|]. unfold Rpower. auto_derive; [exact H|]. field. lra.
  - intros x [H _]. destruct (Rlt_dec x 1).
    + pose proof (pow_pos x c). pose proof (pow_small x c). lra.
    + pose proof (pow_pos x (- c)). destruct (Req_dec x 1) as [->|]; [rewrite P1; lra|]. pose proof (pow_large_neg x (- c)). lra.
  - intros q H. assert (0 < 1 / c) by (apply div_pos; lra). destruct (Rlt_dec q (/ 2)).
    + split; [split; [apply pow_pos|exact I]|]. pose proof (pow_small (2 * q) (1 / c)). destruct (Rlt_dec ((2 * q) ^^ (1 / c)) 1); [|lra]. rewrite pow_inv by (lra || (field; lra)). field.
    + split; [split; [apply pow_pos|exact I]|]. assert (N : - 1 / c = - (1 / c)) by (field; lra). destruct (Rlt_dec ((2 * (1 - q)) ^^ (- 1 / c)) 1) as [L|L]; [exfalso|rewrite pow_inv by (lra || (field; lra)); field]. destruct (Req_dec (2 * (1 - q)) 1) as [E|E]; [rewrite E, P1 in L; lra|]. pose proof (pow_small_neg (2 * (1 - q)) (- 1 / c)). lra.
Qed.
