(* Wallis' product and Stirling's constant. *)
From Coq Require Import Reals Lra Lia Psatz.
From Coquelicot Require Import Coquelicot.
From Verif Require Import LgamModel LgamSpec LgamProofs.
Local Open Scope R_scope.

Definition W (n : nat) : R := RInt (fun x => sin x ^ n) 0 (PI / 2).
Lemma sin_int n a b : ex_RInt (fun x => sin x ^ n) a b.
Proof. apply (ex_RInt_continuous (V := R_CompleteNormedModule)). intros x _. apply (ex_derive_continuous (fun x => sin x ^ n)). auto_derive. exact I. Qed.
Lemma W0 : W 0 = PI / 2. Proof. unfold W. cbn [pow]. rewrite RInt_const. unfold scal. cbn. unfold mult. cbn. ring. Qed.
Lemma W1 : W 1 = 1.
Proof.
  unfold W. apply is_RInt_unique. replace 1 with (minus (- cos (PI / 2)) (- cos 0)) by (rewrite cos_PI2, cos_0; unfold minus, plus, opp; cbn; ring). apply (is_RInt_derive (fun x => - cos x)). - intros x _. auto_derive; [exact I|cbn; ring]. - intros x _. apply (ex_derive_continuous (fun x => sin x ^ 1)). auto_derive. exact I.
Qed.
Lemma W_step n : INR (n + 2) * W (n + 2) = INR (n + 1) * W n.
Proof.
  assert (D : is_RInt (fun x => INR (n + 2) * sin x ^ (n + 2) - INR (n + 1) * sin x ^ n) 0 (PI / 2) 0).
  { replace 0 with (minus (- (cos (PI / 2) * sin (PI / 2) ^ (n + 1))) (- (cos 0 * sin 0 ^ (n + 1)))) at 2. 2: { rewrite cos_PI2, sin_0. replace (n + 1)%nat with (S n) by lia. unfold minus, plus, opp. cbn. ring. }
    apply (is_RInt_derive (fun x => - (cos x * sin x ^ (n + 1)))).
    - intros x _. auto_derive; [exact I|]. replace (pred (n + 1)) with n by lia. replace (n + 2)%nat with (S (S n)) by lia. replace (n + 1)%nat with (S n) by lia. rewrite (S_INR (S n)). cbn [pow]. pose proof (sin2_cos2 x) as SC. unfold Rsqr in SC. replace (cos x * (1 * cos x * (INR (S n) * sin x ^ n))) with (INR (S n) * sin x ^ n * (cos x * cos x)) by ring. replace (cos x * cos x) with (1 - sin x * sin x) by lra. ring.
    - intros x _. apply (ex_derive_continuous (fun x => INR (n + 2) * sin x ^ (n + 2) - INR (n + 1) * sin x ^ n)). auto_derive. exact I. }
  assert (E : is_RInt (fun x => INR (n + 2) * sin x ^ (n + 2) - INR (n + 1) * sin x ^ n) 0 (PI / 2) (INR (n + 2) * W (n + 2) - INR (n + 1) * W n)).
  { apply (is_RInt_minus (V := R_CompleteNormedModule) (fun x => INR (n + 2) * sin x ^ (n + 2)) (fun x => INR (n + 1) * sin x ^ n)); [apply (is_RInt_scal (V := R_CompleteNormedModule) (fun x => sin x ^ (n + 2)) 0 (PI / 2) (INR (n + 2)))|apply (is_RInt_scal (V := R_CompleteNormedModule) (fun x => sin x ^ n) 0 (PI / 2) (INR (n + 1)))]; apply (RInt_correct (V := R_CompleteNormedModule)), sin_int. }
  assert (U : INR (n + 2) * W (n + 2) - INR (n + 1) * W n = 0). { apply (is_RInt_unique (V := R_CompleteNormedModule)) in D. apply (is_RInt_unique (V := R_CompleteNormedModule)) in E. etransitivity; [symmetry; exact E|exact D]. } lra.
Qed.
Lemma W_pos n : 0 < W n.
Proof. unfold W. apply RInt_gt_0; [pose proof PI_RGT_0; lra| |]; intros x X; [apply pow_lt, sin_gt_0; lra|]. apply (ex_derive_continuous (fun x => sin x ^ n)). auto_derive. exact I. Qed.
Lemma W_dec n : W (S n) <= W n.
Proof.
  unfold W. pose proof PI_RGT_0. apply RInt_le; [lra|apply sin_int|apply sin_int|]. intros x X. cbn [pow]. assert (P : 0 < sin x) by (apply sin_gt_0; lra). pose proof (SIN_bound x). pose proof (pow_lt (sin x) n P). nra.
Qed.
Lemma W_prod n : INR (n + 1) * (W n * W (S n)) = PI / 2.
Proof.
  induction n as [|n IH]; [rewrite W0, W1; cbn; ring|]. rewrite <- IH. replace (S n + 1)%nat with (n + 2)%nat by lia. replace (S (S n)) with (n + 2)%nat by lia. pose proof (W_step n). replace (INR (n + 2) * (W (S n) * W (n + 2))) with (W (S n) * (INR (n + 2) * W (n + 2))) by ring. rewrite H. ring.
Qed.
Lemma W_even n : W (2 * n) * (4 ^ n * INR (fact n) ^ 2) = INR (fact (2 * n)) * (PI / 2).
Proof.
  induction n as [|n IH]; [change (2 * 0)%nat with 0%nat; rewrite W0; cbn; ring|]. replace (2 * S n)%nat with (2 * n + 2)%nat by lia. pose proof (W_step (2 * n)) as E.
  assert (F : INR (fact (2 * n + 2)) = INR (2 * n + 2) * (INR (2 * n + 1) * INR (fact (2 * n)))) by (replace (2 * n + 2)%nat with (S (S (2 * n))) by lia; replace (2 * n + 1)%nat with (S (2 * n)) by lia; rewrite !fact_simpl, !mult_INR; reflexivity). rewrite F.
  assert (G : INR (fact (S n)) = INR (S n) * INR (fact n)) by (rewrite fact_simpl, mult_INR; reflexivity). rewrite G. assert (H : INR (2 * n + 2) = 2 * INR (S n)) by (replace (2 * n + 2)%nat with (2 * S n)%nat by lia; rewrite mult_INR; cbn [INR]; ring). assert (P : INR (2 * n + 2) <> 0) by (apply not_0_INR; lia).
  apply Rmult_eq_reg_l with (INR (2 * n + 2)); [|exact P]. transitivity ((INR (2 * n + 2) * W (2 * n + 2)) * (4 * INR (S n) ^ 2) * (4 ^ n * INR (fact n) ^ 2)); [cbn [pow]; ring|]. rewrite E. transitivity (INR (2 * n + 1) * (4 * INR (S n) ^ 2) * (W (2 * n) * (4 ^ n * INR (fact n) ^ 2))); [ring|]. rewrite IH. rewrite H. ring.
Qed.
Lemma W_bounds n : (1 <= n)%nat -> PI / 2 / (2 * INR n + 1) <= W (2 * n) ^ 2 <= PI / 2 / (2 * INR n).
Proof.
  intros N. pose proof (W_prod (2 * n)) as A. pose proof (W_prod (2 * n - 1)) as B. replace (S (2 * n - 1)) with (2 * n)%nat in B by lia. replace (2 * n - 1 + 1)%nat with (2 * n)%nat in B by lia. pose proof (W_dec (2 * n)) as C. pose proof (W_dec (2 * n - 1)) as D. replace (S (2 * n - 1)) with (2 * n)%nat in D by lia. pose proof (W_pos (2 * n)) as P. rewrite plus_INR, mult_INR in A. rewrite mult_INR in B. cbn [INR] in A, B. assert (NP : 1 <= INR n) by (replace 1 with (INR 1) by reflexivity; apply le_INR, N). split.
  - apply over; [lra|]. rewrite <- A. replace (W (2 * n) ^ 2 * (2 * INR n + 1)) with ((2 * INR n + 1) * (W (2 * n) * W (2 * n))) by ring. apply Rmult_le_compat_l; [lra|]. apply Rmult_le_compat_l; lra.
  - apply under; [lra|]. rewrite <- B. replace (W (2 * n) ^ 2 * (2 * INR n)) with (2 * INR n * (W (2 * n) * W (2 * n))) by ring. apply Rmult_le_compat_l; [lra|]. apply Rmult_le_compat_r; lra.
Qed.
(* the error of Stirling's formula *)
Definition err (lg : R -> R) (t : R) : R := lg (t + 1) - (1 / 2 * ln (2 * PI) + (t + 1 / 2) * ln t - t).
Lemma ln_sqrt_half x : 0 < x -> ln (sqrt x) = 1 / 2 * ln x.
Proof. intros X. pose proof (sqrt_lt_R0 x X). replace x with (sqrt x * sqrt x) at 2 by (apply sqrt_sqrt; lra). rewrite ln_mult by assumption. field. Qed.
Lemma error_err lg n : 0 < n -> stirling_error lg n = err lg n.
Proof.
  intros N. unfold stirling_error, err. pose proof PI_RGT_0. f_equal. pose proof (exp_pos 1). assert (D : 0 < n / exp 1) by (apply Rdiv_lt_0_compat; assumption). rewrite ln_mult by (try apply sqrt_lt_R0; try (unfold Rpower; apply exp_pos); apply Rmult_lt_0_compat; lra). rewrite ln_sqrt_half by (apply Rmult_lt_0_compat; lra). rewrite (ln_mult (2 * PI) n) by lra. unfold Rpower. rewrite ln_exp. assert (Q : ln (n / exp 1) = ln n - 1) by (unfold Rdiv; rewrite (ln_mult n (/ exp 1)), ln_Rinv, ln_exp by (try apply Rinv_0_lt_compat; assumption); ring). rewrite Q. lra.
Qed.
Lemma err_step lg t : (forall x, 0 < x -> lg (x + 1) = lg x + ln x) -> 0 < t -> err lg t - err lg (t + 1) = delta t.
Proof. intros H T. unfold err, delta. rewrite (H (t + 1)) by lra. ring. Qed.
Lemma lg_fact lg n : lg 1 = 0 -> (forall x, 0 < x -> lg (x + 1) = lg x + ln x) -> lg (INR n + 1) = ln (INR (fact n)).
Proof. intros A B. induction n as [|n IH]; [cbn; rewrite Rplus_0_l, ln_1; exact A|]. rewrite B by (rewrite S_INR; pose proof (pos_INR n); lra). rewrite S_INR, IH. rewrite fact_simpl, mult_INR, S_INR. rewrite ln_mult; [ring|pose proof (pos_INR n); lra|apply lt_0_INR, lt_O_fact]. Qed.
(* the error at whole numbers is small *)
Lemma err_twice lg n : lg 1 = 0 -> (forall x, 0 < x -> lg (x + 1) = lg x + ln x) -> (1 <= n)%nat -> - (1 / (4 * INR n)) <= err lg (INR (2 * n)) - 2 * err lg (INR n) <= 0.
Proof.
  intros A B N. assert (NP : 1 <= INR n) by (replace 1 with (INR 1) by reflexivity; apply le_INR, N). pose proof (W_bounds n N) as [L U]. pose proof (W_even n) as E. pose proof (W_pos (2 * n)) as P. pose proof PI_RGT_0 as PP.
  assert (F : forall m, 0 < INR (fact m)) by (intros; apply lt_0_INR, lt_O_fact). apply (f_equal ln) in E. assert (Q2 : 0 < INR (fact n) ^ 2) by (apply pow_lt, F). assert (Q4 : 0 < 4 ^ n) by (apply pow_lt; lra). rewrite (ln_mult (W (2 * n))), (ln_mult (4 ^ n)), (ln_mult (INR (fact (2 * n)))) in E by (first [exact P|exact Q4|exact Q2|apply F|lra|apply Rmult_lt_0_compat; assumption]). rewrite (ln_pow 4 n) in E by lra. rewrite (ln_pow (INR (fact n)) 2 (F n)) in E. rewrite <- !(lg_fact lg _ A B) in E. cbn [INR] in E. replace (ln 4) with (2 * ln 2) in E by (replace 4 with (2 ^ 2) by ring; rewrite ln_pow by lra; cbn [INR]; ring).
  assert (LW : ln (W (2 * n) ^ 2) = 2 * ln (W (2 * n))) by (rewrite ln_pow by exact P; cbn [INR]; ring).
  assert (U' : 2 * ln (W (2 * n)) <= ln (PI / 2) - (ln 2 + ln (INR n))). { rewrite <- LW. apply Rle_trans with (ln (PI / 2 / (2 * INR n))); [apply Rcomplements.ln_le; [apply pow_lt, P|exact U]|]. unfold Rdiv at 1. rewrite ln_mult, ln_Rinv, ln_mult by (try apply Rinv_0_lt_compat; lra). lra. }
  assert (L' : ln (PI / 2) - ln (2 * INR n + 1) <= 2 * ln (W (2 * n))). { rewrite <- LW. apply Rle_trans with (ln (PI / 2 / (2 * INR n + 1))); [|apply Rcomplements.ln_le; [apply Rdiv_lt_0_compat; lra|exact L]]. unfold Rdiv at 2. rewrite ln_mult, ln_Rinv by (try apply Rinv_0_lt_compat; lra). lra. }
  pose proof (ln_step (2 * INR n) ltac:(lra)) as [_ LS]. rewrite (ln_mult 2 (INR n)) in LS by lra.
  assert (LP : ln (PI / 2) = ln PI - ln 2) by (unfold Rdiv; rewrite ln_mult, ln_Rinv by lra; ring). unfold err. rewrite (ln_mult 2 PI) by lra. rewrite mult_INR in E |- *. cbn [INR] in E |- *. rewrite (ln_mult (1 + 1) (INR n)) by lra. change (1 + 1) with 2 in *. replace (1 / (2 * INR n)) with (2 * (1 / (4 * INR n))) in LS by (field; lra). set (l2 := ln 2) in *. set (ln_ := ln (INR n)) in *. set (lp := ln PI) in *. set (w := ln (W (2 * n))) in *. rewrite LP in *. split; nra.
Qed.
