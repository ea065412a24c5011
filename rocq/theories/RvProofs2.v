From Coq Require Import Reals Lra Lia Psatz.
From Coquelicot Require Import Coquelicot.
From Verif Require Import RvModel RvSpec RvProofs.
Local Open Scope R_scope.

Ltac sides := repeat match goal with |- _ /\ _ => split end; try exact I; try assumption; try lra; try (apply Rgt_not_eq, exp_pos); try apply exp_pos.
Lemma one_exp x : 0 < 1 + exp x. Proof. pose proof (exp_pos x). lra. Qed.
Lemma one_pow x c : 1 < 1 + x ^^ c. Proof. pose proof (pow_pos x c). lra. Qed.

Lemma genlogistic_coherent c : 0 < c -> coherent (genlogistic c).
Proof.
  intros Hc. apply make; unfold inside; cbn; unfold expm1, log1p, xlogy; try exact I.
  - intros x _. split; [apply exp_pos|]. pose proof (one_exp (- x)) as P. rewrite !exp_minus, exp_ln by exact Hc. rewrite exp_logp, pow_succ by exact P. unfold Rpower. auto_derive; [exact P|]. replace (- c * ln (1 + exp (- x))) with (- (c * ln (1 + exp (- x)))) by ring. rewrite !exp_Ropp. field. pose proof (exp_pos x). pose proof (exp_pos (c * ln (1 + / exp x))). repeat split; lra.
  - intros x _. split; [apply pow_pos|]. apply pow_large_neg; [lra|]. pose proof (exp_pos (- x)). lra.
  - intros q H. split; [now split|]. assert (P : 1 < q ^^ (- 1 / c)). { apply pow_small_neg; [|exact H]. replace (- 1 / c) with (- (1 / c)) by (field; lra). pose proof (div_pos 1 c). lra. } rewrite Ropp_involutive, exp_ln by lra. replace (1 + (q ^^ (- 1 / c) - 1)) with (q ^^ (- 1 / c)) by ring. apply pow_inv; [lra|field; lra].
  - reflexivity.
Qed.
Lemma logistic_coherent : coherent logistic.
Proof.
  apply make; unfold inside; cbn; unfold expit, logit, log1p; try exact I.
  - intros x _. split; [apply exp_pos|]. pose proof (one_exp (- x)) as P. rewrite exp_minus. replace (2 * ln (1 + exp (- x))) with (ln (1 + exp (- x)) + ln (1 + exp (- x))) by ring. rewrite exp_plus, exp_ln by exact P. auto_derive; [lra|]. field. lra.
  - intros x _. pose proof (exp_pos (- x)) as P. split; [apply div_pos; lra|apply div_lt1; lra].
  - intros q H. split; [now split|]. rewrite exp_Ropp, exp_ln by (apply div_pos; lra). field. repeat split; lra.
  - intros x _. rewrite Ropp_involutive, exp_Ropp. pose proof (exp_pos x). field. lra.
  - intros q H. rewrite <- ln_Rinv by (apply div_pos; lra). f_equal. field. lra.
  - reflexivity.
Qed.
Lemma genpareto_inside c x : inside (genpareto c) x <-> 0 < x /\ 0 < 1 + c * x.
Proof.
  unfold inside. cbn. destruct (Rlt_dec c 0) as [H|H]; [|split; [intros [? _]; split; [assumption|nra]|intros [? ?]; now split]]. split; intros [A B]; split; try exact A.
  - assert (E : - c * (- 1 / c) = 1) by (field; lra). assert (0 < - c * (- 1 / c - x)) by (apply Rmult_lt_0_compat; lra). nra.
  - apply (Rmult_lt_reg_l (- c)); [lra|]. replace (- c * (- 1 / c)) with 1 by (field; lra). lra.
Qed.
Lemma genpareto_coherent c : coherent (genpareto c).
Proof.
  destruct (Req_EM_T c 0) as [->|N].
  - apply make; intros; try exact I; cbn; unfold inv_boxcox, inv_boxcox1p, boxcox, boxcox1p, xlog1py, expm1, log1p; destruct (Req_EM_T (- 0) 0); try lra; destruct (Req_EM_T 0 0); try lra.
    + apply genpareto_inside in H. split; [apply exp_pos|]. auto_derive; [exact I|]. ring.
    + apply genpareto_inside in H. pose proof (exp_pos (- x)). pose proof (exp_lt1 (- x)). lra.
    + pose proof (ln_lt0 (1 + - q)). rewrite genpareto_inside. cbn. unfold boxcox1p, log1p. destruct (Req_EM_T (- 0) 0); try lra. rewrite Ropp_involutive, exp_ln by lra. repeat split; lra.
    + intros. ring.
    + intros. do 2 f_equal. ring.
    + reflexivity.
    + intros. ring.
  - apply make; intros; try exact I; cbn; unfold inv_boxcox, inv_boxcox1p, boxcox, boxcox1p, xlog1py, expm1, log1p; destruct (Req_EM_T (- c) 0); try lra; destruct (Req_EM_T c 0); try lra.
    + apply genpareto_inside in H as [H1 H2]. split; [apply exp_pos|]. replace (- ((c + 1) * ln (1 + c * x)) / c) with (- ln (1 + c * x) / c - ln (1 + c * x)) by (field; lra). rewrite exp_minus, exp_ln by lra. auto_derive; [sides; replace (1 + - c * - x) with (1 + c * x) by ring; exact H2|]. replace (1 + - c * - x) with (1 + c * x) by ring. replace (ln (1 + c * x) * / - c) with (- ln (1 + c * x) / c) by (field; lra). field. lra.
    + apply genpareto_inside in H as [H1 H2]. replace (1 + - c * - x) with (1 + c * x) by ring. pose proof (exp_pos (ln (1 + c * x) / - c)). assert (ln (1 + c * x) / - c < 0); [|pose proof (exp_lt1 (ln (1 + c * x) / - c)); lra]. destruct (Rlt_dec 0 c) as [C|C].
      * pose proof (ln_gt0 (1 + c * x)). assert (0 < ln (1 + c * x) / c) by (apply div_pos; nra). replace (ln (1 + c * x) / - c) with (- (ln (1 + c * x) / c)) by (field; lra). lra.
      * assert (c < 0) by lra. pose proof (ln_lt0 (1 + c * x)). assert (0 < - ln (1 + c * x) / - c) by (apply div_pos; nra). replace (ln (1 + c * x) / - c) with (- (- ln (1 + c * x) / - c)) by (field; lra). lra.
    + assert (L : ln (1 + - q) < 0) by (apply ln_lt0; lra). set (l := ln (1 + - q)) in *. assert (E : 1 + c * - ((exp (- c * l) - 1) / - c) = exp (- c * l)) by (field; lra).
      split.
      * apply genpareto_inside. cbn. unfold boxcox1p, log1p, expm1. destruct (Req_EM_T (- c) 0); [lra|]. fold l. split; [|rewrite E; apply exp_pos]. destruct (Rlt_dec 0 c) as [C|C].
        -- pose proof (exp_gt1 (- c * l)). replace (- ((exp (- c * l) - 1) / - c)) with ((exp (- c * l) - 1) / c) by (field; lra). apply div_pos; nra.
        -- assert (c < 0) by lra. pose proof (exp_lt1 (- c * l)). replace (- ((exp (- c * l) - 1) / - c)) with ((1 - exp (- c * l)) / - c) by (field; lra). apply div_pos; nra.
      * replace (1 + - c * - - ((exp (- c * l) - 1) / - c)) with (exp (- c * l)) by (field; lra). rewrite ln_exp. replace (- c * l / - c) with l by (field; lra). unfold l. rewrite exp_ln by lra. ring.
    + intros. ring.
    + intros q H. replace (1 + - (1 - q)) with q by ring. reflexivity.
    + reflexivity.
    + intros x H. apply genpareto_inside in H. replace (1 + - c * - x) with (1 + c * x) by ring. replace (ln (1 + c * x) / - c) with (- ln (1 + c * x) / c) by (field; lra). ring.
Qed.
Lemma genextreme_inside c x : inside (genextreme c) x <-> 0 < 1 + - c * x.
Proof.
  unfold inside. cbn. destruct (Rlt_dec c 0) as [H|H]; destruct (Rlt_dec 0 c) as [H'|H']; try lra.
  - assert (E : c * (1 / c) = 1) by (field; lra). split; intros A; [destruct A as [A _]; assert (0 < - c * (x - 1 / c)) by (apply Rmult_lt_0_compat; lra); nra|]. split; [|exact I]. apply (Rmult_lt_reg_l (- c)); [lra|]. nra.
  - assert (E : c * (1 / c) = 1) by (field; lra). split; intros A; [destruct A as [_ A]; assert (0 < c * (1 / c - x)) by (apply Rmult_lt_0_compat; lra); nra|]. split; [exact I|]. apply (Rmult_lt_reg_l c); [lra|]. nra.
  - replace c with 0 by lra. split; [intros _; lra|now intros].
Qed.
Lemma genextreme_coherent c : coherent (genextreme c).
Proof.
  destruct (Req_EM_T c 0) as [->|N].
  - apply make; intros; try exact I; cbn; unfold expm1, log1p; destruct (Req_EM_T 0 0); try lra.
    + split; [apply exp_pos|]. replace (1 + - 0) with 1 by ring. rewrite ln_1, Rminus_0_r, exp_plus. auto_derive; [exact I|]. ring.
    + pose proof (exp_pos (- x)). pose proof (exp_pos (- exp (- x))). pose proof (exp_lt1 (- exp (- x))). lra.
    + pose proof (ln_lt0 q H). rewrite genextreme_inside. rewrite Ropp_involutive, exp_ln by lra. rewrite Ropp_involutive, exp_ln by lra. split; lra.
    + intros. ring.
    + reflexivity.
    + reflexivity.
    + reflexivity.
  - apply make; intros; try exact I; cbn; unfold expm1, log1p; destruct (Req_EM_T c 0); try lra.
    + apply genextreme_inside in H. split; [apply exp_pos|]. rewrite exp_minus, exp_plus. replace (1 + - (c * x)) with (1 + - c * x) by ring. rewrite exp_ln by exact H. auto_derive; [sides|]. replace (ln (1 + - c * x) * / c) with (ln (1 + - c * x) / c) by (field; lra). field. split; lra.
    + set (L := ln (1 + - c * x) / c). pose proof (exp_pos L). pose proof (exp_pos (- exp L)). pose proof (exp_lt1 (- exp L)). lra.
    + pose proof (ln_lt0 q H). rewrite genextreme_inside. cbn. unfold expm1. destruct (Req_EM_T c 0); try lra. set (y := - ln (- ln q)). assert (E : 1 + - c * (- (exp (- c * y) - 1) / c) = exp (- c * y)) by (field; lra). split; [rewrite E; apply exp_pos|]. rewrite E, ln_exp. replace (- c * y / c) with (- y) by (field; lra). unfold y. rewrite Ropp_involutive, exp_ln by lra. rewrite Ropp_involutive, exp_ln by lra. reflexivity.
    + intros. ring.
    + reflexivity.
    + reflexivity.
    + reflexivity.
Qed.
Lemma pareto_coherent b : 0 < b -> coherent (pareto b).
Proof.
  intros Hb. apply make; unfold inside; cbn; try exact I.
  - intros x [H _]. split; [pose proof (pow_pos x (- b - 1)); nra|]. rewrite pow_pred by lra. unfold Rpower. auto_derive; [lra|]. field. lra.
  - intros x [H _]. pose proof (pow_pos x (- b)). pose proof (pow_large_neg x (- b)). lra.
  - intros q H. assert (P : 1 < (1 - q) ^^ (- 1 / b)). { apply pow_small_neg; [|lra]. replace (- 1 / b) with (- (1 / b)) by (field; lra). pose proof (div_pos 1 b). lra. } rewrite pow_inv by (lra || (field; lra)). repeat split; lra.
  - intros. ring.
Qed.
Lemma lomax_coherent c : 0 < c -> coherent (lomax c).
Proof.
  intros Hc. apply make; unfold inside; cbn; unfold expm1, log1p; try exact I.
  - intros x [H _]. split; [apply div_pos; [lra|apply pow_pos]|]. rewrite pow_succ by lra. unfold Rpower. auto_derive; [lra|]. replace (- c * ln (1 + x)) with (- (c * ln (1 + x))) by ring. rewrite exp_Ropp. field. pose proof (exp_pos (c * ln (1 + x))). split; lra.
  - intros x [H _]. pose proof (ln_gt0 (1 + x)). pose proof (exp_pos (- c * ln (1 + x))). pose proof (exp_lt1 (- c * ln (1 + x))). nra.
  - intros q H. pose proof (ln_lt0 (1 + - q)). assert (P : 0 < - ln (1 + - q) / c) by (apply div_pos; lra). pose proof (exp_gt1 _ P). replace (1 + (exp (- ln (1 + - q) / c) - 1)) with (exp (- ln (1 + - q) / c)) by ring. rewrite ln_exp. replace (- c * (- ln (1 + - q) / c)) with (ln (1 + - q)) by (field; lra). rewrite exp_ln by lra. repeat split; lra.
  - intros. ring.
  - intros x [H _]. rewrite exp_minus, exp_ln, exp_logp by exact Hc. field. apply Rgt_not_eq, pow_pos.
  - intros. ring.
Qed.
Lemma burr_coherent c d : 0 < c -> 0 < d -> coherent (burr c d).
Proof.
  intros Hc Hd. assert (V : forall x, 0 < (1 + x ^^ (- c)) ^^ (- d) < 1) by (intros x; split; [apply pow_pos|apply pow_large_neg; [lra|apply one_pow]]).
  apply make; unfold inside; cbn; unfold xlogy, xlog1py, log1p; try exact I.
  - intros x [H _]. pose proof (one_pow x (- c)) as P. split; [apply div_pos; [|apply pow_pos]; pose proof (pow_pos x (- c - 1)); assert (0 < c * d) by (apply Rmult_lt_0_compat; lra); nra|]. rewrite pow_pred, pow_succ by lra. unfold Rpower in *. auto_derive; [sides|]. replace (- d * ln (1 + exp (- c * ln x))) with (- (d * ln (1 + exp (- c * ln x)))) by ring. rewrite (exp_Ropp (d * _)). field. pose proof (exp_pos (d * ln (1 + exp (- c * ln x)))). repeat split; lra.
  - intros x _. apply V.
  - intros q H. split; [split; [apply pow_pos|exact I]|]. assert (P : 1 < q ^^ (- 1 / d)). { apply pow_small_neg; [|exact H]. replace (- 1 / d) with (- (1 / d)) by (field; lra). pose proof (div_pos 1 d). lra. } rewrite (pow_inv (q ^^ _ - 1)) by (lra || (field; lra)). replace (1 + (q ^^ (- 1 / d) - 1)) with (q ^^ (- 1 / d)) by ring. apply pow_inv; [lra|field; lra].
  - intros x _. rewrite exp_ln by (specialize (V x); lra). ring.
  - intros x [H _]. rewrite exp_minus, !exp_plus, !exp_ln, !exp_logp by assumption. reflexivity.
  - intros x _. rewrite (Rmult_comm (ln _)). reflexivity.
  - intros x _. rewrite exp_ln by (specialize (V x); lra). ring.
Qed.
Lemma fisk_coherent c : 0 < c -> coherent (fisk c).
Proof. intros. apply burr_coherent; lra. Qed.
Lemma burr12_coherent c d : 0 < c -> 0 < d -> coherent (burr12 c d).
Proof.
  intros Hc Hd. assert (V : forall x, 0 < (1 + x ^^ c) ^^ (- d) < 1) by (intros x; split; [apply pow_pos|apply pow_large_neg; [lra|apply one_pow]]).
  apply make; unfold inside; cbn; unfold xlogy, xlog1py, expm1, log1p; try exact I.
  - intros x [H _]. split; [apply exp_pos|]. pose proof (one_pow x c) as P. rewrite !exp_plus, !exp_ln, !exp_logp by assumption. rewrite !pow_pred by lra. unfold Rpower in *. auto_derive; [sides|]. field. lra.
  - intros x _. rewrite exp_logp. specialize (V x). lra.
  - intros q H. split; [split; [apply pow_pos|exact I]|]. pose proof (ln_lt0 (1 + - q)). assert (P : 0 < - 1 / d * ln (1 + - q)). { replace (- 1 / d * ln (1 + - q)) with (- ln (1 + - q) / d) by (field; lra). apply div_pos; lra. } pose proof (exp_gt1 _ P). rewrite pow_inv by (lra || (field; lra)). replace (1 + (exp (- 1 / d * ln (1 + - q)) - 1)) with (exp (- 1 / d * ln (1 + - q))) by ring. rewrite ln_exp. replace (- d * (- 1 / d * ln (1 + - q))) with (ln (1 + - q)) by (field; lra). rewrite exp_ln by lra. ring.
  - intros. ring.
  - reflexivity.
  - intros x _. rewrite exp_ln by (specialize (V x); lra). rewrite exp_logp. ring.
  - intros. ring.
Qed.
Lemma mielke_coherent k s : 0 < k -> 0 < s -> coherent (mielke k s).
Proof.
  intros Hk Hs. assert (KS : 0 < k * 1 / s) by (apply div_pos; lra). apply make; unfold inside; cbn; unfold log1p; try exact I.
  - intros x [H _]. split; [apply div_pos; [pose proof (pow_pos x (k - 1)); nra|apply pow_pos]|]. pose proof (one_pow x s) as P. rewrite pow_pred by exact H. rewrite (Rplus_comm 1 (k * 1 / s)), pow_succ by lra. unfold Rpower in *. auto_derive; [sides|]. replace (k * 1 * / s) with (k * 1 / s) by reflexivity. field. pose proof (exp_pos (k * 1 / s * ln (1 + exp (s * ln x)))). repeat split; lra.
  - intros x [H _]. split; [apply div_pos; apply pow_pos|]. apply div_lt1; [apply pow_pos|]. replace (x ^^ k) with ((x ^^ s) ^^ (k * 1 / s)) by (rewrite Rpower_mult; f_equal; field; lra). apply Rlt_Rpower_l; [exact KS|]. pose proof (pow_pos x s). lra.
  - intros q H. split; [split; [apply pow_pos|exact I]|]. assert (P : 0 < q ^^ (s * 1 / k) < 1) by (split; [apply pow_pos|apply pow_small; [apply div_pos; lra|exact H]]). set (t := q ^^ (s * 1 / k)) in *. assert (Q : 0 < t / (1 - t)) by (apply div_pos; lra).
    rewrite !Rpower_mult. replace (1 / s * s) with 1 by (field; lra). rewrite (Rpower_1 (t / (1 - t))) by exact Q. replace (1 / s * k) with (k * 1 / s) by (field; lra). replace (1 + t / (1 - t)) with (/ (1 - t)) by (field; lra). replace (t / (1 - t)) with (t * / (1 - t)) by reflexivity. rewrite <- Rpower_mult_distr by (try apply Rinv_0_lt_compat; lra). unfold Rdiv at 1. rewrite Rmult_assoc, Rinv_r, Rmult_1_r by (apply Rgt_not_eq, pow_pos). unfold t. rewrite Rpower_mult. replace (s * 1 / k * (k * 1 / s)) with 1 by (field; lra). apply Rpower_1. lra.
  - intros x [H _]. rewrite exp_minus, exp_plus, exp_ln by exact Hk. rewrite (Rmult_comm (ln x)), (Rmult_comm (ln (1 + _))), !exp_logp. reflexivity.
Qed.
Lemma kappa3_coherent a : 0 < a -> coherent (kappa3 a).
Proof.
  intros Ha. apply make; unfold inside; cbn; try exact I.
  - intros x [H _]. pose proof (pow_pos x a). split; [pose proof (pow_pos (a + x ^^ a) (- 1 / a - 1)); nra|]. rewrite pow_pred by lra. unfold Rpower in *. auto_derive; [sides|]. replace (- (1) * / a) with (- 1 / a) by (field; lra). field. lra.
  - intros x [H _]. pose proof (pow_pos x a) as P. pose proof (pow_pos (a + x ^^ a) (- 1 / a)) as P2. split; [nra|]. assert (E : x * (x ^^ a) ^^ (- 1 / a) = 1). { rewrite Rpower_mult. replace (a * (- 1 / a)) with (- (1)) by (field; lra). rewrite Rpower_Ropp, Rpower_1 by exact H. field. lra. } apply (Rlt_le_trans _ (x * (x ^^ a) ^^ (- 1 / a))); [|lra]. apply Rmult_lt_compat_l; [exact H|]. replace (- 1 / a) with (- (1 / a)) by (field; lra). rewrite !Rpower_Ropp. apply Rinv_lt_contravar; [apply Rmult_lt_0_compat; apply pow_pos|]. apply Rlt_Rpower_l; [apply div_pos; lra|]. lra.
  - intros q H. split; [split; [apply pow_pos|exact I]|]. assert (P : 1 < q ^^ (- a)) by (apply pow_small_neg; lra). set (t := q ^^ (- a)) in *. assert (Q : 0 < a / (t - 1)) by (apply div_pos; lra). rewrite (pow_inv _ (1 / a) a) by (exact Q || (field; lra)). replace (a + a / (t - 1)) with (a / (t - 1) * t) by (field; lra). rewrite <- Rpower_mult_distr by lra. rewrite <- Rmult_assoc. replace (- 1 / a) with (- (1 / a)) by (field; lra). rewrite (Rpower_Ropp (a / (t - 1))), Rinv_r, Rmult_1_l by (apply Rgt_not_eq, pow_pos). unfold t. rewrite Rpower_mult. replace (- a * - (1 / a)) with 1 by (field; lra). apply Rpower_1. lra.
Qed.
Lemma powerlaw_coherent a : 0 < a -> coherent (powerlaw a).
Proof.
  intros Ha. apply make; unfold inside; cbn; unfold xlogy; try exact I.
  - intros x [H1 H2]. split; [pose proof (pow_pos x (a - 1)); nra|]. rewrite pow_pred by lra. unfold Rpower. auto_derive; [lra|]. rewrite !Rmult_1_r. field. lra.
  - intros x H. rewrite Rmult_1_r. split; [apply pow_pos|now apply pow_small].
  - intros q H. rewrite Rmult_1_r, pow_inv by (lra || (field; lra)). split; [split; [apply pow_pos|apply pow_small; [apply div_pos; lra|exact H]]|reflexivity].
  - intros x [H1 H2]. rewrite exp_plus, exp_ln by exact Ha. reflexivity.
  - intros x _. now rewrite Rmult_1_r.
Qed.
