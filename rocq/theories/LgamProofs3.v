(* Stirling's series envelops the error. *)
From Coq Require Import Reals Lra Lia Psatz.
From Coquelicot Require Import Coquelicot.
From Verif Require Import LgamModel LgamSpec LgamProofs LgamProofs2.
Local Open Scope R_scope.

Lemma ugap2 m t c k : 0 < t -> gap2 m t = c / (t * (t + 1)) ^ k -> (0 <= c -> 0 <= gap2 m t) /\ (c <= 0 -> gap2 m t <= 0).
Proof. intros T E. assert (P : 0 < / (t * (t + 1)) ^ k) by (apply Rinv_0_lt_compat, pow_lt; nra). rewrite E. unfold Rdiv. split; intros C; nra. Qed.
Lemma gaps t : 0 < t -> 0 <= gap 0 t /\ gap 1 t <= 0 /\ 0 <= gap 2 t /\ gap 3 t <= 0 /\ 0 <= gap 4 t /\ gap 5 t <= 0 /\ 0 <= gap 6 t.
Proof.
  intros T. assert (UP : forall s k, 0 < s -> 0 <= (s * (s + 1)) ^ k) by (intros s k Sp; apply pow_le; nra). assert (U1 : forall s, 0 < s -> 0 <= s * (s + 1)) by (intros s Sp; nra).
  split; [revert t T; apply gap_pos; intros t T; apply gap2_0, T|].
  split; [revert t T; apply gap_neg; intros t T; apply (proj2 (ugap2 _ _ _ _ T (gap2_1 t T))); lra|].
  split; [revert t T; apply gap_pos; intros t T; apply (proj1 (ugap2 _ _ _ _ T (gap2_2 t T))); pose proof (U1 t T); lra|].
  split; [revert t T; apply gap_neg; intros t T; apply (proj2 (ugap2 _ _ _ _ T (gap2_3 t T))); pose proof (U1 t T); pose proof (UP t 2%nat T); lra|].
  split; [revert t T; apply gap_pos; intros t T; apply (proj1 (ugap2 _ _ _ _ T (gap2_4 t T))); pose proof (U1 t T); pose proof (UP t 2%nat T); pose proof (UP t 3%nat T); lra|].
  split; [revert t T; apply gap_neg; intros t T; apply (proj2 (ugap2 _ _ _ _ T (gap2_5 t T))); pose proof (U1 t T); pose proof (UP t 2%nat T); pose proof (UP t 3%nat T); pose proof (UP t 4%nat T); lra|].
  revert t T; apply gap_pos; intros t T; apply (proj1 (ugap2 _ _ _ _ T (gap2_6 t T))); pose proof (U1 t T); pose proof (UP t 2%nat T); pose proof (UP t 3%nat T); pose proof (UP t 4%nat T); pose proof (UP t 5%nat T); lra.
Qed.
Lemma tele_pos lg m t k : (forall x, 0 < x -> lg (x + 1) = lg x + ln x) -> 0 < t -> (forall s, 0 < s -> 0 <= gap m s) -> err lg (t + INR k) - series m (t + INR k) <= err lg t - series m t.
Proof.
  intros H T Q. induction k as [|k IK]; [cbn [INR]; rewrite Rplus_0_r; lra|]. assert (P : 0 < t + INR k) by (pose proof (pos_INR k); lra). pose proof (err_step lg (t + INR k) H P) as E. assert (G : gap m (t + INR k) = err lg (t + INR k) - err lg (t + INR (S k)) - (series m (t + INR k) - series m (t + INR (S k)))) by (unfold gap; rewrite <- E, S_INR, <- Rplus_assoc; reflexivity). specialize (Q _ P). lra.
Qed.
Lemma tele_neg lg m t k : (forall x, 0 < x -> lg (x + 1) = lg x + ln x) -> 0 < t -> (forall s, 0 < s -> gap m s <= 0) -> err lg t - series m t <= err lg (t + INR k) - series m (t + INR k).
Proof.
  intros H T Q. induction k as [|k IK]; [cbn [INR]; rewrite Rplus_0_r; lra|]. assert (P : 0 < t + INR k) by (pose proof (pos_INR k); lra). pose proof (err_step lg (t + INR k) H P) as E. assert (G : gap m (t + INR k) = err lg (t + INR k) - err lg (t + INR (S k)) - (series m (t + INR k) - series m (t + INR (S k)))) by (unfold gap; rewrite <- E, S_INR, <- Rplus_assoc; reflexivity). specialize (Q _ P). lra.
Qed.
Lemma err_int lg n : lg 1 = 0 -> (forall x, 0 < x -> lg (x + 1) = lg x + ln x) -> (1 <= n)%nat -> - (1 / INR n) <= err lg (INR n) <= 1 / INR n.
Proof.
  intros A B N. assert (NP : 1 <= INR n) by (replace 1 with (INR 1) by reflexivity; apply le_INR, N). pose proof (err_twice lg n A B N) as E. replace (2 * n)%nat with (n + n)%nat in E by lia. rewrite plus_INR in E. assert (P : 0 < INR n) by lra.
  pose proof (tele_pos lg 0 (INR n) n B P (fun s Sp => proj1 (gaps s Sp))) as T0. pose proof (tele_neg lg 1 (INR n) n B P (fun s Sp => proj1 (proj2 (gaps s Sp)))) as T1. cbn [series coef pow] in T0, T1. unfold S0 in T1. rewrite !Rminus_0_r in T0.
  change (2 * 0 + 1)%nat with 1%nat in T1. rewrite !pow_1 in T1. replace (0 + 1 * (1 / 12) / INR n) with (1 / 12 * (1 / INR n)) in T1 by (field; lra). replace (0 + 1 * (1 / 12) / (INR n + INR n)) with (1 / 24 * (1 / INR n)) in T1 by (field; lra). replace (1 / (4 * INR n)) with (1 / 4 * (1 / INR n)) in E by (field; lra). assert (Q : 0 < 1 / INR n) by (apply Rdiv_lt_0_compat; lra). lra.
Qed.
Lemma ln_between n h : 0 < n -> 0 <= h -> h / (n + h) <= ln (n + h) - ln n <= h / n.
Proof.
  intros N H. assert (L : forall x, 0 < x -> ln x <= x - 1). { intros x X. pose proof (exp_ineq1_le (ln x)) as Q. rewrite exp_ln in Q by exact X. lra. }
  split.
  - replace (ln (n + h) - ln n) with (- ln (n / (n + h))) by (unfold Rdiv; rewrite ln_mult, ln_Rinv by (try apply Rinv_0_lt_compat; lra); ring). pose proof (L (n / (n + h)) ltac:(apply Rdiv_lt_0_compat; lra)). replace (h / (n + h)) with (1 - n / (n + h)) by (field; lra). lra.
  - replace (ln (n + h) - ln n) with (ln ((n + h) / n)) by (unfold Rdiv; rewrite ln_mult, ln_Rinv by (try apply Rinv_0_lt_compat; lra); ring). pose proof (L ((n + h) / n) ltac:(apply Rdiv_lt_0_compat; lra)). replace (h / n) with ((n + h) / n - 1) by (field; lra). lra.
Qed.
Lemma err_near lg n h : log_gamma lg -> 1 <= n -> 0 <= h <= 1 -> - (2 / n) <= err lg (n + h) - err lg n <= 2 / n.
Proof.
  intros [A [B C]] N H. set (d := lg (n + h + 1) - lg (n + 1)).
  assert (U : d <= h * ln (n + 1)). { pose proof (C (n + 1 + 1) (n + 1) h ltac:(lra) ltac:(lra) H) as Q. rewrite (B (n + 1)) in Q by lra. replace (h * (n + 1 + 1) + (1 - h) * (n + 1)) with (n + h + 1) in Q by ring. unfold d. lra. }
  assert (L : h * ln n <= d).
  { assert (LL : 0 <= h / (1 + h) <= 1). { split; [apply Rmult_le_pos; [lra|apply Rlt_le, Rinv_0_lt_compat; lra]|apply over; lra]. }
    pose proof (C n (n + h + 1) (h / (1 + h)) ltac:(lra) ltac:(lra) LL) as Q. replace (h / (1 + h) * n + (1 - h / (1 + h)) * (n + h + 1)) with (n + 1) in Q by (field; lra). assert (E : lg n = lg (n + 1) - ln n) by (rewrite B by lra; ring). rewrite E in Q. apply Rmult_le_compat_l with (r := 1 + h) in Q; [|lra]. replace ((1 + h) * (h / (1 + h) * (lg (n + 1) - ln n) + (1 - h / (1 + h)) * lg (n + h + 1))) with (h * (lg (n + 1) - ln n) + lg (n + h + 1)) in Q by (field; lra). unfold d. lra. }
  pose proof (ln_between n h ltac:(lra) ltac:(lra)) as [L1 L2]. pose proof (ln_step n ltac:(lra)) as [_ L3]. set (lam := ln (n + h) - ln n) in *. assert (E : err lg (n + h) - err lg n = (d - h * ln n) - h * lam - (n + 1 / 2) * lam + h) by (unfold err, d, lam; ring). rewrite E. assert (IP : 0 < 1 / n) by (apply Rdiv_lt_0_compat; lra). replace (2 / n) with (2 * (1 / n)) by (field; lra). replace (h / n) with (h * (1 / n)) in L2 by (field; lra). assert (LP : 0 <= lam) by (eapply Rle_trans; [|exact L1]; apply Rmult_le_pos; [lra|apply Rlt_le, Rinv_0_lt_compat; lra]).
  split.
  - assert (Q1 : n * lam <= h) by (apply Rle_trans with (n * (h * (1 / n))); [apply Rmult_le_compat_l; lra|right; field; lra]). assert (Q2 : h * lam <= 1 * lam) by (apply Rmult_le_compat_r; lra). assert (Q3 : h * (1 / n) <= 1 * (1 / n)) by (apply Rmult_le_compat_r; lra). lra.
  - assert (Q1 : h - n * lam <= 1 / n). { apply Rle_trans with (h - n * (h / (n + h))); [apply Rplus_le_compat_l, Ropp_le_contravar, Rmult_le_compat_l; lra|]. replace (h - n * (h / (n + h))) with (h * h / (n + h)) by (field; lra). apply over; [lra|]. replace (1 / n * (n + h)) with (1 + h * (1 / n)) by (field; lra). assert (0 <= h * (1 / n)) by (apply Rmult_le_pos; lra). nra. }
    assert (Q2 : d - h * ln n <= 1 / n). { apply Rle_trans with (h * (ln (n + 1) - ln n)); [lra|]. apply Rle_trans with (1 * (1 / n)); [|lra]. apply Rmult_le_compat; try lra. pose proof (ln_step n ltac:(lra)) as [Z _]. assert (0 < 1 / (n + 1)) by (apply Rdiv_lt_0_compat; lra). lra. }
    assert (Q3 : 0 <= h * lam) by (apply Rmult_le_pos; lra). lra.
Qed.
Lemma err_small lg x : log_gamma lg -> 1 <= x -> - (6 / x) <= err lg x <= 6 / x.
Proof.
  intros G X. destruct (nfloor_ex x ltac:(lra)) as [n [N1 N2]]. assert (N : (1 <= n)%nat). { destruct n; [cbn in N2; lra|lia]. } assert (NP : 1 <= INR n) by (replace 1 with (INR 1) by reflexivity; apply le_INR, N).
  pose proof (err_near lg (INR n) (x - INR n) G NP ltac:(lra)) as E. replace (INR n + (x - INR n)) with x in E by ring. destruct G as [A [B C]]. pose proof (err_int lg n A B N) as F. assert (Q : 3 / INR n <= 6 / x). { apply over; [lra|]. replace (6 / x * INR n) with (3 * ((2 * INR n) / x)) by (field; lra). assert (1 <= 2 * INR n / x) by (apply under; lra). lra. } replace (3 / INR n) with (2 / INR n + 1 / INR n) in Q by (field; lra). lra.
Qed.
Lemma archimedes v C t : 0 < t -> (forall k, 1 <= t + INR k -> - (C / (t + INR k)) <= v) -> 0 <= v.
Proof.
  intros T H. destruct (Rle_dec 0 v) as [|N]; [assumption|]. exfalso. set (d := - v). assert (D : 0 < d) by (unfold d; lra). destruct (nfloor_ex (Rmax 1 ((Rabs C + 1) / d)) ltac:(pose proof (Rmax_l 1 ((Rabs C + 1) / d)); lra)) as [n [_ N2]]. specialize (H (S n)). rewrite S_INR in H. pose proof (Rmax_l 1 ((Rabs C + 1) / d)). pose proof (Rmax_r 1 ((Rabs C + 1) / d)). set (x := t + (INR n + 1)) in *. specialize (H ltac:(unfold x; lra)). assert (X : (Rabs C + 1) / d <= x) by (unfold x; lra). assert (X0 : 0 < x) by (unfold x; lra). assert (F : Rabs C + 1 <= d * x). { apply Rmult_le_reg_r with (/ d); [apply Rinv_0_lt_compat; exact D|]. replace (d * x * / d) with x by (field; lra). exact X. }
  assert (Y : C / x < d); [|unfold d in Y; lra]. apply Rmult_lt_reg_r with x; [exact X0|]. unfold Rdiv. rewrite Rmult_assoc, Rinv_l, Rmult_1_r by lra. pose proof (Rle_abs C). lra.
Qed.
Lemma envelope_pos lg m t : log_gamma lg -> 0 < t -> (forall s, 0 < s -> 0 <= gap m s) -> series m t <= err lg t.
Proof.
  intros G T P. destruct (series_small m) as [C [C0 H]]. assert (Q : 0 <= err lg t - series m t); [|lra]. apply (archimedes _ (6 + C) t T). intros k K. pose proof (tele_pos lg m t k (proj1 (proj2 G)) T P) as E. pose proof (err_small lg (t + INR k) G K) as F. specialize (H _ K). apply Rabs_le_between in H. replace ((6 + C) / (t + INR k)) with (6 / (t + INR k) + C / (t + INR k)) by (field; lra). lra.
Qed.
Lemma envelope_neg lg m t : log_gamma lg -> 0 < t -> (forall s, 0 < s -> gap m s <= 0) -> err lg t <= series m t.
Proof.
  intros G T P. destruct (series_small m) as [C [C0 H]]. assert (Q : 0 <= series m t - err lg t); [|lra]. apply (archimedes _ (6 + C) t T). intros k K. pose proof (tele_neg lg m t k (proj1 (proj2 G)) T P) as E. pose proof (err_small lg (t + INR k) G K) as F. specialize (H _ K). apply Rabs_le_between in H. replace ((6 + C) / (t + INR k)) with (6 / (t + INR k) + C / (t + INR k)) by (field; lra). lra.
Qed.
Lemma envelope lg t : log_gamma lg -> 0 < t -> series 2 t <= err lg t <= series 3 t /\ series 4 t <= err lg t <= series 5 t /\ series 6 t <= err lg t.
Proof.
  intros G T. split; [split|split; [split|]]; [apply envelope_pos|apply envelope_neg|apply envelope_pos|apply envelope_neg|apply envelope_pos]; try assumption; intros s Sp; pose proof (gaps s Sp); intuition.
Qed.
