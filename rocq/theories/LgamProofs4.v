(* stirlerr, betaloge and binomln: proofs. *)
From Coq Require Import Reals Lra Lia Psatz.
From Coquelicot Require Import Coquelicot.
From Verif Require Import LgamModel LgamSpec LgamProofs LgamProofs2 LgamProofs3.
Local Open Scope R_scope.

Definition eps : R := 25 / 10 ^ 17.
Lemma power_bound c N k n : 0 < N -> N <= n -> 0 <= c -> c / n ^ k <= c / N ^ k.
Proof. intros P Q C. unfold Rdiv. apply Rmult_le_compat_l; [exact C|]. apply Rinv_le_contravar; [apply pow_lt, P|]. apply pow_incr. lra. Qed.
Lemma stirlerr_near lg n : log_gamma lg -> 0 < n -> near eps (stirling_error lg n) (stirlerr lg n) /\ (n <= 15 -> stirlerr lg n = Fin (stirling_error lg n)).
Proof.
  intros G N. rewrite error_err by exact N. pose proof (envelope lg n G N) as E. unfold stirlerr. destruct (Rlt_dec n 0); [lra|]. destruct (Req_EM_T n 0); [lra|]. unfold near. cbn [series coef] in E. set (e := err lg n) in *. change (2 * 0 + 1)%nat with 1%nat in E. change (2 * 1 + 1)%nat with 3%nat in E. change (2 * 2 + 1)%nat with 5%nat in E. change (2 * 3 + 1)%nat with 7%nat in E. change (2 * 4 + 1)%nat with 9%nat in E. change (2 * 5 + 1)%nat with 11%nat in E.
  assert (T2 : 0 <= S2 / n ^ 5) by (unfold S2; apply Rlt_le, Rdiv_lt_0_compat; [lra|apply pow_lt, N]). assert (T3 : 0 <= S3 / n ^ 7) by (unfold S3; apply Rlt_le, Rdiv_lt_0_compat; [lra|apply pow_lt, N]). assert (T4 : 0 <= S4 / n ^ 9) by (unfold S4; apply Rlt_le, Rdiv_lt_0_compat; [lra|apply pow_lt, N]). assert (T5 : 0 <= 691 / 360360 / n ^ 11) by (apply Rlt_le, Rdiv_lt_0_compat; [lra|apply pow_lt, N]).
  set (q0 := S0 / n ^ 1). set (q1 := S1 / n ^ 3). set (q2 := S2 / n ^ 5) in *. set (q3 := S3 / n ^ 7) in *. set (q4 := S4 / n ^ 9) in *. set (q5 := 691 / 360360 / n ^ 11) in *.
  assert (E2 : q0 - q1 <= e <= q0 - q1 + q2) by (unfold q0, q1, q2; unfold Rdiv in *; cbn [pow] in *; lra). assert (E4 : q0 - q1 + q2 - q3 <= e <= q0 - q1 + q2 - q3 + q4) by (unfold q0, q1, q2, q3, q4; unfold Rdiv in *; cbn [pow] in *; lra). assert (E6 : q0 - q1 + q2 - q3 + q4 - q5 <= e) by (unfold q0, q1, q2, q3, q4, q5; unfold Rdiv in *; cbn [pow] in *; lra). clear E.
  unfold eps. destruct (Rlt_dec 500 n) as [L|L]; [|destruct (Rlt_dec 80 n) as [L2|L2]; [|destruct (Rlt_dec 35 n) as [L3|L3]; [|destruct (Rlt_dec 15 n) as [L4|L4]]]].
  - split; [|lra]. replace ((S0 - S1 / (n * n)) / n) with (q0 - q1) by (unfold q0, q1; field; lra). pose proof (power_bound S2 500 5 n ltac:(lra) ltac:(lra) ltac:(unfold S2; lra)) as B. fold q2 in B. unfold S2 in B. apply Rabs_le. lra.
  - split; [|lra]. replace ((S0 - (S1 - S2 / (n * n)) / (n * n)) / n) with (q0 - q1 + q2) by (unfold q0, q1, q2; field; lra). pose proof (power_bound S3 80 7 n ltac:(lra) ltac:(lra) ltac:(unfold S3; lra)) as B. fold q3 in B. unfold S3 in B. apply Rabs_le. lra.
  - split; [|lra]. replace ((S0 - (S1 - (S2 - S3 / (n * n)) / (n * n)) / (n * n)) / n) with (q0 - q1 + q2 - q3) by (unfold q0, q1, q2, q3; field; lra). pose proof (power_bound S4 35 9 n ltac:(lra) ltac:(lra) ltac:(unfold S4; lra)) as B. fold q4 in B. unfold S4 in B. apply Rabs_le. lra.
  - split; [|lra]. replace ((S0 - (S1 - (S2 - (S3 - S4 / (n * n)) / (n * n)) / (n * n)) / (n * n)) / n) with (q0 - q1 + q2 - q3 + q4) by (unfold q0, q1, q2, q3, q4; field; lra). pose proof (power_bound (691 / 360360) 15 11 n ltac:(lra) ltac:(lra) ltac:(lra)) as B. fold q5 in B. apply Rabs_le. lra.
  - assert (Q : stirling_error lg n = e) by (apply error_err, N). unfold stirling_error in Q. rewrite Q. split; [|reflexivity]. rewrite Rminus_eq_0, Rabs_R0. lra.
Qed.
Lemma stirlerr_other lg n : (n < 0 -> stirlerr lg n = NaN) /\ (n = 0 -> stirlerr lg n = PInf).
Proof. unfold stirlerr. split; intros H; destruct (Rlt_dec n 0); try lra; try reflexivity. destruct (Req_EM_T n 0); [reflexivity|contradiction]. Qed.
Lemma betaln3_near lg a b : log_gamma lg -> 0 < a -> 0 < b -> near (3 * eps) (log_beta lg a b) (betaln3 lg a b).
Proof.
  intros G A B. unfold betaln3. pose proof (stirlerr_near lg a G A) as [Ea _]. pose proof (stirlerr_near lg b G B) as [Eb _]. pose proof (stirlerr_near lg (a + b) G ltac:(lra)) as [Eab _]. rewrite error_err in Ea, Eb, Eab by lra. destruct (stirlerr lg a) as [ea| | |]; try contradiction. destruct (stirlerr lg b) as [eb| | |]; try contradiction. destruct (stirlerr lg (a + b)) as [eab| | |]; try contradiction. cbn [near] in *. unfold err in Ea, Eb, Eab. destruct G as [_ [R1 _]]. rewrite R1 in Ea, Eb, Eab by lra.
  assert (L1 : ln (a / (a + b)) = ln a - ln (a + b)) by (unfold Rdiv; rewrite ln_mult, ln_Rinv by (try apply Rinv_0_lt_compat; lra); ring). assert (L2 : ln (1 + - a / (a + b)) = ln b - ln (a + b)) by (replace (1 + - a / (a + b)) with (b / (a + b)) by (field; lra); unfold Rdiv; rewrite ln_mult, ln_Rinv by (try apply Rinv_0_lt_compat; lra); ring). rewrite L1, L2. unfold log_beta. apply Rabs_le_between in Ea, Eb, Eab. apply Rabs_le. split; lra.
Qed.
Lemma beta_sym lg z w : log_beta lg z w = log_beta lg w z. Proof. unfold log_beta. rewrite (Rplus_comm w z). ring. Qed.
Lemma minmax lg z w : log_beta lg (Rmin z w) (Rmax z w) = log_beta lg z w.
Proof. unfold Rmin, Rmax. destruct (Rle_dec z w); [reflexivity|apply beta_sym]. Qed.
Lemma betaloge_near lg huge z w : log_gamma lg -> 0 < z -> 0 < w -> z < huge -> w < huge -> near (1 / 10 ^ 15) (log_beta lg z w) (betaloge lg huge z w).
Proof.
  intros G Z W Hz Hw. rewrite <- minmax. assert (A : 0 < Rmin z w) by (apply Rmin_glb_lt; assumption). assert (B : 0 < Rmax z w) by (eapply Rlt_le_trans; [exact Z|apply Rmax_l]). assert (H : Rmax z w < huge) by (apply Rmax_lub_lt; assumption). unfold betaloge. set (a := Rmin z w) in *. set (b := Rmax z w) in *. destruct (Req_EM_T a 0); [lra|]. destruct (Rlt_dec a 0); [lra|]. destruct (Rle_dec huge b); [lra|]. destruct (Rle_dec 10 a).
  - pose proof (betaln3_near lg a b G A B) as N. destruct (betaln3 lg a b); try contradiction. cbn [near] in *. unfold eps in N. lra.
  - cbn [near]. unfold log_beta. rewrite Rminus_eq_0, Rabs_R0. lra.
Qed.
Lemma betaloge_sym lg huge z w : betaloge lg huge z w = betaloge lg huge w z.
Proof. unfold betaloge. rewrite (Rmin_comm z w), (Rmax_comm z w). reflexivity. Qed.
Lemma betaloge_other lg huge z w : (Rmin z w = 0 -> betaloge lg huge z w = PInf) /\ (Rmin z w < 0 -> betaloge lg huge z w = NaN) /\ (0 < Rmin z w -> huge <= Rmax z w -> betaloge lg huge z w = NInf).
Proof. unfold betaloge. set (a := Rmin z w). set (b := Rmax z w). repeat split; intros; destruct (Req_EM_T a 0); try lra; try reflexivity; destruct (Rlt_dec a 0); try lra; try reflexivity. destruct (Rle_dec huge b); [reflexivity|lra]. Qed.
Lemma binomln_near lg huge z w : log_gamma lg -> 0 <= w <= z -> z + 1 < huge -> near (1 / 10 ^ 15) (log_binomial lg z w) (binomln lg huge z w).
Proof.
  intros G [W Z] H. unfold binomln. set (k := if Rlt_dec (z - w) 2 then z - w else w).
  assert (K : 0 <= k <= z /\ log_binomial lg z w = log_binomial lg z k). { unfold k. destruct (Rlt_dec (z - w) 2); [|split; [lra|reflexivity]]. split; [lra|]. unfold log_binomial. replace (z - (z - w) + 1) with (w + 1) by ring. ring. }
  destruct K as [K E]. rewrite E. destruct (Rlt_dec k 0); [lra|]. assert (EP : 0 <= 1 / 10 ^ 15) by lra. destruct (Req_EM_T k 0) as [->|K0].
  - cbn [near]. unfold log_binomial. replace (z - 0 + 1) with (z + 1) by ring. rewrite Rplus_0_l. destruct G as [-> _]. replace (0 - (lg (z + 1) - 0 - lg (z + 1))) with 0 by ring. rewrite Rabs_R0. exact EP.
  - assert (ZP : 0 < z) by lra. destruct (Req_EM_T k 1) as [->|K1].
    + unfold nlog. destruct (Rlt_dec 0 z); [|lra]. cbn [near]. unfold log_binomial. destruct G as [L1 [RC _]]. replace (z - 1 + 1) with z by ring. rewrite RC by lra. rewrite (RC 1) by lra. rewrite L1, ln_1. replace (ln z - (lg z + ln z - (0 + 0) - lg z)) with 0 by ring. rewrite Rabs_R0. exact EP.
    + unfold nlog. destruct (Rlt_dec 0 (z + 1)); [|lra]. pose proof (betaloge_near lg huge (z - k + 1) (k + 1) G ltac:(lra) ltac:(lra) ltac:(lra) ltac:(lra)) as N. destruct (betaloge lg huge (z - k + 1) (k + 1)) as [y| | |]; try contradiction. cbn [near esub] in *. unfold log_beta in N. unfold log_binomial. replace (z - k + 1 + (k + 1)) with (z + 1 + 1) in N by ring. destruct G as [_ [RC _]]. rewrite (RC (z + 1)) in N by lra. apply Rabs_le_between in N. apply Rabs_le. lra.
Qed.
Lemma binomln_below lg huge z w : (z < w \/ (w < 0 /\ 2 <= z - w)) -> binomln lg huge z w = NInf.
Proof. intros H. unfold binomln. destruct (Rlt_dec (z - w) 2); [destruct (Rlt_dec (z - w) 0); [reflexivity|lra]|]. destruct (Rlt_dec w 0); [reflexivity|lra]. Qed.
Lemma binomln_whole lg huge n k : log_gamma lg -> (k <= n)%nat -> INR n + 1 < huge -> near (1 / 10 ^ 15) (ln (Binomial.C n k)) (binomln lg huge (INR n) (INR k)).
Proof.
  intros G K H. assert (E : ln (Binomial.C n k) = log_binomial lg (INR n) (INR k)).
  { unfold Binomial.C, log_binomial. destruct G as [L1 [RC _]]. rewrite <- minus_INR by exact K. rewrite !(lg_fact lg _ L1 RC). assert (F : forall m, 0 < INR (fact m)) by (intros; apply lt_0_INR, lt_O_fact). pose proof (F k). pose proof (F (n - k)%nat). unfold Rdiv. rewrite ln_mult, ln_Rinv, ln_mult by (try apply F; try apply Rinv_0_lt_compat; try (apply Rmult_lt_0_compat; apply F); assumption). ring. }
  rewrite E. apply binomln_near; [exact G| |exact H]. split; [apply pos_INR|apply le_INR, K].
Qed.
Lemma stirlerr_close lg n : log_gamma lg -> 0 < n -> near (25 / 10 ^ 17) (stirling_error lg n) (stirlerr lg n) /\ (n <= 15 -> stirlerr lg n = Fin (stirling_error lg n)).
Proof. exact (stirlerr_near lg n). Qed.
