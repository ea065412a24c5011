(* The autoregressive process of LevelCrossings.sim. *)
From Coq Require Import Reals List Lra Lia.
From Verif Require Import PolyModel KdeModel SpectModel SpectProofs7 HistProofs2 ArModel ArSpec.
Import ListNotations.
Local Open Scope R_scope.

(* ---- the coefficients ---- *)
Lemma rho_cos f : rho_st f = - cos (2 * (f * PI)). Proof. unfold rho_st. rewrite cos_2a_sin. ring. Qed.
Lemma tmp_sin alpha f : 0 <= f <= 1 / 2 -> tmp alpha f = sin (alpha * (f * PI)) ^ 2.
Proof.
  intros H. pose proof PI_RGT_0. assert (B : 0 <= f * PI <= PI / 2) by (split; [apply Rmult_le_pos; lra|unfold Rdiv; rewrite (Rmult_comm PI); apply Rmult_le_compat_r; lra]).
  unfold tmp, rho_st. replace ((1 + (2 * sin (f * PI) ^ 2 - 1)) / 2) with (Rsqr (sin (f * PI))) by (unfold Rsqr; field). rewrite sqrt_Rsqr by (apply sin_ge_0; lra). rewrite asin_sin by lra. reflexivity.
Qed.
Lemma cos_pos_half x : 0 <= x < PI / 2 -> 0 < cos x. Proof. intros H. apply cos_gt_0; lra. Qed.
Lemma tmp_cos alpha f : 0 < alpha < 1 -> 0 <= f < 1 / 2 -> 0 < 1 - tmp alpha f /\ 1 - tmp alpha f = cos (alpha * (f * PI)) ^ 2.
Proof.
  intros A H. pose proof PI_RGT_0. rewrite tmp_sin by lra. pose proof (sin2_cos2 (alpha * (f * PI))) as Q. unfold Rsqr in Q. assert (E : 1 - sin (alpha * (f * PI)) ^ 2 = cos (alpha * (f * PI)) ^ 2) by lra. split; [|exact E]. rewrite E. apply pow_lt, cos_pos_half.
  assert (0 <= f * PI) by (apply Rmult_le_pos; lra). assert (f * PI < PI / 2) by (unfold Rdiv; rewrite (Rmult_comm PI); apply Rmult_lt_compat_r; lra). split; [apply Rmult_le_pos; lra|]. apply Rle_lt_trans with (1 * (f * PI)); [apply Rmult_le_compat_r; lra|lra].
Qed.
Lemma margin_0 alpha : margin alpha 0 = 0.
Proof.
  unfold margin, a2_of. rewrite tmp_sin by lra. rewrite rho_cos, !Rmult_0_l, !Rmult_0_r, sin_0, cos_0. replace ((0 ^ 2 - - (1)) / (1 - 0 ^ 2) + - (1)) with 0 by field. replace (1 - (0 ^ 2 - - (1)) / (1 - 0 ^ 2)) with 0 by field. apply Rmin_left. lra.
Qed.
Lemma margin_pos alpha f : 0 < alpha < 1 -> 0 < f < 1 / 2 -> 0 < a2_of alpha f + rho_st f /\ 0 < 1 - a2_of alpha f /\ -1 < a2_of alpha f.
Proof.
  intros A H. pose proof PI_RGT_0. destruct (tmp_cos alpha f A ltac:(lra)) as [P E]. assert (X1 : 0 < f * PI) by (apply Rmult_lt_0_compat; lra). assert (X2 : f * PI < PI / 2) by (unfold Rdiv; rewrite (Rmult_comm PI); apply Rmult_lt_compat_r; lra). set (x := f * PI) in *.
  assert (Y1 : 0 < alpha * x) by (apply Rmult_lt_0_compat; lra). assert (Y2 : alpha * x < x) by (rewrite <- (Rmult_1_l x) at 2; apply Rmult_lt_compat_r; lra).
  assert (T0 : 0 < tmp alpha f) by (rewrite tmp_sin by lra; fold x; apply pow_lt, sin_gt_0; lra).
  assert (R1 : rho_st f < 1). { rewrite rho_cos. fold x. assert (cos PI < cos (2 * x)) by (apply cos_decreasing_1; lra). rewrite cos_PI in *. lra. }
  assert (DC : 1 - 2 * tmp alpha f + rho_st f > 0). { rewrite tmp_sin by lra. fold x. rewrite rho_cos. fold x. pose proof (cos_2a_sin (alpha * x)) as Q. assert (cos (2 * x) < cos (2 * (alpha * x))) by (apply cos_decreasing_1; lra). lra. }
  unfold a2_of. split; [|split].
  - replace ((tmp alpha f - rho_st f) / (1 - tmp alpha f) + rho_st f) with (tmp alpha f * (1 - rho_st f) / (1 - tmp alpha f)) by (field; lra). apply Rdiv_lt_0_compat; [apply Rmult_lt_0_compat; lra|exact P].
  - replace (1 - (tmp alpha f - rho_st f) / (1 - tmp alpha f)) with ((1 - 2 * tmp alpha f + rho_st f) / (1 - tmp alpha f)) by (field; lra). apply Rdiv_lt_0_compat; lra.
  - apply Rplus_lt_reg_l with 1. replace (1 + (tmp alpha f - rho_st f) / (1 - tmp alpha f)) with ((1 - rho_st f) / (1 - tmp alpha f)) by (field; lra). replace (1 + -1) with 0 by ring. apply Rdiv_lt_0_compat; lra.
Qed.
Lemma grid_nth k : (k < 1000)%nat -> nth k grid 0 = INR k * (49999 / 99900000).
Proof. intros H. unfold grid. rewrite linspace_nth by exact H. replace (INR (1000 - 1)) with 999 by (rewrite INR_IZR_INZ; reflexivity). field. Qed.
Lemma grid_length : List.length grid = 1000%nat. Proof. apply linspace_length. Qed.
Lemma best_inside alpha : 0 < alpha < 1 -> exists k, (1 <= k < 1000)%nat /\ best alpha = INR k * (49999 / 99900000) /\ 0 < best alpha < 1 / 2.
Proof.
  intros A. assert (NE : map (margin alpha) grid <> []) by (intros Q; apply (f_equal (@List.length R)) in Q; rewrite map_length, grid_length in Q; discriminate). destruct (argmaxR_spec _ NE) as [L [M _]]. unfold best. set (p := argmaxR (map (margin alpha) grid)) in *. rewrite map_length, grid_length in L, M. exists p. rewrite grid_nth by exact L.
  assert (AT : forall k, (k < 1000)%nat -> at_R (map (margin alpha) grid) k = margin alpha (INR k * (49999 / 99900000))). { intros k Hk. unfold at_R. rewrite nth_indep with (d' := margin alpha 0) by (rewrite map_length, grid_length; exact Hk). rewrite (map_nth (margin alpha)), grid_nth by exact Hk. reflexivity. }
  assert (P0 : (1 <= p)%nat). { destruct (Nat.eq_dec p 0) as [E|]; [exfalso|lia]. pose proof (M 1%nat ltac:(lia)) as Q. rewrite E, !AT in Q by lia. cbn [INR] in Q. rewrite Rmult_0_l, margin_0 in Q. destruct (margin_pos alpha (1 * (49999 / 99900000)) A ltac:(lra)) as [U [V _]]. pose proof (Rmin_glb_lt _ _ _ U V) as W. unfold margin in Q. lra. }
  split; [lia|]. split; [reflexivity|]. assert (1 <= INR p) by (apply (le_INR 1); exact P0). assert (INR p <= 999) by (replace 999 with (INR 999) by (rewrite INR_IZR_INZ; reflexivity); apply le_INR; lia). lra.
Qed.
Lemma coef_facts alpha : 0 < alpha < 1 -> let x := best alpha * PI in 0 < x < PI / 2 /\ cor1 alpha = cos (2 * (alpha * x)) /\ -1 < coef2 alpha < 1 /\
  cor1 alpha = - coef1 alpha - coef2 alpha * cor1 alpha /\ cor2 alpha = - coef1 alpha * cor1 alpha - coef2 alpha /\ increments (cor1 alpha) (cor2 alpha) = cos (2 * x) /\ -1 < cor1 alpha < 1.
Proof.
  intros A x. pose proof PI_RGT_0. destruct (best_inside alpha A) as [k [_ [_ B]]]. destruct (margin_pos alpha (best alpha) A B) as [M1 [M2 M3]]. destruct (tmp_cos alpha (best alpha) A ltac:(lra)) as [P _].
  assert (X : 0 < x < PI / 2) by (unfold x; split; [apply Rmult_lt_0_compat; lra|unfold Rdiv; rewrite (Rmult_comm PI); apply Rmult_lt_compat_r; lra]).
  assert (AX : 0 < alpha * x < x) by (split; [apply Rmult_lt_0_compat; lra|rewrite <- (Rmult_1_l x) at 2; apply Rmult_lt_compat_r; lra]).
  assert (D : 1 + coef2 alpha <> 0) by (unfold coef2; lra).
  assert (R1 : rho_st (best alpha) < 1). { rewrite rho_cos. fold x. assert (cos PI < cos (2 * x)) by (apply cos_decreasing_1; lra). rewrite cos_PI in *. lra. }
  assert (C1 : cor1 alpha = cos (2 * (alpha * x))). { rewrite cos_2a_sin. transitivity (1 - 2 * tmp alpha (best alpha)); [|rewrite tmp_sin by lra; fold x; ring]. unfold cor1, coef1, coef2, a2_of in *. set (r := rho_st (best alpha)) in *. set (t := tmp alpha (best alpha)) in *. field. split; [lra|]. lra. }
  assert (CB : -1 < cor1 alpha < 1). { rewrite C1. assert (cos (2 * (alpha * x)) < cos 0) by (apply cos_decreasing_1; lra). assert (cos PI < cos (2 * (alpha * x))) by (apply cos_decreasing_1; lra). rewrite cos_0, cos_PI in *. lra. }
  split; [exact X|]. split; [exact C1|]. split; [unfold coef2; lra|]. split; [unfold cor1; field; exact D|]. split; [unfold cor1, cor2; field; exact D|]. split; [|exact CB].
  assert (E1 : coef1 alpha = - cor1 alpha * (1 + coef2 alpha)) by (unfold cor1; field; exact D). assert (E2 : cor2 alpha = cor1 alpha ^ 2 * (1 + coef2 alpha) - coef2 alpha) by (unfold cor1, cor2; field; exact D). assert (E3 : rho_st (best alpha) = (coef1 alpha - coef2 alpha + 1) / 2) by (unfold coef1; field). pose proof (rho_cos (best alpha)) as E4. fold x in E4. unfold increments. replace (cos (2 * x)) with (- rho_st (best alpha)) by lra. rewrite E3, E2, E1. field. lra.
Qed.
Lemma innovation_eq alpha : 0 < alpha < 1 -> innovation alpha = (1 - cor1 alpha ^ 2) * (1 - coef2 alpha ^ 2) /\ 0 < innovation alpha.
Proof.
  intros A. destruct (coef_facts alpha A) as [_ [_ [C2 [Y1 [Y2 [_ C1]]]]]]. assert (E : innovation alpha = (1 - cor1 alpha ^ 2) * (1 - coef2 alpha ^ 2)). { unfold innovation. rewrite Y2. assert (E1 : coef1 alpha = - cor1 alpha * (1 + coef2 alpha)) by lra. rewrite E1. ring. } split; [exact E|]. rewrite E. apply Rmult_lt_0_compat; nra.
Qed.
Lemma irregularity alpha : 0 < alpha < 1 -> acos (cor1 alpha) = alpha * acos (increments (cor1 alpha) (cor2 alpha)) /\ -1 < cor1 alpha < 1 /\ -1 < increments (cor1 alpha) (cor2 alpha) < 1.
Proof.
  intros A. destruct (coef_facts alpha A) as [X [C1 [_ [_ [_ [I CB]]]]]]. rewrite I. set (x := best alpha * PI) in *. split; [|split; [exact CB|]].
  - rewrite C1. assert (AX : 0 < alpha * x < x) by (split; [apply Rmult_lt_0_compat; lra|rewrite <- (Rmult_1_l x) at 2; apply Rmult_lt_compat_r; lra]). rewrite !acos_cos by lra. ring.
  - pose proof PI_RGT_0. assert (cos (2 * x) < cos 0) by (apply cos_decreasing_1; lra). assert (cos PI < cos (2 * x)) by (apply cos_decreasing_1; lra). rewrite cos_0, cos_PI in *. lra.
Qed.
Lemma yule_walker alpha : 0 < alpha < 1 -> cor1 alpha = - coef1 alpha - coef2 alpha * cor1 alpha /\ cor2 alpha = - coef1 alpha * cor1 alpha - coef2 alpha /\
  1 = - coef1 alpha * cor1 alpha - coef2 alpha * cor2 alpha + innovation alpha /\ 0 < innovation alpha.
Proof. intros A. destruct (coef_facts alpha A) as [_ [_ [_ [Y1 [Y2 _]]]]]. destruct (innovation_eq alpha A) as [_ P]. split; [exact Y1|]. split; [exact Y2|]. split; [unfold innovation; ring|exact P]. Qed.
