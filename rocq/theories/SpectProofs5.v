From Coq Require Import Reals Lra Lia Psatz String.
From Coquelicot Require Import Coquelicot.
From Verif Require Import Base PolyModel KdeModel GridModel GridSpec ProcSpec ProcProofs CovModel CovSpec CovProofs CovProofs2 CovProofs3 SpcovModel SpcovSpec SpcovProofs3 SpectModel SpectSpec SpectProofs SpectProofs2 SpectProofs3 SpectProofs4.
Local Open Scope R_scope.

Definition matches (q : momenta) (mu sigma : Z -> R) : Prop :=
  (forall k, (k <= 4)%nat -> mom q k = mu (Z.of_nat k)) /\ m_1 q = mu (-1)%Z /\ (forall k, (k <= 8)%nat -> mij q k = sigma (Z.of_nat k)) /\ m_10 q = sigma (-1)%Z /\ m_11 q = sigma (-2)%Z.
Ltac matched M := destruct M as (M1 & M2 & M3 & M4 & M5); rewrite ?(M1 0%nat), ?(M1 1%nat), ?(M1 2%nat), ?(M1 4%nat), ?M2, ?(M3 0%nat), ?(M3 1%nat), ?(M3 2%nat), ?(M3 3%nat), ?(M3 4%nat), ?(M3 6%nat), ?(M3 8%nat), ?M4, ?M5 by lia;
  change (Z.of_nat 0) with 0%Z; change (Z.of_nat 1) with 1%Z; change (Z.of_nat 2) with 2%Z; change (Z.of_nat 3) with 3%Z; change (Z.of_nat 4) with 4%Z; change (Z.of_nat 6) with 6%Z; change (Z.of_nat 8) with 8%Z.
Ltac expand := cbn [orders map sumR fold_right Z.add Z.opp Z.pos_sub Pos.add Pos.succ Z.succ_double Z.pred_double Z.double Pos.pred_double].

Lemma var_Hm0 g q mu sigma : matches q mu sigma -> 0 < mu 0%Z -> exists v, nth 0 (variances g q) None = Some v /\ delta_covariance mu sigma Hm0 Hm0 v.
Proof.
  intros M P. eexists. split; [reflexivity|]. apply (delta_intro _ _ _ _ (dHm0 mu) (dHm0 mu)); [intros; now apply is_dHm0..|]. matched M. expand. unfold dHm0.
  destruct (root _ P) as (r & Hr & -> & Er). rewrite Er. field. lra.
Qed.
Lemma var_Tm01 g q mu sigma : matches q mu sigma -> 0 < mu 1%Z -> exists v, nth 1 (variances g q) None = Some v /\ delta_covariance mu sigma Tm01 Tm01 v.
Proof.
  intros M P. eexists. split; [reflexivity|]. apply (delta_intro _ _ _ _ (dTm01 mu) (dTm01 mu)); [intros; now apply is_dTm01..|]. matched M. expand. unfold dTm01. field. lra.
Qed.
Lemma var_Tm02 g q mu sigma : matches q mu sigma -> 0 < mu 0%Z -> 0 < mu 2%Z -> exists v, nth 2 (variances g q) None = Some v /\ delta_covariance mu sigma Tm02 Tm02 v.
Proof.
  intros M P Q. eexists. split; [reflexivity|]. apply (delta_intro _ _ _ _ (dTm02 mu) (dTm02 mu)); [intros; now apply is_dTm02..|]. matched M. expand. unfold dTm02, dratio. cbn -[sqrt pow].
  destruct (root _ P) as (r & Hr & -> & Er). destruct (root _ Q) as (u & Hu & -> & Eu). unfold Rdiv. rewrite (sqrt_ratio r u Hr Hu). field. lra.
Qed.
Lemma var_Tm24 g q mu sigma : matches q mu sigma -> 0 < mu 2%Z -> 0 < mu 4%Z -> exists v, nth 3 (variances g q) None = Some v /\ delta_covariance mu sigma Tm24 Tm24 v.
Proof.
  intros M P Q. eexists. split; [reflexivity|]. apply (delta_intro _ _ _ _ (dTm24 mu) (dTm24 mu)); [intros; now apply is_dTm24..|]. matched M. expand. unfold dTm24, dratio. cbn -[sqrt pow].
  destruct (root _ P) as (r & Hr & -> & Er). destruct (root _ Q) as (u & Hu & -> & Eu). unfold Rdiv. rewrite (sqrt_ratio r u Hr Hu). field. lra.
Qed.
Lemma var_Tm_10 g q mu sigma : matches q mu sigma -> 0 < mu 0%Z -> exists v, nth 4 (variances g q) None = Some v /\ delta_covariance mu sigma Tm_10 Tm_10 v.
Proof.
  intros M P. eexists. split; [reflexivity|]. apply (delta_intro _ _ _ _ (dTm_10 mu) (dTm_10 mu)); [intros; now apply is_dTm_10..|]. matched M. expand. unfold dTm_10. field. lra.
Qed.
Lemma var_Ss g q mu sigma : matches q mu sigma -> 0 < g -> 0 < mu 0%Z -> 0 < mu 2%Z -> exists v, nth 6 (variances g q) None = Some v /\ delta_covariance mu sigma (steepness g) (steepness g) v.
Proof.
  intros M Hg P Q. eexists. split; [reflexivity|]. apply (delta_intro _ _ _ _ (dsteep g mu) (dsteep g mu)); [intros; now apply is_dsteep'..|]. matched M. expand. unfold dsteep.
  destruct (root _ P) as (r & Hr & -> & Er). rewrite Er. field. lra.
Qed.
Lemma var_alpha g q mu sigma : matches q mu sigma -> 0 < mu 0%Z -> 0 < mu 2%Z -> 0 < mu 4%Z -> exists v, nth 11 (variances g q) None = Some v /\ delta_covariance mu sigma irregularity irregularity v.
Proof.
  intros M P Q S. eexists. split; [reflexivity|]. apply (delta_intro _ _ _ _ (dirr mu) (dirr mu)); [intros; now apply is_dirr'..|]. matched M. expand. unfold dirr. cbn zeta.
  destruct (root _ P) as (r & Hr & -> & Er). destruct (root _ S) as (u & Hu & -> & Eu). rewrite (sqrt_product r u Hr Hu). field. lra.
Qed.
Lemma var_eps2 g q mu sigma : matches q mu sigma -> 0 < mu 1%Z -> 0 < mu 2%Z -> 0 < mu 0%Z * mu 2%Z / mu 1%Z ^ 2 - 1 -> exists v, nth 12 (variances g q) None = Some v /\ delta_covariance mu sigma narrowness narrowness v.
Proof.
  intros M P P2 Q. eexists. split; [reflexivity|]. apply (delta_intro _ _ _ _ (dnarrow mu) (dnarrow mu)); [intros; now apply is_dnarrow'..|]. matched M. expand. unfold dnarrow. cbn zeta.
  replace (mu 0%Z / mu 1%Z / (mu 1%Z / mu 2%Z) - 1) with (mu 0%Z * mu 2%Z / mu 1%Z ^ 2 - 1) by (field; lra).
  pose proof (sqrt_lt_R0 _ Q) as E. set (e := sqrt (mu 0%Z * mu 2%Z / mu 1%Z ^ 2 - 1)) in *. clearbody e. field. lra.
Qed.
Lemma var_eps4 g q mu sigma : matches q mu sigma -> 0 < mu 0%Z -> 0 < mu 2%Z -> 0 < mu 4%Z -> 0 < 1 - mu 2%Z ^ 2 / (mu 0%Z * mu 4%Z) -> exists v, nth 13 (variances g q) None = Some v /\ delta_covariance mu sigma broadness broadness v.
Proof.
  intros M P P2 P4 Q. eexists. split; [reflexivity|]. apply (delta_intro _ _ _ _ (dbroad mu) (dbroad mu)); [intros; now apply is_dbroad'..|]. matched M. expand. unfold dbroad. cbn zeta.
  assert (EA : (sqrt (mu 2%Z / mu 4%Z) / sqrt (mu 0%Z / mu 2%Z)) ^ 2 = mu 2%Z ^ 2 / (mu 0%Z * mu 4%Z)).
  { assert (0 < mu 0%Z / mu 2%Z) by now apply Rdiv_lt_0_compat. assert (0 < mu 2%Z / mu 4%Z) by now apply Rdiv_lt_0_compat. unfold Rdiv at 1. rewrite Rpow_mult_distr, pow2_sqrt by lra. rewrite <- Rinv_pow by (apply Rgt_not_eq, sqrt_lt_R0; easy). rewrite pow2_sqrt by lra. field. lra. }
  rewrite EA. pose proof (sqrt_lt_R0 _ Q) as E. set (e := sqrt (1 - mu 2%Z ^ 2 / (mu 0%Z * mu 4%Z))) in *. clearbody e. field. lra.
Qed.
Lemma cov_Hm0_Tm01 q mu sigma : matches q mu sigma -> 0 < mu 0%Z -> 0 < mu 1%Z -> delta_covariance mu sigma Hm0 Tm01 (at_R (covariances q) 0).
Proof.
  intros M P Q. apply (delta_intro _ _ _ _ (dHm0 mu) (dTm01 mu)); [intros; now apply is_dHm0|intros; now apply is_dTm01|]. unfold covariances, at_R. cbn [nth]. matched M. expand. unfold dHm0, dTm01.
  destruct (root _ P) as (r & Hr & -> & Er). rewrite Er. field. lra.
Qed.
Lemma cov_Hm0_Tm02 q mu sigma : matches q mu sigma -> 0 < mu 0%Z -> 0 < mu 2%Z -> delta_covariance mu sigma Hm0 Tm02 (at_R (covariances q) 1).
Proof.
  intros M P Q. apply (delta_intro _ _ _ _ (dHm0 mu) (dTm02 mu)); [intros; now apply is_dHm0|intros; now apply is_dTm02|]. unfold covariances, at_R. cbn [nth]. matched M. expand. unfold dHm0, dTm02, dratio. cbn -[sqrt pow].
  destruct (root _ P) as (r & Hr & -> & Er). destruct (root _ Q) as (u & Hu & -> & Eu). unfold Rdiv. rewrite (sqrt_ratio r u Hr Hu), Er, Eu. field. lra.
Qed.
Lemma cov_Tm01_Tm02 q mu sigma : matches q mu sigma -> 0 < mu 0%Z -> 0 < mu 1%Z -> 0 < mu 2%Z -> delta_covariance mu sigma Tm01 Tm02 (at_R (covariances q) 2).
Proof.
  intros M P1 P Q. apply (delta_intro _ _ _ _ (dTm01 mu) (dTm02 mu)); [intros; now apply is_dTm01|intros; now apply is_dTm02|]. unfold covariances, at_R. cbn [nth]. matched M. expand. unfold dTm01, dTm02, dratio. cbn -[sqrt pow].
  destruct (root _ P1) as (r & Hr & -> & Er). destruct (root _ Q) as (u & Hu & -> & Eu). unfold Rdiv. rewrite (sqrt_ratio r u Hr Hu). field. lra.
Qed.
