(* The remainder of Stirling's series: calculus. *)
From Coq Require Import Reals Lra Lia Psatz.
From Coquelicot Require Import Coquelicot.
From Verif Require Import LgamModel LgamSpec.
Local Open Scope R_scope.

(* a monotone function that vanishes at infinity *)
Lemma vanishing f C x : (forall t, 1 <= t -> f t <= C / t) -> (forall u v, x <= u -> u <= v -> f u <= f v) -> f x <= 0.
Proof.
  intros B M. destruct (Rle_dec (f x) 0) as [|N]; [assumption|]. exfalso. set (d := f x) in *. assert (Dp : 0 < d) by lra. set (t := Rmax x (Rmax 1 ((Rabs C + 1) / d))). assert (T1 : x <= t) by apply Rmax_l. assert (T2 : 1 <= t) by (eapply Rle_trans; [apply Rmax_l|apply Rmax_r]). assert (T3 : (Rabs C + 1) / d <= t) by (eapply Rle_trans; [apply Rmax_r|apply Rmax_r]).
  specialize (M x t ltac:(lra) T1). specialize (B t T2). fold d in M. assert (C / t < d); [|lra]. apply Rmult_lt_reg_r with t; [lra|]. unfold Rdiv. rewrite Rmult_assoc, Rinv_l, Rmult_1_r by lra. assert (Rabs C + 1 <= d * t). { apply Rmult_le_reg_r with (/ d); [apply Rinv_0_lt_compat; exact Dp|]. replace (d * t * / d) with t by (field; lra). exact T3. } pose proof (Rle_abs C). lra.
Qed.
Lemma increasing_of f f' x : 0 < x -> (forall t, 0 < t -> is_derive f t (f' t)) -> (forall t, 0 < t -> 0 <= f' t) -> forall u v, x <= u -> u <= v -> f u <= f v.
Proof.
  intros X D P u v U V. destruct (Req_dec u v) as [->|N]; [lra|]. destruct (MVT_gen f u v f') as [c [Hc E]]. - intros t T. rewrite Rmin_left, Rmax_right in T by lra. apply D. lra. - intros t T. rewrite Rmin_left, Rmax_right in T by lra. apply continuity_pt_filterlim, (ex_derive_continuous f). exists (f' t). apply D. lra. - rewrite Rmin_left, Rmax_right in Hc by lra. pose proof (P c ltac:(lra)). nra.
Qed.
Lemma convex_vanishing f f' f'' C C' : (forall t, 0 < t -> is_derive f t (f' t)) -> (forall t, 0 < t -> is_derive f' t (f'' t)) -> (forall t, 0 < t -> 0 <= f'' t) -> (forall t, 1 <= t -> f' t <= C' / t) -> (forall t, 1 <= t -> - f t <= C / t) -> forall t, 0 < t -> 0 <= f t.
Proof.
  intros D1 D2 P B' B t T. assert (N : forall s, 0 < s -> f' s <= 0) by (intros s Sp; apply (vanishing f' C' s B'), (increasing_of f' f'' s Sp D2 P)).
  assert (Q : - f t <= 0); [|lra]. apply (vanishing (fun s => - f s) C t B). apply (increasing_of (fun s => - f s) (fun s => - f' s) t T); [intros s Sp; apply (is_derive_opp f); apply D1, Sp|intros s Sp; specialize (N s Sp); lra].
Qed.
(* the step of Stirling's error *)
Definition delta (t : R) : R := (t + 1 / 2) * (ln (t + 1) - ln t) - 1.
Definition delta' (t : R) : R := ln (t + 1) - ln t + (t + 1 / 2) * (1 / (t + 1) - 1 / t).
Lemma delta_d t : 0 < t -> is_derive delta t (delta' t).
Proof. intros T. unfold delta, delta'. auto_derive; [repeat split; lra|]. field. lra. Qed.
Lemma delta'_d t : 0 < t -> is_derive delta' t (1 / (2 * (t * (t + 1)) ^ 2)).
Proof. intros T. unfold delta'. auto_derive; [repeat split; lra|]. field. lra. Qed.
Lemma ln_step t : 0 < t -> 1 / (t + 1) <= ln (t + 1) - ln t <= 1 / t.
Proof.
  intros T. assert (L : forall x, 0 < x -> ln x <= x - 1). { intros x X. pose proof (exp_ineq1_le (ln x)) as H. rewrite exp_ln in H by exact X. lra. }
  split.
  - replace (ln (t + 1) - ln t) with (- ln (t / (t + 1))) by (unfold Rdiv; rewrite ln_mult, ln_Rinv by (try apply Rinv_0_lt_compat; lra); ring). pose proof (L (t / (t + 1)) ltac:(apply Rdiv_lt_0_compat; lra)). replace (1 / (t + 1)) with (1 - t / (t + 1)) by (field; lra). lra.
  - replace (ln (t + 1) - ln t) with (ln ((t + 1) / t)) by (unfold Rdiv; rewrite ln_mult, ln_Rinv by (try apply Rinv_0_lt_compat; lra); ring). pose proof (L ((t + 1) / t) ltac:(apply Rdiv_lt_0_compat; lra)). replace (1 / t) with ((t + 1) / t - 1) by (field; lra). lra.
Qed.
Lemma over a b : 0 < b -> forall c, a <= c * b -> a / b <= c. Proof. intros B c H. apply Rmult_le_reg_r with b; [exact B|]. unfold Rdiv. rewrite Rmult_assoc, Rinv_l, Rmult_1_r by lra. exact H. Qed.
Lemma under a b : 0 < b -> forall c, c * b <= a -> c <= a / b. Proof. intros B c H. apply Rmult_le_reg_r with b; [exact B|]. unfold Rdiv. rewrite Rmult_assoc, Rinv_l, Rmult_1_r by lra. exact H. Qed.
Lemma delta_small t : 1 <= t -> - (1 / t) <= delta t <= 1 / t.
Proof.
  intros T. destruct (ln_step t ltac:(lra)) as [A B]. unfold delta. split.
  - apply Rle_trans with ((t + 1 / 2) * (1 / (t + 1)) - 1); [|apply Rplus_le_compat_r, Rmult_le_compat_l; lra]. replace ((t + 1 / 2) * (1 / (t + 1)) - 1) with (- (1 / 2 / (t + 1))) by (field; lra). apply Ropp_le_contravar. apply over; [lra|]. replace (1 / t * (t + 1)) with (1 + 1 / t) by (field; lra). pose proof (Rdiv_lt_0_compat 1 t). lra.
  - apply Rle_trans with ((t + 1 / 2) * (1 / t) - 1); [apply Rplus_le_compat_r, Rmult_le_compat_l; lra|]. replace ((t + 1 / 2) * (1 / t) - 1) with (1 / 2 * (1 / t)) by (field; lra). pose proof (Rdiv_lt_0_compat 1 t). lra.
Qed.
Lemma delta'_small t : 1 <= t -> - (1 / t) <= delta' t <= 1 / t.
Proof.
  intros T. destruct (ln_step t ltac:(lra)) as [A B]. unfold delta'. assert (E : (t + 1 / 2) * (1 / (t + 1) - 1 / t) = - (1 / 2 * (1 / t)) - 1 / 2 * (1 / (t + 1))) by (field; lra). rewrite E. assert (F : 1 / (t + 1) <= 1 / t) by (unfold Rdiv; apply Rmult_le_compat_l; [lra|]; apply Rinv_le_contravar; lra). assert (G : 0 < 1 / (t + 1)) by (apply Rdiv_lt_0_compat; lra). lra.
Qed.
(* the first m terms of the series *)
Definition coef (i : nat) : R := match i with 0%nat => S0 | 1%nat => S1 | 2%nat => S2 | 3%nat => S3 | 4%nat => S4 | 5%nat => 691 / 360360 | _ => 0 end.
Fixpoint series (m : nat) (t : R) : R := match m with O => 0 | S i => series i t + (-1) ^ i * coef i / t ^ (2 * i + 1) end.
Fixpoint series1 (m : nat) (t : R) : R := match m with O => 0 | S i => series1 i t - (-1) ^ i * coef i * INR (2 * i + 1) / t ^ (2 * i + 2) end.
Fixpoint series2 (m : nat) (t : R) : R := match m with O => 0 | S i => series2 i t + (-1) ^ i * coef i * INR (2 * i + 1) * INR (2 * i + 2) / t ^ (2 * i + 3) end.
Lemma inv_pow_d k t : 0 < t -> is_derive (fun t => / t ^ k) t (- INR k / t ^ (k + 1)).
Proof. intros T. assert (P := pow_lt t k T). auto_derive; [lra|]. rewrite pow_add. cbn [pow]. destruct k as [|k]; [cbn; field; lra|]. cbn [pred]. assert (Q := pow_lt t k T). cbn [pow]. field. lra. Qed.
Lemma series_d m t : 0 < t -> is_derive (series m) t (series1 m t).
Proof.
  intros T. induction m as [|i IH]; [apply (is_derive_const 0)|]. cbn [series series1]. replace (series1 i t - (-1) ^ i * coef i * INR (2 * i + 1) / t ^ (2 * i + 2)) with (series1 i t + ((-1) ^ i * coef i) * (- INR (2 * i + 1) / t ^ (2 * i + 1 + 1))). 2: { replace (2 * i + 1 + 1)%nat with (2 * i + 2)%nat by lia. unfold Rdiv. ring. }
  apply (is_derive_plus (series i)); [exact IH|]. apply (is_derive_scal (fun t => / t ^ (2 * i + 1)) t ((-1) ^ i * coef i)), inv_pow_d, T.
Qed.
Lemma series1_d m t : 0 < t -> is_derive (series1 m) t (series2 m t).
Proof.
  intros T. induction m as [|i IH]; [apply (is_derive_const 0)|]. cbn [series1 series2]. apply (is_derive_ext (fun t => series1 i t + (- ((-1) ^ i * coef i * INR (2 * i + 1))) * / t ^ (2 * i + 2))); [intros s; match goal with |- ?a = ?b => change (@eq R a b) end; unfold Rdiv; ring|].
  replace (series2 i t + (-1) ^ i * coef i * INR (2 * i + 1) * INR (2 * i + 2) / t ^ (2 * i + 3)) with (series2 i t + (- ((-1) ^ i * coef i * INR (2 * i + 1))) * (- INR (2 * i + 2) / t ^ (2 * i + 2 + 1))). 2: { replace (2 * i + 2 + 1)%nat with (2 * i + 3)%nat by lia. unfold Rdiv. ring. }
  apply (is_derive_plus (series1 i)); [exact IH|]. apply (is_derive_scal (fun t => / t ^ (2 * i + 2)) t), inv_pow_d, T.
Qed.
Lemma pow_ge t k : 1 <= t -> t <= t ^ S k. Proof. intros T. induction k as [|k IH]; [cbn; lra|]. replace (t ^ S (S k)) with (t * t ^ S k) by reflexivity. nra. Qed.
Lemma inv_pow_small t k : 1 <= t -> 0 <= 1 / t ^ S k <= 1 / t. Proof. intros T. pose proof (pow_ge t k T). split; [apply Rlt_le, Rdiv_lt_0_compat; lra|]. unfold Rdiv. apply Rmult_le_compat_l; [lra|]. apply Rinv_le_contravar; lra. Qed.
Lemma term_small c t k : 1 <= t -> Rabs (c / t ^ S k) <= Rabs c / t.
Proof. intros T. pose proof (inv_pow_small t k T). replace (c / t ^ S k) with (c * (1 / t ^ S k)) by (unfold Rdiv; ring). rewrite Rabs_mult, (Rabs_pos_eq (1 / _)) by apply H. replace (Rabs c / t) with (Rabs c * (1 / t)) by (unfold Rdiv; ring). apply Rmult_le_compat_l; [apply Rabs_pos|apply H]. Qed.
Lemma series_small m : exists C, 0 <= C /\ forall t, 1 <= t -> Rabs (series m t) <= C / t.
Proof.
  induction m as [|i [C [P IH]]]; [exists 0; split; [lra|]; intros t T; cbn; rewrite Rabs_R0; unfold Rdiv; lra|]. exists (C + Rabs ((-1) ^ i * coef i)). split; [pose proof (Rabs_pos ((-1) ^ i * coef i)); lra|]. intros t T. cbn [series]. eapply Rle_trans; [apply Rabs_triang|]. unfold Rdiv at 2. rewrite Rmult_plus_distr_r. apply Rplus_le_compat; [apply IH, T|]. replace (2 * i + 1)%nat with (S (2 * i)) by lia. apply term_small, T.
Qed.
Lemma series1_small m : exists C, 0 <= C /\ forall t, 1 <= t -> Rabs (series1 m t) <= C / t.
Proof.
  induction m as [|i [C [P IH]]]; [exists 0; split; [lra|]; intros t T; cbn; rewrite Rabs_R0; unfold Rdiv; lra|]. exists (C + Rabs ((-1) ^ i * coef i * INR (2 * i + 1))). split; [pose proof (Rabs_pos ((-1) ^ i * coef i * INR (2 * i + 1))); lra|]. intros t T. cbn [series1]. unfold Rminus. eapply Rle_trans; [apply Rabs_triang|]. unfold Rdiv at 2. rewrite Rmult_plus_distr_r. apply Rplus_le_compat; [apply IH, T|]. rewrite Rabs_Ropp. replace (2 * i + 2)%nat with (S (2 * i + 1)) by lia. apply term_small, T.
Qed.
Definition gap (m : nat) (t : R) : R := delta t - (series m t - series m (t + 1)).
Definition gap1 (m : nat) (t : R) : R := delta' t - (series1 m t - series1 m (t + 1)).
Definition gap2 (m : nat) (t : R) : R := 1 / (2 * (t * (t + 1)) ^ 2) - (series2 m t - series2 m (t + 1)).
Lemma shift_d (f : R -> R) (l t : R) : is_derive f (t + 1) l -> is_derive (fun s => f (s + 1)) t l.
Proof. intros H. replace l with (1 * l) by ring. apply (is_derive_comp f (fun s => s + 1) t l 1 H). auto_derive; [exact I|ring]. Qed.
Lemma gap_d (m : nat) (t : R) : 0 < t -> is_derive (gap m) t (gap1 m t).
Proof. intros T. unfold gap, gap1. apply (is_derive_minus delta); [apply delta_d, T|]. apply (is_derive_minus (series m)); [apply series_d, T|]. apply shift_d, series_d. lra. Qed.
Lemma gap1_d m t : 0 < t -> is_derive (gap1 m) t (gap2 m t).
Proof. intros T. unfold gap1, gap2. apply (is_derive_minus delta'); [apply delta'_d, T|]. apply (is_derive_minus (series1 m)); [apply series1_d, T|]. apply shift_d, series1_d. lra. Qed.
Lemma gap_small m : exists C, forall t, 1 <= t -> Rabs (gap m t) <= C / t.
Proof.
  destruct (series_small m) as [C [P H]]. exists (1 + C + C). intros t T. unfold gap. pose proof (delta_small t T) as D. pose proof (H t T) as H1. pose proof (H (t + 1) ltac:(lra)) as H2. assert (H3 : C / (t + 1) <= C / t) by (unfold Rdiv; apply Rmult_le_compat_l; [exact P|]; apply Rinv_le_contravar; lra). apply Rabs_le_between in H1, H2. replace ((1 + C + C) / t) with (1 / t + C / t + C / t) by (unfold Rdiv; ring). apply Rabs_le. lra.
Qed.
Lemma gap1_small m : exists C, forall t, 1 <= t -> Rabs (gap1 m t) <= C / t.
Proof.
  destruct (series1_small m) as [C [P H]]. exists (1 + C + C). intros t T. unfold gap1. pose proof (delta'_small t T) as D. pose proof (H t T) as H1. pose proof (H (t + 1) ltac:(lra)) as H2. assert (H3 : C / (t + 1) <= C / t) by (unfold Rdiv; apply Rmult_le_compat_l; [exact P|]; apply Rinv_le_contravar; lra). apply Rabs_le_between in H1, H2. replace ((1 + C + C) / t) with (1 / t + C / t + C / t) by (unfold Rdiv; ring). apply Rabs_le. lra.
Qed.
Lemma gap_pos m : (forall t, 0 < t -> 0 <= gap2 m t) -> forall t, 0 < t -> 0 <= gap m t.
Proof.
  intros P. destruct (gap_small m) as [C H]. destruct (gap1_small m) as [C' H']. apply (convex_vanishing (gap m) (gap1 m) (gap2 m) C C'); [apply gap_d|apply gap1_d|exact P| |]; intros t T; [specialize (H' t T); apply Rabs_le_between in H'|specialize (H t T); apply Rabs_le_between in H]; lra.
Qed.
Lemma gap_neg m : (forall t, 0 < t -> gap2 m t <= 0) -> forall t, 0 < t -> gap m t <= 0.
Proof.
  intros P t T. destruct (gap_small m) as [C H]. destruct (gap1_small m) as [C' H']. assert (Q : 0 <= - gap m t); [|lra]. revert t T. apply (convex_vanishing (fun t => - gap m t) (fun t => - gap1 m t) (fun t => - gap2 m t) C C'); [intros t T; apply (is_derive_opp (gap m)), gap_d, T|intros t T; apply (is_derive_opp (gap1 m)), gap1_d, T|intros t T; specialize (P t T); lra| |]; intros t T; [specialize (H' t T); apply Rabs_le_between in H'|specialize (H t T); apply Rabs_le_between in H]; lra.
Qed.
Ltac poly2 := unfold gap2; cbn [series2 coef]; unfold S0, S1, S2, S3, S4; rewrite ?mult_INR, ?plus_INR; cbn [INR Nat.mul Nat.add].
Lemma gap2_0 t : 0 < t -> 0 <= gap2 0 t.
Proof. intros T. unfold gap2. cbn [series2]. rewrite Rminus_0_r, Rminus_0_r. apply Rlt_le, Rdiv_lt_0_compat; [lra|]. assert (0 < (t * (t + 1)) ^ 2) by (apply pow_lt; nra). lra. Qed.
Lemma gap2_1 t : 0 < t -> gap2 1 t = - (1 / 6) / (t * (t + 1)) ^ 3. Proof. intros T. poly2. field. lra. Qed.
Lemma gap2_2 t : 0 < t -> gap2 2 t = (1 / 30 + 1 / 6 * (t * (t + 1))) / (t * (t + 1)) ^ 5. Proof. intros T. poly2. field. lra. Qed.
Lemma gap2_3 t : 0 < t -> let u := t * (t + 1) in gap2 3 t = - (1 / 42 + 1 / 6 * u + 3 / 10 * u ^ 2) / u ^ 7. Proof. intros T u. unfold u. poly2. field. lra. Qed.
Lemma gap2_4 t : 0 < t -> let u := t * (t + 1) in gap2 4 t = (1 / 30 + 3 / 10 * u + 92 / 105 * u ^ 2 + 5 / 6 * u ^ 3) / u ^ 9. Proof. intros T u. unfold u. poly2. field. lra. Qed.
Lemma gap2_5 t : 0 < t -> let u := t * (t + 1) in gap2 5 t = - (5 / 66 + 5 / 6 * u + 33 / 10 * u ^ 2 + 83 / 15 * u ^ 3 + 691 / 210 * u ^ 4) / u ^ 11. Proof. intros T u. unfold u. poly2. field. lra. Qed.
Lemma gap2_6 t : 0 < t -> let u := t * (t + 1) in gap2 6 t = (691 / 2730 + 691 / 210 * u + 1261 / 77 * u ^ 2 + 8117 / 210 * u ^ 3 + 1283 / 30 * u ^ 4 + 35 / 2 * u ^ 5) / u ^ 13. Proof. intros T u. unfold u. poly2. field. lra. Qed.
