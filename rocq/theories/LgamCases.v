(* A function with the properties of the logarithm of the gamma function. *)
From Coq Require Import Reals Lra Lia Psatz.
From Coquelicot Require Import Coquelicot.
From Verif Require Import LgamModel LgamSpec LgamProofs LgamProofs2 LgamProofs3 LgamProofs4.
Local Open Scope R_scope.

Definition rest (t : R) : R := Series (fun k => delta (t + INR k)).
Definition lgam0 (t : R) : R := rest t + 1 / 2 * ln (2 * PI) + (t - 1 / 2) * ln t - t.
Definition lgam (t : R) : R := lgam0 t - lgam0 1.
Lemma delta_bounds t : 0 < t -> 0 <= delta t <= 1 / (12 * t) - 1 / (12 * (t + 1)).
Proof.
  intros T. destruct (gaps t T) as [A [B _]]. unfold gap in A, B. cbn [series coef] in A, B. unfold S0 in B. change (2 * 0 + 1)%nat with 1%nat in B. rewrite !pow_1 in B. cbn [pow] in B. replace (0 + 1 * (1 / 12) / t) with (1 / (12 * t)) in B by (field; lra). replace (0 + 1 * (1 / 12) / (t + 1)) with (1 / (12 * (t + 1))) in B by (field; lra). lra.
Qed.
Lemma partial_bound t n : 0 < t -> sum_n (fun k => delta (t + INR k)) n <= 1 / (12 * t) - 1 / (12 * (t + INR n + 1)).
Proof.
  intros T. induction n as [|n IH].
  - rewrite sum_O. cbn [INR]. rewrite Rplus_0_r. apply (delta_bounds t T).
  - rewrite sum_Sn. change (plus ?a ?b) with (a + b). pose proof (pos_INR n). rewrite S_INR. pose proof (proj2 (delta_bounds (t + (INR n + 1)) ltac:(lra))) as D. replace (t + (INR n + 1)) with (t + INR n + 1) in * by ring. lra.
Qed.
Lemma partial_conv t : 0 < t -> ex_series (fun k => delta (t + INR k)).
Proof.
  intros T. assert (X : ex_finite_lim_seq (sum_n (fun k => delta (t + INR k)))).
  { apply (ex_finite_lim_seq_incr _ (1 / (12 * t))).
    - intros n. rewrite sum_Sn. change (plus ?a ?b) with (a + b). pose proof (pos_INR (S n)). pose proof (proj1 (delta_bounds (t + INR (S n)) ltac:(lra))). lra.
    - intros n. pose proof (partial_bound t n T) as P. pose proof (pos_INR n). assert (0 < 1 / (12 * (t + INR n + 1))) by (apply Rdiv_lt_0_compat; lra). lra. }
  destruct X as [l L]. exists l. exact L.
Qed.
Lemma rest_step t : 0 < t -> rest t = delta t + rest (t + 1).
Proof. intros T. unfold rest. rewrite Series_incr_1 by (apply partial_conv, T). replace (t + INR 0) with t by (cbn; ring). f_equal. apply Series_ext. intros k. f_equal. rewrite S_INR. ring. Qed.
Lemma rest_bound t : 0 < t -> 0 <= rest t <= 1 / (12 * t).
Proof.
  intros T. unfold rest. pose proof (Series_correct _ (partial_conv t T)) as L. split.
  - apply (is_lim_seq_le (fun _ => 0) (sum_n (fun k => delta (t + INR k))) 0 (Series (fun k => delta (t + INR k)))); [|apply is_lim_seq_const|exact L]. intros n. induction n as [|n IH]; [rewrite sum_O; apply delta_bounds; cbn; lra|]. rewrite sum_Sn. change (plus ?a ?b) with (a + b). pose proof (pos_INR (S n)). pose proof (proj1 (delta_bounds (t + INR (S n)) ltac:(lra))). lra.
  - apply (is_lim_seq_le (sum_n (fun k => delta (t + INR k))) (fun _ => 1 / (12 * t)) (Series (fun k => delta (t + INR k))) (1 / (12 * t))); [|exact L|apply is_lim_seq_const]. intros n. pose proof (partial_bound t n T). pose proof (pos_INR n). assert (0 < 1 / (12 * (t + INR n + 1))) by (apply Rdiv_lt_0_compat; lra). lra.
Qed.
(* convexity from a second derivative *)
Lemma convex_of f f' f'' : (forall t, 0 < t -> is_derive f t (f' t)) -> (forall t, 0 < t -> is_derive f' t (f'' t)) -> (forall t, 0 < t -> 0 <= f'' t) -> forall x y l, 0 < x -> 0 < y -> 0 <= l <= 1 -> f (l * x + (1 - l) * y) <= l * f x + (1 - l) * f y.
Proof.
  intros D1 D2 P. assert (T : forall c x, 0 < c -> 0 < x -> f c + f' c * (x - c) <= f x).
  { intros c x Hc Hx. assert (MV : forall u v, 0 < u -> u <= v -> exists w, u <= w <= v /\ f v - f u = f' w * (v - u)).
    { intros u v U V. destruct (MVT_gen f u v f') as [w [Hw E]]; [intros t Ht; rewrite Rmin_left, Rmax_right in Ht by lra; apply D1; lra|intros t Ht; rewrite Rmin_left, Rmax_right in Ht by lra; apply continuity_pt_filterlim, (ex_derive_continuous f); exists (f' t); apply D1; lra|]. rewrite Rmin_left, Rmax_right in Hw by lra. exists w. split; [exact Hw|exact E]. }
    destruct (Rle_dec c x) as [L|L].
    - destruct (MV c x Hc L) as [w [Hw E]]. pose proof (increasing_of f' f'' c Hc D2 P c w ltac:(lra) ltac:(lra)). nra.
    - destruct (MV x c Hx ltac:(lra)) as [w [Hw E]]. pose proof (increasing_of f' f'' x Hx D2 P w c ltac:(lra) ltac:(lra)). nra. }
  intros x y l X Y L. set (c := l * x + (1 - l) * y). assert (Cp : 0 < c). { unfold c. destruct (Req_dec l 0) as [->|N]; [lra|]. assert (0 < l * x) by (apply Rmult_lt_0_compat; lra). assert (0 <= (1 - l) * y) by (apply Rmult_le_pos; lra). lra. }
  pose proof (T c x Cp X) as A. pose proof (T c y Cp Y) as B. apply Rmult_le_compat_l with (r := l) in A; [|lra]. apply Rmult_le_compat_l with (r := 1 - l) in B; [|lra]. assert (E : l * (f c + f' c * (x - c)) + (1 - l) * (f c + f' c * (y - c)) = f c) by (unfold c; ring). lra.
Qed.
Lemma delta_convex x y l : 0 < x -> 0 < y -> 0 <= l <= 1 -> delta (l * x + (1 - l) * y) <= l * delta x + (1 - l) * delta y.
Proof. apply (convex_of delta delta' (fun t => 1 / (2 * (t * (t + 1)) ^ 2))); [apply delta_d|apply delta'_d|]. intros t T. apply Rlt_le, Rdiv_lt_0_compat; [lra|]. assert (0 < (t * (t + 1)) ^ 2) by (apply pow_lt; nra). lra. Qed.
Lemma main_convex x y l : 0 < x -> 0 < y -> 0 <= l <= 1 -> (fun t => (t - 1 / 2) * ln t - t) (l * x + (1 - l) * y) <= l * (fun t => (t - 1 / 2) * ln t - t) x + (1 - l) * (fun t => (t - 1 / 2) * ln t - t) y.
Proof.
  apply (convex_of (fun t => (t - 1 / 2) * ln t - t) (fun t => ln t - 1 / 2 * / t) (fun t => / t + 1 / 2 * / t ^ 2)).
  - intros t T. auto_derive; [lra|]. field. lra.
  - intros t T. auto_derive; [lra|]. field. lra.
  - intros t T. assert (0 < / t) by (apply Rinv_0_lt_compat, T). assert (0 < / t ^ 2) by (apply Rinv_0_lt_compat, pow_lt, T). lra.
Qed.
Lemma between_pos x y l : 0 < x -> 0 < y -> 0 <= l <= 1 -> 0 < l * x + (1 - l) * y.
Proof. intros X Y L. destruct (Req_dec l 0) as [->|N]; [lra|]. assert (0 < l * x) by (apply Rmult_lt_0_compat; lra). assert (0 <= (1 - l) * y) by (apply Rmult_le_pos; lra). lra. Qed.
Lemma rest_convex x y l : 0 < x -> 0 < y -> 0 <= l <= 1 -> rest (l * x + (1 - l) * y) <= l * rest x + (1 - l) * rest y.
Proof.
  intros X Y L. pose proof (between_pos x y l X Y L) as P. pose proof (Series_correct _ (partial_conv _ P)) as A. pose proof (Series_correct _ (partial_conv _ X)) as B. pose proof (Series_correct _ (partial_conv _ Y)) as D. fold (rest x) in B. fold (rest y) in D. fold (rest (l * x + (1 - l) * y)) in A.
  apply (is_lim_seq_le (sum_n (fun k => delta (l * x + (1 - l) * y + INR k))) (fun n => l * sum_n (fun k => delta (x + INR k)) n + (1 - l) * sum_n (fun k => delta (y + INR k)) n) (rest (l * x + (1 - l) * y)) (l * rest x + (1 - l) * rest y)); [|exact A|].
  - assert (Q : forall k, delta (l * x + (1 - l) * y + INR k) <= l * delta (x + INR k) + (1 - l) * delta (y + INR k)). { intros k. pose proof (pos_INR k). replace (l * x + (1 - l) * y + INR k) with (l * (x + INR k) + (1 - l) * (y + INR k)) by ring. apply delta_convex; lra. }
    intros n. induction n as [|n IH]; [rewrite !sum_O; apply Q|]. rewrite !sum_Sn. change (plus ?a ?b) with (a + b). specialize (Q (S n)). lra.
  - apply (is_lim_seq_plus' _ _ (l * rest x) ((1 - l) * rest y)); [apply (is_lim_seq_scal_l _ l (rest x)), B|apply (is_lim_seq_scal_l _ (1 - l) (rest y)), D].
Qed.
Lemma lgam_step f c : (forall t, f t = lgam0 t - c) -> forall x, 0 < x -> f (x + 1) = f x + ln x.
Proof. intros F x X. rewrite !F. unfold lgam0. rewrite (rest_step x X). unfold delta. field. Qed.
Lemma lgam_gamma : log_gamma lgam.
Proof.
  split; [unfold lgam; ring|]. split; [apply (lgam_step lgam (lgam0 1)); reflexivity|]. intros x y l X Y L. unfold lgam, lgam0. pose proof (main_convex x y l X Y L) as M. cbv beta in M. pose proof (rest_convex x y l X Y L) as Q. lra.
Qed.
(* its error tends to zero, so that no constant had to be subtracted *)
Lemma stirling_case : exists lg, log_gamma lg /\ 0 < 20 /\ near (1 / 10 ^ 15) (ln (Binomial.C 40 20)) (binomln lg (10 ^ 300) (INR 40) (INR 20)).
Proof.
  exists lgam. split; [exact lgam_gamma|]. split; [lra|]. apply binomln_whole; [exact lgam_gamma|lia|]. cbn [INR]. apply Rlt_le_trans with (10 ^ 2); [lra|]. apply Rle_pow; [lra|lia].
Qed.
Lemma gamma_exists : exists lg, log_gamma lg.
Proof. exists lgam. exact lgam_gamma. Qed.
