(* The sums of 1/k^2 and the second moment of the logistic density (no code of the repository here) *)
From Coq Require Import Reals Lra Lia List Bool Psatz.
From Coquelicot Require Import Coquelicot.
From Verif Require Import Base PolyModel KdeModel SeaModel SeaSpec SeaProofs SeaProofs2 SeaProofs3 SeaCases SpreadModel SpreadSpec CosPow GammaProofs KernelModel KernelSpec SpreadProofs SpreadProofs2 SpreadProofs4 KernelProofs KernelProofs2 KernelProofs3.
Import ListNotations.
Local Open Scope R_scope.

Fixpoint rs (f : nat -> R) (n : nat) : R := match n with O => 0 | S m => rs f m + f m end.
Lemma rs_ext f h n : (forall k, (k < n)%nat -> f k = h k) -> rs f n = rs h n.
Proof. induction n as [|n IH]; intros E; [easy|]. cbn. rewrite IH by (intros; apply E; lia). now rewrite E by lia. Qed.
Lemma rs_first f n : rs f (S n) = f O + rs (fun k => f (S k)) n.
Proof. induction n as [|n IH]; [cbn; ring|]. cbn [rs] in *. rewrite IH. ring. Qed.
Lemma rs_rev f n : rs f n = rs (fun k => f (n - 1 - k)%nat) n.
Proof. induction n as [|n IH]; [easy|]. rewrite (rs_first (fun k => f (S n - 1 - k)%nat)). change (rs f (S n)) with (rs f n + f n). rewrite IH, Rplus_comm. f_equal; [f_equal; lia|]. apply rs_ext. intros k Hk. f_equal. lia. Qed.
Lemma rs_app f n m : rs f (n + m) = rs f n + rs (fun k => f (n + k)%nat) m.
Proof. induction m as [|m IH]; [rewrite Nat.add_0_r; cbn; ring|]. rewrite Nat.add_succ_r. cbn [rs]. rewrite IH. ring. Qed.
Lemma rs_plus f h n : rs (fun k => f k + h k) n = rs f n + rs h n.
Proof. induction n as [|n IH]; cbn; [ring|]. rewrite IH. ring. Qed.
Lemma rs_scal c f n : rs (fun k => c * f k) n = c * rs f n.
Proof. induction n as [|n IH]; cbn; [ring|]. rewrite IH. ring. Qed.
Lemma rs_const c n : rs (fun _ => c) n = INR n * c.
Proof. induction n as [|n IH]; [cbn; ring|]. cbn [rs]. rewrite IH, S_INR. ring. Qed.
Lemma rs_le f h n : (forall k, (k < n)%nat -> f k <= h k) -> rs f n <= rs h n.
Proof. induction n as [|n IH]; intros E; cbn; [lra|]. assert (rs f n <= rs h n) by (apply IH; intros; apply E; lia). specialize (E n ltac:(lia)). lra. Qed.
Lemma rs_incr f n m : (forall k, 0 <= f k) -> (n <= m)%nat -> rs f n <= rs f m.
Proof. intros Hf. induction 1 as [|m H IH]; [lra|]. cbn. specialize (Hf m). lra. Qed.
(* the sum over the odd numbers *)
Definition q (x : R) : R := / (sin x) ^ 2.
Lemma q_half y : sin y <> 0 -> cos y <> 0 -> 4 * q (2 * y) = q y + q (PI / 2 - y).
Proof. intros H1 H2. unfold q. rewrite sin_2a, sin_shift. pose proof (sin2_cos2 y) as E. unfold Rsqr in E. field_simplify_eq; [|easy]. nra. Qed.
Lemma x_cos_sin x : 0 < x < PI / 2 -> x * cos x < sin x.
Proof.
  intros Hx. destruct (MVT_cor2 (fun x => sin x - x * cos x) (fun x => x * sin x) 0 x) as (c & E & Hc); [lra| |].
  - intros c _. apply is_derive_Reals. auto_derive; [easy|ring].
  - rewrite sin_0, Rmult_0_l in E. assert (0 < sin c) by (apply sin_gt_0; lra). assert (0 < c * sin c * (x - 0)) by (apply Rmult_lt_0_compat; [apply Rmult_lt_0_compat|]; lra). lra.
Qed.
Lemma q_low x : 0 < x < PI / 2 -> / x ^ 2 <= q x.
Proof. intros Hx. unfold q. assert (0 < sin x) by (apply sin_gt_0; lra). assert (sin x < x) by (apply sin_lt_x; lra). apply Rinv_le_contravar; [now apply pow_lt|]. apply pow_incr. lra. Qed.
Lemma q_high x : 0 < x < PI / 2 -> q x <= 1 + / x ^ 2.
Proof.
  intros Hx. unfold q. assert (Hs : 0 < sin x) by (apply sin_gt_0; lra). assert (Hc : 0 < cos x) by (apply cos_gt_0; lra). pose proof (x_cos_sin x Hx). pose proof (sin2_cos2 x) as E. unfold Rsqr in E.
  assert (X2 : 0 < x ^ 2) by (apply pow_lt; lra). assert (S2 : 0 < sin x ^ 2) by (now apply pow_lt). apply Rmult_le_reg_r with (x ^ 2 * sin x ^ 2); [nra|].
  replace (/ sin x ^ 2 * (x ^ 2 * sin x ^ 2)) with (x ^ 2) by (field; lra). replace ((1 + / x ^ 2) * (x ^ 2 * sin x ^ 2)) with (x ^ 2 * sin x ^ 2 + sin x ^ 2) by (field; lra).
  assert (P : (x * cos x) ^ 2 <= sin x ^ 2) by (apply pow_incr; nra). nra.
Qed.
Definition node (n k : nat) : R := (2 * INR k + 1) * PI / (4 * 2 ^ n).
Lemma pow2_INR n : INR (2 ^ n) = 2 ^ n.
Proof. rewrite pow_INR. reflexivity. Qed.
Lemma node_in n k : (k < 2 ^ n)%nat -> 0 < node n k < PI / 2.
Proof.
  intros Hk. pose proof PI_RGT_0 as HP. assert (P : 0 < 2 ^ n) by (apply pow_lt; lra). pose proof (pos_INR k) as K0. apply le_INR in Hk. rewrite S_INR, pow2_INR in Hk. unfold node. split.
  - apply Rdiv_lt_0_compat; [|lra]. apply Rmult_lt_0_compat; lra.
  - apply Rmult_lt_reg_r with (4 * 2 ^ n); [lra|]. unfold Rdiv at 1. rewrite Rmult_assoc, Rinv_l, Rmult_1_r by lra. nra.
Qed.
Lemma q_sum n : rs (fun k => q (node n k)) (2 ^ n) = 2 * 4 ^ n.
Proof.
  induction n as [|n IH].
  - cbn [rs Nat.pow pow]. unfold node, q. cbn [INR pow]. replace ((2 * 0 + 1) * PI / (4 * 1)) with (PI / 4) by field. rewrite sin_PI4. pose proof (sqrt_lt_R0 2 ltac:(lra)). pose proof (sqrt_sqrt 2 ltac:(lra)) as E. rewrite Rmult_1_r, Rplus_0_l. replace (1 / sqrt 2 * (1 / sqrt 2)) with (/ (sqrt 2 * sqrt 2)) by (field; lra). rewrite E. field.
  - replace (2 ^ S n)%nat with (2 ^ n + 2 ^ n)%nat by (cbn; lia). rewrite rs_app. rewrite (rs_rev (fun k => q (node (S n) (2 ^ n + k)))). rewrite <- rs_plus. cbn [pow]. replace (2 * (4 * 4 ^ n)) with (4 * (2 * 4 ^ n)) by ring. rewrite <- IH, <- rs_scal. apply rs_ext. intros k Hk.
    assert (Hk2 : (k < 2 ^ S n)%nat) by (cbn; lia). pose proof (node_in (S n) k Hk2) as HN. assert (P : 0 < 2 ^ n) by (apply pow_lt; lra). set (y := node (S n) k) in *.
    replace (node n k) with (2 * y). 2:{ unfold y, node. cbn [pow]. field. lra. } rewrite q_half. 2:{ assert (0 < sin y) by (apply sin_gt_0; lra). lra. } 2:{ assert (0 < cos y) by (apply cos_gt_0; lra). lra. }
    f_equal. f_equal. unfold y, node. assert (EI : INR (2 ^ n + (2 ^ n - 1 - k)) = 2 * 2 ^ n - 1 - INR k). { rewrite plus_INR, minus_INR, minus_INR, pow2_INR by lia. change (INR 1) with 1. ring. } rewrite EI. cbn [pow]. field. lra.
Qed.
Definition odds (N : nat) : R := rs (fun k => / (2 * INR k + 1) ^ 2) N.
Definition squares (N : nat) : R := rs (fun k => / (INR k + 1) ^ 2) N.
Lemma inv_sq_pos a : 0 < a -> 0 <= / a ^ 2.
Proof. intros H. left. apply Rinv_0_lt_compat. now apply pow_lt. Qed.
Lemma odds_nodes n : rs (fun k => / (node n k) ^ 2) (2 ^ n) = 16 * 4 ^ n / PI ^ 2 * odds (2 ^ n).
Proof.
  unfold odds. rewrite <- rs_scal. apply rs_ext. intros k _. unfold node. pose proof PI_RGT_0. pose proof (pos_INR k). assert (0 < 2 ^ n) by (apply pow_lt; lra). replace (4 ^ n) with (2 ^ n * 2 ^ n) by (rewrite <- Rpow_mult_distr; f_equal; ring). field. repeat split; try lra.
Qed.
Lemma odds_bounds n : PI ^ 2 / 8 - PI ^ 2 / (16 * 2 ^ n) <= odds (2 ^ n) <= PI ^ 2 / 8.
Proof.
  pose proof PI_RGT_0 as HP. assert (P2 : 0 < PI ^ 2) by (apply pow_lt; lra). assert (P : 0 < 2 ^ n) by (apply pow_lt; lra). assert (P4 : 4 ^ n = 2 ^ n * 2 ^ n) by (rewrite <- Rpow_mult_distr; f_equal; ring).
  pose proof (rs_le (fun k => / (node n k) ^ 2) (fun k => q (node n k)) (2 ^ n) ltac:(intros k Hk; apply q_low; now apply node_in)) as L. pose proof (rs_le (fun k => q (node n k)) (fun k => 1 + / (node n k) ^ 2) (2 ^ n) ltac:(intros k Hk; apply q_high; now apply node_in)) as U.
  rewrite rs_plus, rs_const, pow2_INR, Rmult_1_r in U. rewrite q_sum, odds_nodes, P4 in *. set (o := odds (2 ^ n)) in *. set (t := 2 ^ n) in *.
  assert (M : 0 < PI ^ 2 / (16 * (t * t))) by (apply Rdiv_lt_0_compat; nra). split.
  - apply (Rmult_le_compat_l (PI ^ 2 / (16 * (t * t)))) in U; [|lra]. replace (PI ^ 2 / (16 * (t * t)) * (2 * (t * t))) with (PI ^ 2 / 8) in U by (field; lra). replace (PI ^ 2 / (16 * (t * t)) * (t + 16 * (t * t) / PI ^ 2 * o)) with (PI ^ 2 / (16 * t) + o) in U by (field; lra). lra.
  - apply (Rmult_le_compat_l (PI ^ 2 / (16 * (t * t)))) in L; [|lra]. replace (PI ^ 2 / (16 * (t * t)) * (2 * (t * t))) with (PI ^ 2 / 8) in L by (field; lra). replace (PI ^ 2 / (16 * (t * t)) * (16 * (t * t) / PI ^ 2 * o)) with o in L by (field; lra). lra.
Qed.
Lemma odds_incr n m : (n <= m)%nat -> odds n <= odds m.
Proof. apply rs_incr. intros k. apply inv_sq_pos. pose proof (pos_INR k). lra. Qed.
Lemma odds_high N : odds N <= PI ^ 2 / 8.
Proof. apply Rle_trans with (odds (2 ^ N)); [apply odds_incr; pose proof (Nat.pow_gt_lin_r 2 N ltac:(lia)); lia|apply odds_bounds]. Qed.
Lemma odds_lim : is_lim_seq odds (PI ^ 2 / 8).
Proof.
  pose proof PI_RGT_0 as HP. assert (P2 : 0 < PI ^ 2) by (apply pow_lt; lra). apply is_lim_seq_spec. intros eps. assert (G : is_lim_seq (fun n => 2 ^ n) p_infty) by (apply is_lim_seq_geom_p; lra). apply is_lim_seq_spec in G. destruct (G (PI ^ 2 / (16 * eps))) as [n0 Hn]. specialize (Hn n0 ltac:(lia)).
  exists (2 ^ n0)%nat. intros N HN. pose proof (odds_high N). pose proof (odds_incr _ _ HN). destruct (odds_bounds n0) as [B _]. assert (P : 0 < 2 ^ n0) by (apply pow_lt; lra). pose proof (cond_pos eps) as He.
  assert (PI ^ 2 / (16 * 2 ^ n0) < eps). { apply Rmult_lt_reg_r with (16 * 2 ^ n0); [lra|]. replace (PI ^ 2 / (16 * 2 ^ n0) * (16 * 2 ^ n0)) with (PI ^ 2) by (field; lra). apply (Rmult_lt_compat_r (16 * eps)) in Hn; [|lra]. replace (PI ^ 2 / (16 * eps) * (16 * eps)) with (PI ^ 2) in Hn by (field; lra). lra. }
  apply Rabs_def1; lra.
Qed.
Lemma squares_double N : squares (N + N) = odds N + squares N / 4.
Proof.
  unfold squares, odds. induction N as [|N IH]; [cbn; field|]. replace (S N + S N)%nat with (S (S (N + N))) by lia. cbn [rs]. rewrite IH. rewrite S_INR, plus_INR. pose proof (pos_INR N). field. repeat split; lra.
Qed.
Lemma squares_incr n m : (n <= m)%nat -> squares n <= squares m.
Proof. apply rs_incr. intros k. apply inv_sq_pos. pose proof (pos_INR k). lra. Qed.
Lemma squares_lim : is_lim_seq squares (PI ^ 2 / 6).
Proof.
  assert (HB : forall n, squares n <= PI ^ 2 / 6). { intros n. pose proof (squares_incr n (n + n) ltac:(lia)) as I. rewrite squares_double in I. pose proof (odds_high n). lra. }
  destruct (ex_finite_lim_seq_incr squares (PI ^ 2 / 6)) as [l Hl]; [intros n; apply squares_incr; lia|exact HB|].
  assert (L2 : is_lim_seq (fun n => squares (n + n)) l). { apply (is_lim_seq_subseq squares l (fun n => n + n)%nat); [|exact Hl]. intros P [n0 H]. exists n0. intros n Hn. apply H. lia. }
  assert (L3 : is_lim_seq (fun n => squares (n + n)) (PI ^ 2 / 8 + l / 4)). { apply (is_lim_seq_ext (fun n => odds n + squares n / 4)); [intros n; symmetry; apply squares_double|]. apply is_lim_seq_plus'; [apply odds_lim|]. apply (is_lim_seq_scal_r squares (/ 4) l Hl). }
  apply is_lim_seq_unique in L2. apply is_lim_seq_unique in L3. rewrite L2 in L3. injection L3 as E. replace (PI ^ 2 / 6) with l by lra. exact Hl.
Qed.
Definition alt (N : nat) : R := rs (fun j => / (2 * INR j + 1) ^ 2 - / (2 * INR j + 2) ^ 2) N.
Lemma alt_lim : is_lim_seq alt (PI ^ 2 / 12).
Proof.
  replace (PI ^ 2 / 12) with (PI ^ 2 / 8 - PI ^ 2 / 6 / 4) by field. apply (is_lim_seq_ext (fun n => odds n - squares n / 4)).
  - intros n. unfold alt, odds, squares. induction n as [|n IH]; [cbn; field|]. cbn [rs]. rewrite <- IH. pose proof (pos_INR n). field. repeat split; lra.
  - apply is_lim_seq_minus'; [apply odds_lim|]. apply (is_lim_seq_scal_r squares (/ 4) (PI ^ 2 / 6) squares_lim).
Qed.
(* the integral of x / (1 + exp x) *)
Definition fermi (x : R) : R := x / (1 + exp x).
Lemma geo z N : 0 < z -> z / (1 + z) = rs (fun j => z ^ (2 * j + 1) - z ^ (2 * j + 2)) N + z ^ (2 * N) * (z / (1 + z)).
Proof.
  intros Hz. induction N as [|N IH]; [cbn; ring|]. cbn [rs]. rewrite IH at 1. replace (2 * S N)%nat with (2 * N + 2)%nat by lia. rewrite !pow_add. cbn [pow]. field. lra.
Qed.
Lemma exp_area c W : 0 < c -> area (fun x => x * exp (- (c * x))) 0 W (/ c ^ 2 - (W / c + / c ^ 2) * exp (- (c * W))).
Proof.
  intros Hc. apply (area_value _ _ _ (- (W / c + / c ^ 2) * exp (- (c * W)) - (- (0 / c + / c ^ 2) * exp (- (c * 0))))).
  - rewrite Rmult_0_r, Ropp_0, exp_0. unfold Rdiv. ring.
  - apply (area_deriv (fun x => - (x / c + / c ^ 2) * exp (- (c * x))) (fun x => x * exp (- (c * x)))).
    + intros x. auto_derive; [easy|]. field. lra.
    + intros x. smooth. easy.
Qed.
Definition part (c W : R) : R := / c ^ 2 - (W / c + / c ^ 2) * exp (- (c * W)).
Lemma exp_pow x k : exp (- x) ^ k = exp (- (INR k * x)).
Proof. induction k as [|k IH]; [cbn; now rewrite Rmult_0_l, Ropp_0, exp_0|]. rewrite <- tech_pow_Rmult, IH, <- exp_plus. f_equal. rewrite S_INR. ring. Qed.
Lemma parts_area N W : area (fun x => rs (fun j => x * exp (- ((2 * INR j + 1) * x)) - x * exp (- ((2 * INR j + 2) * x))) N) 0 W (rs (fun j => part (2 * INR j + 1) W - part (2 * INR j + 2) W) N).
Proof.
  induction N as [|N IH]; cbn [rs].
  - apply (area_value _ _ _ ((W - 0) * 0)); [ring|]. apply const_area.
  - apply area_plus; [exact IH|]. pose proof (pos_INR N). unfold Rminus. apply area_plus; [apply exp_area; lra|]. apply (area_value _ _ _ (-1 * part (2 * INR N + 2) W)); [ring|].
    pose proof (area_mult _ (-1) _ _ _ (exp_area (2 * INR N + 2) W ltac:(lra))) as G. apply (area_eq _ _ _ _ _) with (2 := G). intros x. ring.
Qed.
Lemma fermi_cont x : continuous fermi x.
Proof. unfold fermi. pose proof (exp_pos x). smooth. lra. Qed.
Lemma fermi_ex a b : ex_RInt fermi a b.
Proof. apply (@ex_RInt_continuous R_CompleteNormedModule). intros; apply fermi_cont. Qed.
Lemma fermi_geo x N : fermi x = rs (fun j => x * exp (- ((2 * INR j + 1) * x)) - x * exp (- ((2 * INR j + 2) * x))) N + fermi x * exp (- (2 * INR N * x)).
Proof.
  assert (EF : fermi x = x * (exp (- x) / (1 + exp (- x)))). { unfold fermi. rewrite exp_Ropp. pose proof (exp_pos x). field. lra. }
  rewrite EF at 1. rewrite (geo _ N (exp_pos (- x))). rewrite EF, Rmult_plus_distr_l, <- rs_scal. f_equal.
  - apply rs_ext. intros k _. rewrite !exp_pow, !plus_INR, !mult_INR. change (INR 2) with 2. change (INR 1) with 1. ring.
  - rewrite exp_pow, mult_INR. change (INR 2) with 2. ring.
Qed.
Lemma part_close c W : 1 <= c -> 0 <= W -> Rabs (part c W - / c ^ 2) <= (W + 1) * exp (- W).
Proof.
  intros Hc HW. unfold part. replace (/ c ^ 2 - (W / c + / c ^ 2) * exp (- (c * W)) - / c ^ 2) with (- ((W / c + / c ^ 2) * exp (- (c * W)))) by ring. rewrite Rabs_Ropp.
  assert (I1 : 0 < / c <= 1) by (split; [apply Rinv_0_lt_compat; lra|rewrite <- Rinv_1; apply Rinv_le_contravar; lra]). assert (I2 : 0 < / c ^ 2 <= 1). { assert (1 <= c ^ 2) by nra. split; [apply Rinv_0_lt_compat; lra|rewrite <- Rinv_1; apply Rinv_le_contravar; lra]. }
  pose proof (exp_pos (- (c * W))) as E1. rewrite Rabs_right by (apply Rle_ge, Rmult_le_pos; [unfold Rdiv; nra|lra]). apply Rmult_le_compat; [unfold Rdiv; nra|lra|unfold Rdiv; nra|]. apply exp_le. nra.
Qed.
Lemma rs_close f h e n : (forall k, Rabs (f k - h k) <= e) -> Rabs (rs f n - rs h n) <= INR n * e.
Proof.
  intros H. induction n as [|n IH]; [cbn; rewrite Rminus_0_r, Rabs_R0; lra|]. cbn [rs]. rewrite S_INR. replace (rs f n + f n - (rs h n + h n)) with ((rs f n - rs h n) + (f n - h n)) by ring. eapply Rle_trans; [apply Rabs_triang|]. specialize (H n). lra.
Qed.
Lemma fermi_close N W : (0 < N)%nat -> 0 <= W -> Rabs (RInt fermi 0 W - alt N) <= INR N * (2 * ((W + 1) * exp (- W))) + / (2 * INR N) ^ 2.
Proof.
  intros HN HW. assert (HN1 : 1 <= INR N) by (apply (le_INR 1); lia).
  assert (XR : ex_RInt (fun x => fermi x * exp (- (2 * INR N * x))) 0 W). { apply (@ex_RInt_continuous R_CompleteNormedModule). intros x _. unfold fermi. pose proof (exp_pos x). smooth. lra. }
  set (rem := RInt (fun x => fermi x * exp (- (2 * INR N * x))) 0 W). assert (AR : area (fun x => fermi x * exp (- (2 * INR N * x))) 0 W rem) by (apply (@RInt_correct R_CompleteNormedModule); exact XR).
  assert (E : RInt fermi 0 W = rs (fun j => part (2 * INR j + 1) W - part (2 * INR j + 2) W) N + rem). { apply area_unique. pose proof (area_plus _ _ _ _ _ _ (parts_area N W) AR) as G. apply (area_eq _ _ _ _ _) with (2 := G). intros x. symmetry. apply fermi_geo. }
  assert (R0 : 0 <= rem <= / (2 * INR N) ^ 2).
  { split.
    - apply RInt_ge_0; [easy|exact XR|]. intros x Hx. unfold fermi. apply Rmult_le_pos; [|left; apply exp_pos]. apply Rmult_le_pos; [lra|]. left. apply Rinv_0_lt_compat. pose proof (exp_pos x). lra.
    - apply Rle_trans with (part (2 * INR N) W). 2:{ unfold part. pose proof (exp_pos (- (2 * INR N * W))). pose proof (inv_sq_pos (2 * INR N) ltac:(lra)). assert (0 <= W / (2 * INR N)) by (apply Rmult_le_pos; [easy|left; apply Rinv_0_lt_compat; lra]). assert (0 <= (W / (2 * INR N) + / (2 * INR N) ^ 2) * exp (- (2 * INR N * W))) by (apply Rmult_le_pos; lra). lra. }
      unfold part. rewrite <- (area_unique _ _ _ _ (exp_area (2 * INR N) W ltac:(lra))). apply RInt_le; [easy|exact XR|eexists; apply exp_area; lra|]. intros x Hx. apply Rmult_le_compat_r; [left; apply exp_pos|]. unfold fermi. pose proof (exp_pos x). apply Rmult_le_reg_r with (1 + exp x); [lra|]. unfold Rdiv. rewrite Rmult_assoc, Rinv_l by lra. nra. }
  assert (C : Rabs (rs (fun j => part (2 * INR j + 1) W - part (2 * INR j + 2) W) N - alt N) <= INR N * (2 * ((W + 1) * exp (- W)))).
  { unfold alt. apply rs_close. intros k. pose proof (pos_INR k). pose proof (part_close (2 * INR k + 1) W ltac:(lra) HW) as P1. pose proof (part_close (2 * INR k + 2) W ltac:(lra) HW) as P2.
    match goal with |- Rabs (?a - ?b - (?c - ?d)) <= _ => replace (a - b - (c - d)) with ((a - c) + - (b - d)) by ring end. eapply Rle_trans; [apply Rabs_triang|]. rewrite Rabs_Ropp. lra. }
  rewrite E. match goal with |- Rabs (?a + ?b - ?c) <= _ => replace (a + b - c) with ((a - c) + b) by ring end. eapply Rle_trans; [apply Rabs_triang|]. rewrite (Rabs_right rem) by lra. lra.
Qed.
Lemma fermi_lim : is_lim (fun W => RInt fermi 0 W) p_infty (PI ^ 2 / 12).
Proof.
  apply is_lim_spec. intros eps. pose proof (cond_pos eps) as He. pose proof (proj2 (is_lim_seq_spec _ _) alt_lim) as A. destruct (A (mkposreal (eps / 3) ltac:(lra))) as [n0 H0]. cbn in H0.
  assert (G : is_lim_seq INR p_infty) by apply is_lim_seq_INR. apply is_lim_seq_spec in G. destruct (G (1 + / (eps / 3))) as [n1 H1]. set (N := S (n0 + n1)). specialize (H0 N ltac:(lia)). specialize (H1 N ltac:(lia)). assert (I0 : 0 < / (eps / 3)) by (apply Rinv_0_lt_compat; lra).
  assert (HT : is_lim (fun W => INR N * (2 * (W ^ 1 * exp (- W) + W ^ 0 * exp (- W)))) p_infty (INR N * (2 * (0 + 0)))).
  { apply (is_lim_scal_l _ (INR N) p_infty (2 * (0 + 0))). apply (is_lim_scal_l _ 2 p_infty (0 + 0)). apply (is_lim_plus' _ _ p_infty 0 0); apply exp_tail. }
  replace (INR N * (2 * (0 + 0))) with 0 in HT by ring. apply is_lim_spec in HT. destruct (HT (mkposreal (eps / 3) ltac:(lra))) as [M HM]. cbn [pos] in HM. exists (Rmax M 0). intros W HW. pose proof (Rmax_l M 0). pose proof (Rmax_r M 0). specialize (HM W ltac:(lra)). pose proof (fermi_close N W ltac:(unfold N; lia) ltac:(lra)) as C.
  assert (R2 : / (2 * INR N) ^ 2 < eps / 3). { rewrite <- (Rinv_inv (eps / 3)). apply Rinv_lt_contravar; [apply Rmult_lt_0_compat; [easy|apply pow_lt; lra]|]. nra. }
  apply Rabs_def2 in HM. apply Rabs_def2 in H0. rewrite pow_1, pow_O in HM. replace (W * exp (- W) + 1 * exp (- W)) with ((W + 1) * exp (- W)) in HM by ring.
  replace (RInt fermi 0 W - PI ^ 2 / 12) with ((RInt fermi 0 W - alt N) + (alt N - PI ^ 2 / 12)) by ring. eapply Rle_lt_trans; [apply Rabs_triang|]. assert (Rabs (alt N - PI ^ 2 / 12) < eps / 3) by (apply Rabs_def1; lra). lra.
Qed.
Lemma logi_second : line_integral (fun x => x ^ 2 * (sigm x * (1 - sigm x))) (PI ^ 2 / 3).
Proof.
  replace (PI ^ 2 / 3) with (2 * (0 + 2 * (PI ^ 2 / 12))) by field.
  assert (A : forall W, area (fun x => x ^ 2 * (sigm x * (1 - sigm x))) 0 W (- (W ^ 2 * / (1 + exp W)) + 2 * RInt fermi 0 W)).
  { intros W. pose proof (area_deriv (fun x => - (x ^ 2 * / (1 + exp x))) (fun x => x ^ 2 * (sigm x * (1 - sigm x)) - 2 * fermi x) 0 W) as G.
    assert (G1 := G ltac:(intros x; unfold fermi, sigm; pose proof (exp_pos x); auto_derive; [lra|field; lra])). assert (G2 := G1 ltac:(intros x; unfold fermi, sigm; pose proof (exp_pos x); smooth; repeat split; lra)). clear G G1.
    pose proof (area_plus _ _ _ _ _ _ G2 (area_mult fermi 2 0 W _ (@RInt_correct R_CompleteNormedModule fermi 0 W (fermi_ex 0 W)))) as G3. apply (area_value _ _ _ _ (- (W ^ 2 * / (1 + exp W)) + 2 * RInt fermi 0 W)) in G3. 2:{ pose proof (exp_pos 0). rewrite exp_0. field. pose proof (exp_pos W). lra. }
    apply (area_eq _ _ _ _ _) with (2 := G3). intros x. ring. }
  apply line_even.
  - intros x. rewrite sigm_opp. ring.
  - intros W _. eexists. apply A.
  - apply (is_lim_ext (fun W => - (W ^ 2 * / (1 + exp W)) + 2 * RInt fermi 0 W)); [intros W; symmetry; apply area_unique; apply A|]. apply (is_lim_plus' _ _ p_infty 0 (2 * (PI ^ 2 / 12))).
    + apply is_lim_spec. intros eps. pose proof (proj2 (is_lim_spec _ _ _) (exp_tail 2)) as T. destruct (T eps) as [M HM]. exists (Rmax M 0). intros W HW. pose proof (Rmax_l M 0). pose proof (Rmax_r M 0). specialize (HM W ltac:(lra)). rewrite Rminus_0_r in *. rewrite Rabs_Ropp. eapply Rle_lt_trans; [|exact HM]. rewrite !Rabs_mult. apply Rmult_le_compat_l; [apply Rabs_pos|].
      pose proof (exp_pos W). rewrite exp_Ropp. assert (0 < / (1 + exp W)) by (apply Rinv_0_lt_compat; lra). assert (0 < / exp W) by (now apply Rinv_0_lt_compat). rewrite !Rabs_right by lra. apply Rinv_le_contravar; lra.
    + apply (is_lim_scal_l _ 2 p_infty (PI ^ 2 / 12) fermi_lim).
Qed.
