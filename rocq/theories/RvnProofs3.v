From Coq Require Import Reals Lra Lia Psatz.
From Coquelicot Require Import Coquelicot.
From Verif Require Import RvModel RvSpec RvProofs RvProofs2 RvProofs3 RvnModel RvnProofs RvnProofs2.
Local Open Scope R_scope.

(* ---- truncated normal ---- *)
Lemma between a b x : a < x < b -> 0 < ndtr a < ndtr x /\ ndtr x < ndtr b < 1.
Proof. intros [H1 H2]. apply ndtr_increasing in H1. apply ndtr_increasing in H2. pose proof (ndtr_values a). pose proof (ndtr_values b). lra. Qed.
Lemma piece a b : norm_sf a - norm_sf b = ndtr b - ndtr a. Proof. rewrite !sf_cdf. ring. Qed.
Lemma piece_if a b (P : Prop) (H : {P} + {~ P}) : (if H then norm_cdf b - norm_cdf a else norm_sf a - norm_sf b) = ndtr b - ndtr a.
Proof. destruct H; [reflexivity|apply piece]. Qed.
Lemma delta_eq a b : a < b -> 0 < truncnorm_delta a b -> truncnorm_delta a b = ndtr b - ndtr a.
Proof.
  intros L. apply ndtr_increasing in L. unfold truncnorm_delta. destruct (Rlt_dec TAIL_X a); [lra|]. destruct (Rlt_dec b (- TAIL_X)); [lra|]. rewrite piece_if. intros _. apply Rmax_left. lra.
Qed.
Lemma delta_pos a b : a < b -> a <= TAIL_X -> - TAIL_X <= b -> 0 < truncnorm_delta a b.
Proof.
  intros L A B. apply ndtr_increasing in L. unfold truncnorm_delta. destruct (Rlt_dec TAIL_X a); [lra|]. destruct (Rlt_dec b (- TAIL_X)); [lra|]. rewrite piece_if. rewrite Rmax_left; lra.
Qed.
Lemma low_log a b : ndtr a < ndtr b -> log1p (- exp (norm_logcdf a - norm_logcdf b)) = ln ((ndtr b - ndtr a) / ndtr b).
Proof. intros L. pose proof (ndtr_values a). rewrite exp_minus, !log_cdf. unfold log1p. f_equal. field. lra. Qed.
Lemma high_log a b : ndtr a < ndtr b -> log1p (- exp (norm_logsf b - norm_logsf a)) = ln ((ndtr b - ndtr a) / (1 - ndtr a)).
Proof. intros L. pose proof (ndtr_values b). rewrite exp_minus, !log_sf. unfold log1p. f_equal. field. lra. Qed.
Lemma ln_cancel a b : 0 < a -> 0 < b -> ln a + ln (b / a) = ln b.
Proof. intros A B. rewrite <- ln_mult by (lra || (apply div_pos; lra)). f_equal. field. lra. Qed.
Lemma ln_frac a b c : 0 < a -> 0 < b -> 0 < c -> ln (a / c) - ln (b / c) = ln (a / b).
Proof. intros A B C. rewrite <- (ln_cancel (b / c) (a / c)) by (apply div_pos; lra). replace (a / c / (b / c)) with (a / b) by (field; lra). ring. Qed.
Lemma logdelta_eq a b : a < b -> truncnorm_logdelta a b = ln (ndtr b - ndtr a).
Proof.
  intros L. apply ndtr_increasing in L. pose proof (ndtr_values a) as Va. pose proof (ndtr_values b) as Vb.
  assert (T1 : norm_logcdf b + log1p (- exp (norm_logcdf a - norm_logcdf b)) = ln (ndtr b - ndtr a)). { rewrite low_log by exact L. apply ln_cancel; lra. }
  assert (T2 : norm_logsf a + log1p (- exp (norm_logsf b - norm_logsf a)) = ln (ndtr b - ndtr a)). { rewrite high_log by exact L. unfold norm_logsf, norm_logcdf, log_ndtr. rewrite ndtr_neg. apply ln_cancel; lra. }
  unfold truncnorm_logdelta. cbn zeta. rewrite piece_if, T1, T2. rewrite (Rmax_left (ndtr b - ndtr a) 0) by lra. destruct (Rle_dec a TAIL_X), (Rle_dec (- TAIL_X) b), (Rlt_dec b 0), (Rle_dec (Rabs b) (Rabs a)), (Rlt_dec 0 (ndtr b - ndtr a)); reflexivity.
Qed.
Lemma truncnorm_pdf_eq a b x : a < b -> truncnorm_pdf a b x = norm_pdf x / (ndtr b - ndtr a).
Proof.
  intros L. unfold truncnorm_pdf. cbn zeta. destruct (Rlt_dec 0 (truncnorm_delta a b)) as [P|P]; [now rewrite delta_eq|]. unfold truncnorm_logpdf. rewrite logdelta_eq by exact L. apply ndtr_increasing in L. rewrite exp_minus, norm_log, exp_ln by lra. reflexivity.
Qed.
Lemma truncnorm_logpdf_eq a b x : a < b -> exp (truncnorm_logpdf a b x) = norm_pdf x / (ndtr b - ndtr a).
Proof. intros L. unfold truncnorm_logpdf. rewrite logdelta_eq by exact L. apply ndtr_increasing in L. rewrite exp_minus, norm_log, exp_ln by lra. reflexivity. Qed.
Lemma truncnorm_logcdf_eq a b x : a < x < b -> truncnorm_logcdf a b x = ln ((ndtr x - ndtr a) / (ndtr b - ndtr a)).
Proof.
  intros H. pose proof (between _ _ _ H) as [V1 V2]. unfold truncnorm_logcdf. cbn zeta. destruct (Rlt_dec 0 (truncnorm_delta a b)) as [P|P]; [rewrite delta_eq by lra; reflexivity|].
  destruct (Rlt_dec a 0).
  - rewrite !low_log by lra. unfold norm_logcdf, log_ndtr. rewrite !ln_cancel by lra. rewrite <- (ln_frac _ _ 1) by lra. now rewrite !Rdiv_1.
  - rewrite !high_log by lra. apply ln_frac; lra.
Qed.
Lemma truncnorm_logsf_eq a b x : a < x < b -> truncnorm_logsf a b x = ln ((ndtr b - ndtr x) / (ndtr b - ndtr a)).
Proof.
  intros H. pose proof (between _ _ _ H) as [V1 V2]. unfold truncnorm_logsf. cbn zeta. destruct (Rlt_dec 0 (truncnorm_delta a b)) as [P|P]; [rewrite delta_eq, piece by lra; reflexivity|].
  destruct (Rlt_dec b 0).
  - rewrite !low_log by lra. apply ln_frac; lra.
  - rewrite !high_log by lra. unfold norm_logsf, norm_logcdf, log_ndtr. rewrite !ndtr_neg, !ln_cancel by lra. rewrite <- (ln_frac _ _ 1) by lra. now rewrite !Rdiv_1.
Qed.
Lemma truncnorm_cdf_eq a b x : a < x < b -> truncnorm_cdf a b x = (ndtr x - ndtr a) / (ndtr b - ndtr a).
Proof.
  intros H. pose proof (between _ _ _ H) as [V1 V2]. unfold truncnorm_cdf. cbn zeta. destruct (Rlt_dec 0 (truncnorm_delta a b)) as [P|P]; [rewrite delta_eq by lra; reflexivity|]. rewrite truncnorm_logcdf_eq by exact H. apply exp_ln, div_pos; lra.
Qed.
Lemma truncnorm_sf_eq a b x : a < x < b -> truncnorm_sf a b x = (ndtr b - ndtr x) / (ndtr b - ndtr a).
Proof.
  intros H. pose proof (between _ _ _ H) as [V1 V2]. unfold truncnorm_sf. cbn zeta. destruct (Rlt_dec 0 (truncnorm_delta a b)) as [P|P]; [rewrite delta_eq, piece by lra; reflexivity|]. rewrite truncnorm_logsf_eq by exact H. apply exp_ln, div_pos; lra.
Qed.
Lemma truncnorm_coherent tail a b : a < b -> (truncnorm_delta a b <= 0 -> forall q, 0 < q < 1 -> a < tail q < b /\ truncnorm_cdf a b (tail q) = q) -> coherent (truncnorm tail a b).
Proof.
  intros L T. assert (L' := L). apply ndtr_increasing in L'. pose proof (ndtr_values a) as Va. pose proof (ndtr_values b) as Vb. apply make; unfold inside; cbn [RvModel.low RvModel.high RvModel.pdf RvModel.cdf RvModel.ppf RvModel.sf RvModel.isf RvModel.logpdf RvModel.logcdf RvModel.logsf truncnorm defined]; try exact I.
  - intros x H. rewrite truncnorm_pdf_eq by exact L. split; [apply div_pos; [apply norm_pdf_pos|lra]|]. apply (derive_loc (fun t => - ndtr a / (ndtr b - ndtr a) + / (ndtr b - ndtr a) * ndtr t)).
    + eapply derive_to; [apply derive_scaled, ndtr_derive|]. unfold Rdiv. ring.
    + exists (Rmin (x - a) (b - x)). split; [apply Rmin_pos; lra|]. intros t Ht. apply Rabs_def2 in Ht. pose proof (Rmin_l (x - a) (b - x)). pose proof (Rmin_r (x - a) (b - x)). rewrite truncnorm_cdf_eq by lra. field. lra.
  - intros x H. pose proof (between _ _ _ H). rewrite truncnorm_cdf_eq by exact H. split; [apply div_pos; lra|apply div_lt1; lra].
  - intros q H. unfold truncnorm_ppf. cbn zeta. destruct (Rlt_dec 0 (truncnorm_delta a b)) as [P|P]; [|apply T; lra].
    assert (Q : (if Rlt_dec 0 a then norm_isf (q * norm_sf b + norm_sf a * (1 - q)) else norm_ppf (q * norm_cdf b + norm_cdf a * (1 - q))) = ndtri (ndtr a + q * (ndtr b - ndtr a))).
    { cbn zeta. destruct (Rlt_dec 0 a).
      - rewrite !sf_cdf. unfold norm_isf, norm_ppf. rewrite <- ndtri_neg by nra. f_equal. ring.
      - unfold norm_ppf, norm_cdf. f_equal. ring. }
    rewrite Q. pose proof (ndtr_ndtri (ndtr a + q * (ndtr b - ndtr a)) ltac:(nra)) as E. assert (B : a < ndtri (ndtr a + q * (ndtr b - ndtr a)) < b) by (split; apply ndtr_iff; rewrite E; nra). split; [exact B|]. rewrite truncnorm_cdf_eq, E by exact B. field. lra.
  - intros x H. rewrite truncnorm_sf_eq, truncnorm_cdf_eq by exact H. field. lra.
  - intros x H. rewrite truncnorm_pdf_eq by exact L. now apply truncnorm_logpdf_eq.
  - intros x H. pose proof (between _ _ _ H). rewrite truncnorm_logcdf_eq, truncnorm_cdf_eq by exact H. apply exp_ln, div_pos; lra.
  - intros x H. pose proof (between _ _ _ H). rewrite truncnorm_logsf_eq, truncnorm_cdf_eq by exact H. rewrite exp_ln by (apply div_pos; lra). field. lra.
Qed.
Lemma truncnorm_central tail a b : a < b -> a <= 30 -> -30 <= b -> coherent (truncnorm tail a b).
Proof. intros L A B. apply truncnorm_coherent; [exact L|]. intros D. exfalso. pose proof (delta_pos a b L A) as P. unfold TAIL_X in P. specialize (P ltac:(lra)). lra. Qed.

(* ---- crystal ball ---- *)
Lemma pow_decreasing x y c : c < 0 -> 0 < x < y -> y ^^ c < x ^^ c.
Proof. intros C [H1 H2]. unfold Rpower. apply exp_increasing. assert (ln x < ln y) by (apply ln_increasing; lra). nra. Qed.
Lemma pow_decr_le x y c : c < 0 -> 0 < x <= y -> y ^^ c <= x ^^ c.
Proof. intros C [H1 H2]. destruct (Req_dec x y) as [->|N]; [lra|]. left. apply pow_decreasing; lra. Qed.
Lemma back_power (B c x : R) : x < B -> is_derive (fun t => (B - t) ^^ c) x (- (c * ((B - x) ^^ c / (B - x)))).
Proof. intros H. unfold Rpower. auto_derive; [lra|]. replace (B + - x) with (B - x) by ring. field. lra. Qed.
Ltac nz := repeat split; first [assumption | apply Rgt_not_eq; assumption | lra].
Lemma crystalball_coherent beta m : 0 < beta -> 1 < m -> coherent (crystalball beta m).
Proof.
  intros Hb Hm. pose proof root2pi as R0. set (E := exp (- beta ^ 2 / 2)). assert (HE : 0 < E) by apply exp_pos. set (K := m / beta). assert (HK : 0 < K) by (apply div_pos; lra). pose proof (ndtr_values beta) as Vb. pose proof (ndtr_neg beta) as Nb. set (S := sqrt (2 * PI)) in *.
  set (C := K / (m - 1) * E). assert (HC : 0 < C) by (apply Rmult_lt_0_compat; [apply div_pos; lra|exact HE]). assert (HD : 0 < C + S * ndtr beta) by nra.
  assert (EN : crystal_N beta m = / (C + S * ndtr beta)). { unfold crystal_N, norm_pdf_C, norm_cdf. fold E. fold K. fold S. fold C. unfold Rdiv. ring. }
  assert (EC : K * E / (m - 1) = C) by (unfold C; field; lra). assert (HN : 0 < / (C + S * ndtr beta)) by now apply Rinv_0_lt_compat.
  assert (ER : forall x, crystal_cdf_rhs beta m x = C + S * (ndtr x - ndtr (- beta))). { intros x. unfold crystal_cdf_rhs, norm_pdf_C, norm_cdf. fold E. fold K. fold S. now rewrite EC. }
  assert (PK : K ^^ m * K ^^ (- m + 1) = K). { rewrite <- Rpower_plus. replace (m + (- m + 1)) with 1 by ring. now apply Rpower_1. }
  assert (EL : crystal_cdf_lhs beta m (- beta) = C). { unfold crystal_cdf_lhs. fold E. fold K. replace (K - beta - - beta) with K by ring. unfold C. transitivity ((K ^^ m * K ^^ (- m + 1)) * E / (m - 1)); [field; lra|]. rewrite PK. field. lra. }
  assert (LB : forall x, x <= - beta -> K <= K - beta - x) by (intros; lra).
  assert (LL : forall x, x <= - beta -> 0 < crystal_cdf_lhs beta m x <= C). { intros x Hx. split.
    - unfold crystal_cdf_lhs. fold E. fold K. apply div_pos; [|lra]. apply Rmult_lt_0_compat; [apply Rmult_lt_0_compat; [apply pow_pos|exact HE]|apply pow_pos].
    - rewrite <- EL. unfold crystal_cdf_lhs. fold E. fold K. replace (K - beta - - beta) with K by ring. unfold Rdiv. apply Rmult_le_compat_r; [left; apply Rinv_0_lt_compat; lra|]. apply Rmult_le_compat_l; [left; apply Rmult_lt_0_compat; [apply pow_pos|exact HE]|]. apply pow_decr_le; [lra|]. specialize (LB x Hx). lra. }
  apply make; unfold inside; cbn [RvModel.low RvModel.high RvModel.pdf RvModel.cdf RvModel.ppf RvModel.sf RvModel.isf RvModel.logpdf RvModel.logcdf RvModel.logsf crystalball defined]; try exact I; rewrite ?EN.
  - intros x _. split. { apply Rmult_lt_0_compat; [exact HN|]. destruct (Rlt_dec (- beta) x); [apply exp_pos|]. unfold crystal_lhs. fold E. apply Rmult_lt_0_compat; [apply Rmult_lt_0_compat; [apply pow_pos|exact HE]|apply pow_pos]. }
    apply (is_derive_scal (fun t => if Rlt_dec (- beta) t then crystal_cdf_rhs beta m t else crystal_cdf_lhs beta m t) x (/ (C + S * ndtr beta))).
    apply (glue _ (crystal_cdf_lhs beta m) (crystal_cdf_rhs beta m) (- beta)).
    + intros t Ht. destruct (Rlt_dec (- beta) t); [lra|reflexivity].
    + intros t Ht. destruct (Rlt_dec (- beta) t); [reflexivity|lra].
    + destruct (Rlt_dec (- beta) (- beta)); [lra|reflexivity].
    + left. rewrite EL, ER. ring.
    + intros L. destruct (Rlt_dec (- beta) x); [lra|]. specialize (LB x L). unfold crystal_cdf_lhs, crystal_lhs. fold E. fold K. assert (HB : 0 < K - beta - x) by lra. apply (derive_to _ x (K ^^ m * E * ((K - beta - x) ^^ (- m + 1) / (K - beta - x)))).
      * apply (derive_ext (fun t => 0 + K ^^ m * E / (m - 1) * (K - beta - t) ^^ (- m + 1))); [intros t; unfold Rdiv; ring|]. eapply derive_to; [apply derive_scaled, (back_power (K - beta) (- m + 1) x); lra|]. field. lra.
      * replace ((K - beta - x) ^^ (- m + 1)) with ((K - beta - x) ^^ (- m) * (K - beta - x)) by (symmetry; now apply pow_succ). field. lra.
    + intros L. apply (derive_to _ x (S * norm_pdf x)).
      * apply (derive_ext (fun t => (C - S * ndtr (- beta)) + S * ndtr t)); [intros t; rewrite ER; ring|]. apply derive_scaled, ndtr_derive.
      * unfold norm_pdf, norm_pdf_C. fold S. destruct (Rlt_dec (- beta) x); [field; lra|]. replace x with (- beta) by lra. unfold crystal_lhs. fold K. fold E. replace (K - beta - - beta) with K by ring. replace (exp (- (- beta) ^ 2 / 2)) with E by (unfold E; do 2 f_equal; ring). assert (P1 : K ^^ m * K ^^ (- m) = 1) by (rewrite <- Rpower_plus, Rplus_opp_r; now apply Rpower_O). transitivity (K ^^ m * K ^^ (- m) * E); [rewrite P1; field; lra|ring].
  - intros x _. rewrite (Rmult_comm (/ _)). fold (Rdiv (if Rlt_dec (- beta) x then crystal_cdf_rhs beta m x else crystal_cdf_lhs beta m x) (C + S * ndtr beta)). destruct (Rlt_dec (- beta) x) as [B|B].
    + rewrite ER. apply ndtr_increasing in B. pose proof (ndtr_values x). split; [apply div_pos; nra|apply div_lt1; nra].
    + specialize (LL x ltac:(lra)). split; [apply div_pos; nra|apply div_lt1; nra].
  - intros p H. split; [now split|]. cbn zeta. rewrite ?EN. fold K. fold E. assert (EP : / (C + S * ndtr beta) * K * E / (m - 1) = C / (C + S * ndtr beta)) by (generalize (Rgt_not_eq _ _ HD); generalize (C + S * ndtr beta); intros D ND; rewrite <- EC; field; lra). rewrite EP. destruct (Rlt_dec p (C / (C + S * ndtr beta))) as [B|B].
    + assert (B' : p * (C + S * ndtr beta) < C). { apply (Rmult_lt_compat_r (C + S * ndtr beta)) in B; [|exact HD]. rewrite div_cancel in B by exact HD. exact B. }
      unfold crystal_ppf_less. cbn zeta. unfold norm_pdf_C, norm_cdf. fold K. fold E. fold S. rewrite EC. set (T := (m - 1) * K ^^ (- m) / E * p / (1 / (C + S * ndtr beta))). assert (ET : T = (m - 1) * K ^^ (- m) / E * (p * (C + S * ndtr beta))) by (unfold T; field; nz). pose proof (pow_pos K (- m)) as PK'. assert (Q0 : 0 < (m - 1) * K ^^ (- m) / E) by (apply div_pos; [nra|exact HE]). assert (T0 : 0 < T) by (rewrite ET; apply Rmult_lt_0_compat; nra). assert (TK : T < K ^^ (- m + 1)). { rewrite ET. replace (K ^^ (- m + 1)) with ((m - 1) * K ^^ (- m) / E * C) by (rewrite pow_succ by exact HK; unfold C; field; nz). apply Rmult_lt_compat_l; assumption. }
      assert (Y : K < T ^^ (1 / (1 - m))). { replace K with ((K ^^ (- m + 1)) ^^ (1 / (1 - m))) at 1 by (apply pow_inv; [exact HK|field; lra]). apply pow_decreasing; [|lra]. assert (0 < 1 / (m - 1)) by (apply div_pos; lra). replace (1 / (1 - m)) with (- (1 / (m - 1))) by (field; lra). lra. }
      destruct (Rlt_dec (- beta) (K - beta - T ^^ (1 / (1 - m)))) as [A|A]; [lra|]. unfold crystal_cdf_lhs. fold K. fold E. replace (K - beta - (K - beta - T ^^ (1 / (1 - m)))) with (T ^^ (1 / (1 - m))) by ring. rewrite pow_inv by (exact T0 || (field; lra)). rewrite ET. assert (P1 : K ^^ m * K ^^ (- m) = 1) by (rewrite <- Rpower_plus, Rplus_opp_r; now apply Rpower_O). transitivity ((K ^^ m * K ^^ (- m)) * p); [field; nz|]. rewrite P1. ring.
    + assert (B' : C <= p * (C + S * ndtr beta)). { apply Rnot_lt_le in B. apply (Rmult_le_compat_r (C + S * ndtr beta)) in B; [|lra]. rewrite div_cancel in B by exact HD. exact B. }
      unfold crystal_ppf_greater. cbn zeta. unfold norm_pdf_C, norm_cdf, norm_ppf. fold K. fold E. fold S. rewrite EC. set (u := ndtr (- beta) + 1 / S * (p / (1 / (C + S * ndtr beta)) - C)). assert (Eu : S * (u - ndtr (- beta)) = p * (C + S * ndtr beta) - C) by (unfold u; field; nz). assert (U1 : ndtr (- beta) <= u) by nra. assert (U2 : u < 1). { assert (S * (u - ndtr (- beta)) < S * ndtr beta) by nra. assert (u - ndtr (- beta) < ndtr beta) by nra. lra. } pose proof (ndtr_values (- beta)) as Vn. pose proof (ndtr_ndtri u ltac:(lra)) as Eq. destruct (Rlt_dec (- beta) (ndtri u)) as [A|A].
      * rewrite ER, Eq, Eu. field. nz.
      * assert (A' : ndtri u = - beta). { destruct (Rtotal_order (ndtri u) (- beta)) as [D|[D|D]]; [apply ndtr_increasing in D; lra|exact D|lra]. } rewrite A'. rewrite EL. assert (u = ndtr (- beta)) by (rewrite <- A'; now symmetry). assert (C = p * (C + S * ndtr beta)) by nra. rewrite H1 at 2. field. nz.
  - intros x _. rewrite exp_plus, exp_ln by exact HN. f_equal. destruct (Rlt_dec (- beta) x); [reflexivity|]. unfold crystal_lhs. fold K. fold E. assert (EE : E = / exp (beta ^ 2 / 2)) by (unfold E; rewrite <- exp_Ropp; f_equal; field). rewrite EE. rewrite (exp_minus (m * ln K - beta ^ 2 / 2)), exp_minus. unfold Rpower. replace (- m * ln (K - beta - x)) with (- (m * ln (K - beta - x))) by ring. rewrite exp_Ropp. reflexivity.
Qed.
