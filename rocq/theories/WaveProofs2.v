From Coq Require Import Reals ZArith Lra Lia.
From Coquelicot Require Import Coquelicot.
From Verif Require Import Base WaveModel WaveSpec WaveProofs.
Local Open Scope R_scope.

Lemma cosh_ge_1 x : 1 <= cosh x.
Proof.
  unfold cosh. assert (E : exp x * exp (- x) = 1) by (rewrite <- exp_plus, Rplus_opp_r; apply exp_0).
  pose proof (exp_pos x). pose proof (exp_pos (- x)). pose proof (Rle_0_sqr (exp x - exp (- x))) as Q. unfold Rsqr in Q. nra.
Qed.
Lemma cosh_sinh x : cosh x ^ 2 = 1 + sinh x ^ 2.
Proof.
  unfold cosh, sinh. assert (E : exp x * exp (- x) = 1) by (rewrite <- exp_plus, Rplus_opp_r; apply exp_0). nra.
Qed.
Lemma tanh_abs_lt x : Rabs (tanh x) < 1.
Proof.
  unfold tanh. pose proof (cosh_pos x). unfold Rdiv. rewrite Rabs_mult, (Rabs_pos_eq (/ cosh x)) by (left; now apply Rinv_0_lt_compat).
  apply (Rmult_lt_reg_r (cosh x)); auto. rewrite Rmult_assoc, Rinv_l, Rmult_1_r, Rmult_1_l by lra.
  apply Rabs_def1; unfold cosh, sinh; pose proof (exp_pos x); pose proof (exp_pos (- x)); lra.
Qed.
Lemma tanh_pos x : 0 < x -> 0 < tanh x.
Proof. intros H. unfold tanh. apply Rdiv_lt_0_compat; [now apply sinh_pos|apply cosh_pos]. Qed.
Lemma tanh_odd x : tanh (- x) = - tanh x.
Proof. unfold tanh. rewrite sinh_opp. replace (cosh (- x)) with (cosh x); [field; pose proof (cosh_pos x); lra|]. unfold cosh. rewrite Ropp_involutive. lra. Qed.
Lemma tanh_le_1 x : tanh x <= 1.
Proof. pose proof (tanh_abs_lt x). apply Rabs_def2 in H. lra. Qed.
Lemma is_derive_tanh x : is_derive tanh x (/ cosh x ^ 2).
Proof.
  pose proof (cosh_pos x). unfold tanh.
  apply (is_derive_ext (fun t => sinh t / cosh t)); [reflexivity|].
  evar_last. { apply is_derive_div; [apply is_derive_Reals, derivable_pt_lim_sinh|apply is_derive_Reals, derivable_pt_lim_cosh|lra]. }
  pose proof (cosh_sinh x). cbn [pow] in *. field_simplify; [|lra..]. apply (Rmult_eq_reg_r (cosh x ^ 2)); [|apply pow_nonzero; lra]. field_simplify; [|lra..]. cbn [pow] in *. lra.
Qed.
Lemma sinh_ge x : 0 <= x -> x <= sinh x.
Proof.
  intros [H|<-]; [|rewrite sinh_zero; lra].
  destruct (MVT_cor2 sinh cosh 0 x H) as (c & E & _); [intros; apply derivable_pt_lim_sinh|]. rewrite sinh_zero in E. pose proof (cosh_ge_1 c). nra.
Qed.
Lemma cosh_even x : cosh (- x) = cosh x.
Proof. unfold cosh. rewrite Ropp_involutive. lra. Qed.
Lemma x_sech2 x : Rabs (x / cosh x ^ 2) <= 1.
Proof.
  pose proof (cosh_ge_1 x). assert (0 < cosh x ^ 2) by (apply pow_lt; lra).
  assert (Rabs x <= cosh x ^ 2).
  { rewrite cosh_sinh. assert (forall y, 0 <= y -> y <= 1 + sinh y ^ 2). { intros y Hy. pose proof (sinh_ge y Hy). nra. }
    unfold Rabs. destruct (Rcase_abs x); [|apply H1; lra]. specialize (H1 (- x) ltac:(lra)). rewrite sinh_opp in H1. replace ((- sinh x) ^ 2) with (sinh x ^ 2) in H1 by ring. lra. }
  unfold Rdiv. rewrite Rabs_mult, (Rabs_pos_eq (/ _)) by (left; now apply Rinv_0_lt_compat).
  apply (Rmult_le_reg_r (cosh x ^ 2)); auto. rewrite Rmult_assoc, Rinv_l, Rmult_1_r, Rmult_1_l by lra. auto.
Qed.

(* ---- the dispersion function ---- *)
Definition disp (h k : R) : R := k * tanh (k * h).
Lemma disp_derive h k : is_derive (disp h) k (tanh (k * h) + k * h / cosh (k * h) ^ 2).
Proof.
  unfold disp. pose proof (cosh_pos (k * h)).
  assert (D := is_derive_tanh (k * h)). auto_derive; [exists (/ cosh (k * h) ^ 2); exact D|].
  change (fun x : R => tanh x) with tanh. rewrite (is_derive_unique _ _ _ D). field. lra.
Qed.
Lemma disp_derive_bound h k : Rabs (tanh (k * h) + k * h / cosh (k * h) ^ 2) <= 2.
Proof. eapply Rle_trans; [apply Rabs_triang|]. pose proof (tanh_abs_lt (k * h)). pose proof (x_sech2 (k * h)). lra. Qed.
Lemma disp_lipschitz h a b : Rabs (disp h b - disp h a) <= 2 * Rabs (b - a).
Proof.
  destruct (MVT_gen (disp h) a b (fun k => tanh (k * h) + k * h / cosh (k * h) ^ 2)) as (c & _ & E).
  - intros; apply disp_derive.
  - intros x _. apply derivable_continuous_pt. exists (tanh (x * h) + x * h / cosh (x * h) ^ 2). apply is_derive_Reals, disp_derive.
  - rewrite E, Rabs_mult. pose proof (disp_derive_bound h c). pose proof (Rabs_pos (b - a)). nra.
Qed.
Lemma tanh_mono a b : a <= b -> tanh a <= tanh b.
Proof.
  intros [H|<-]; [|lra]. destruct (MVT_cor2 tanh (fun x => / cosh x ^ 2) a b H) as (c & E & _).
  - intros; apply is_derive_Reals, is_derive_tanh.
  - pose proof (cosh_pos c). assert (0 < / cosh c ^ 2) by (apply Rinv_0_lt_compat, pow_lt; lra). nra.
Qed.
Lemma disp_growth h a b : 0 < h -> 0 < a -> a <= b -> (b - a) * tanh (a * h) <= disp h b - disp h a.
Proof.
  intros Hh Ha Hab. unfold disp. pose proof (tanh_mono (a * h) (b * h) ltac:(nra)). pose proof (tanh_pos (a * h) ltac:(nra)). nra.
Qed.
Lemma disp_unique h a b : 0 < h -> 0 < a -> 0 < b -> disp h a = disp h b -> a = b.
Proof.
  intros Hh Ha Hb E. destruct (Rtotal_order a b) as [L|[L|L]]; auto.
  - pose proof (disp_growth h a b Hh Ha ltac:(lra)). pose proof (tanh_pos (a * h) ltac:(nra)). nra.
  - pose proof (disp_growth h b a Hh Hb ltac:(lra)). pose proof (tanh_pos (b * h) ltac:(nra)). nra.
Qed.
Lemma wave_number_unique g h w a b : 0 < g -> 0 < h -> 0 < a -> 0 < b -> dispersion_relation g h w a -> dispersion_relation g h w b -> a = b.
Proof.
  intros Hg Hh Ha Hb E1 E2. apply (disp_unique h); auto. unfold dispersion_relation in *. unfold disp. apply (Rmult_eq_reg_l g); lra.
Qed.
Lemma disp_cont h : forall k, continuity_pt (disp h) k.
Proof. intros k. apply derivable_continuous_pt. exists (tanh (k * h) + k * h / cosh (k * h) ^ 2). apply is_derive_Reals, disp_derive. Qed.
(* the root exists, and lies above the deep water value *)
Lemma wave_number_exists g h w : 0 < g -> 0 < h -> w <> 0 -> exists k, w ^ 2 / g < k /\ dispersion_relation g h w k.
Proof.
  intros Hg Hh Hw. set (c := w ^ 2 / g). assert (Hc : 0 < c) by (apply Rdiv_lt_0_compat; [nra|auto]).
  assert (L : disp h c < c). { unfold disp. pose proof (tanh_abs_lt (c * h)) as T. apply Rabs_def2 in T. nra. }
  set (T := tanh (c * h)). assert (HT : 0 < T) by (apply tanh_pos; nra). assert (T1 : T <= 1) by apply tanh_le_1.
  set (b := c / T + 1).
  assert (Hb : c < b). { unfold b. assert (c <= c / T); [|lra]. apply (Rmult_le_reg_r T); auto. unfold Rdiv. rewrite Rmult_assoc, Rinv_l, Rmult_1_r by lra. nra. }
  assert (U : c < disp h b). { unfold disp. pose proof (tanh_mono (c * h) (b * h) ltac:(nra)). fold T in H. assert (b * T = c + T) by (unfold b; field; lra). nra. }
  destruct (IVT (fun k => disp h k - c) c b) as (k & Hk & E).
  - intros k. apply continuity_pt_minus; [apply disp_cont|apply continuity_pt_const; intros ? ?; reflexivity].
  - exact Hb.
  - lra.
  - lra.
  - exists k. assert (k <> c) by (intros ->; lra). split; [lra|]. unfold dispersion_relation. unfold disp in E. replace (w ^ 2) with (g * c) by (unfold c; field; lra). f_equal. lra.
Qed.

(* ---- Newton's method ---- *)
Lemma slope_sign kh : kh <> 0 -> 0 < kh * slope kh.
Proof.
  intros H. unfold slope. assert (0 < kh * tanh kh).
  { destruct (Rtotal_order kh 0) as [L|[L|L]]; [|lra|].
    - replace (tanh kh) with (- tanh (- kh)) by (rewrite tanh_odd; ring). pose proof (tanh_pos (- kh) ltac:(lra)). nra.
    - pose proof (tanh_pos kh L). nra. }
  destruct (Rlt_dec (Rabs kh) 350); [|lra]. pose proof (cosh_pos kh). assert (0 < / cosh kh ^ 2) by (apply Rinv_0_lt_compat, pow_lt; auto).
  unfold Rdiv. replace (kh * (tanh kh + kh * / cosh kh ^ 2)) with (kh * tanh kh + (kh * kh) * / cosh kh ^ 2) by ring. nra.
Qed.
Lemma slope_bound kh : Rabs (slope kh) <= 2.
Proof.
  unfold slope. eapply Rle_trans; [apply Rabs_triang|]. pose proof (tanh_abs_lt kh). destruct (Rlt_dec (Rabs kh) 350); [pose proof (x_sech2 kh); lra|rewrite Rabs_R0; lra].
Qed.
(* the new guess has the sign of the old one *)
Lemma newton_sign c h k : 0 < c -> 0 < h -> k <> 0 -> 0 < k * (k - (k * tanh (k * h) - c) / slope (k * h)).
Proof.
  intros Hc Hh Hk. assert (kh0 : k * h <> 0) by (apply Rmult_integral_contrapositive_currified; lra). pose proof (slope_sign (k * h) kh0) as S0.
  assert (S1 : slope (k * h) <> 0) by (intros E; rewrite E in S0; lra). assert (S2 : 0 < k * slope (k * h)) by (apply (Rmult_lt_reg_l h); nra).
  assert (E : k * (k - (k * tanh (k * h) - c) / slope (k * h)) = k * slope (k * h) * (k * (slope (k * h) - tanh (k * h)) + c) / slope (k * h) ^ 2) by (field; auto).
  rewrite E. apply Rdiv_lt_0_compat; [|nra]. apply Rmult_lt_0_compat; auto. unfold slope.
  destruct (Rlt_dec (Rabs (k * h)) 350); [|lra]. pose proof (cosh_pos (k * h)).
  replace (k * (tanh (k * h) + k * h / cosh (k * h) ^ 2 - tanh (k * h))) with (k * k * h * / cosh (k * h) ^ 2) by (field; lra).
  assert (0 < / cosh (k * h) ^ 2) by (apply Rinv_0_lt_compat, pow_lt; auto). assert (0 < k * k) by nra. assert (0 < k * k * h) by nra. nra.
Qed.
