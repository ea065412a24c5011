From Coq Require Import Reals Lra Lia List Bool Psatz String.
From Coquelicot Require Import Coquelicot.
From Verif Require Import Base PolyModel KdeModel SeaModel SeaSpec SeaProofs SeaProofs2 SeaProofs3 SeaCases SpreadModel SpreadSpec CosPow GammaProofs KernelModel KernelSpec SpreadProofs SpreadProofs2 SpreadProofs4 KernelProofs KernelProofs2 KernelProofs3 Basel KernelProofs4.
Import ListNotations.
Local Open Scope R_scope.

Definition box (x : R) : R := if Rle_dec (Rabs x) 1 then 1 else 0.
Lemma box_kernel x : kernel (Rectangular 1) [x] = box x.
Proof. cbn [kernel forallb]. unfold box. destruct (Rle_dec (Rabs x) 1); reflexivity. Qed.
Lemma box_in x : -1 < x < 1 -> box x = 1.
Proof. intros H. unfold box. destruct (Rle_dec (Rabs x) 1) as [G|G]; [easy|]. exfalso. apply G. apply Rabs_le. lra. Qed.
Lemma box_out x : 1 < x -> box x = 0.
Proof. intros H. unfold box. rewrite Rabs_right by lra. destruct (Rle_dec x 1); lra. Qed.
Lemma box_even x : box (- x) = box x.
Proof. unfold box. now rewrite Rabs_Ropp. Qed.
Lemma rect_2 : line_integral (fun x => x ^ 2 * (box x / 2)) (1 / 3).
Proof.
  apply (line_ball _ (fun x => x ^ 2 / 2) (fun x => x ^ 3 / 6)).
  - intros x. rewrite box_even. field.
  - intros x Hx. rewrite box_out by easy. field.
  - intros x Hx. rewrite box_in by lra. field.
  - intros x. auto_derive; [easy|field].
  - intros x. smooth. easy.
  - field.
Qed.
Lemma rect_R : line_integral (fun x => (box x / 2) ^ 2) (1 / 2).
Proof.
  apply (line_ball _ (fun x => 1 / 4) (fun x => x / 4)).
  - intros x. now rewrite box_even.
  - intros x Hx. rewrite box_out by easy. field.
  - intros x Hx. rewrite box_in by lra. field.
  - intros x. auto_derive; [easy|field].
  - intros x. apply continuous_const.
  - field.
Qed.
Definition tent (x : R) : R := Rmax 0 (1 - Rabs x).
Lemma tent_kernel r x : kernel (Triangular r) [x] = tent x.
Proof. cbn [kernel map]. unfold prodl. cbn [fold_right]. apply Rmult_1_r. Qed.
Lemma tent_in x : 0 <= x < 1 -> tent x = 1 - x.
Proof. intros H. unfold tent. rewrite Rabs_right, Rmax_right; lra. Qed.
Lemma tent_out x : 1 <= x -> tent x = 0.
Proof. intros H. unfold tent. rewrite Rabs_right, Rmax_left; lra. Qed.
Lemma tent_even x : tent (- x) = tent x.
Proof. unfold tent. now rewrite Rabs_Ropp. Qed.
Lemma tria_2 : line_integral (fun x => x ^ 2 * (tent x / 1)) (1 / 6).
Proof.
  apply (line_ball _ (fun x => x ^ 2 - x ^ 3) (fun x => x ^ 3 / 3 - x ^ 4 / 4)).
  - intros x. rewrite tent_even. field.
  - intros x Hx. rewrite tent_out by lra. field.
  - intros x Hx. rewrite tent_in by lra. field.
  - intros x. auto_derive; [easy|field].
  - intros x. smooth. easy.
  - field.
Qed.
Lemma tria_R : line_integral (fun x => (tent x / 1) ^ 2) (2 / 3).
Proof.
  apply (line_ball _ (fun x => (1 - x) ^ 2) (fun x => x - x ^ 2 + x ^ 3 / 3)).
  - intros x. now rewrite tent_even.
  - intros x Hx. rewrite tent_out by lra. field.
  - intros x Hx. rewrite tent_in by lra. field.
  - intros x. auto_derive; [easy|field].
  - intros x. smooth. easy.
  - field.
Qed.
(* Laplace *)
Lemma lapl_kernel r x : kernel (Laplace r) [x] = exp (- Rabs x).
Proof. cbn [kernel map]. unfold npsum. cbn [fold_right]. now rewrite Rplus_0_r. Qed.
Lemma lim_sum (f h : R -> R) l m : is_lim f p_infty (Finite l) -> is_lim h p_infty (Finite m) -> is_lim (fun x => f x + h x) p_infty (Finite (l + m)).
Proof. apply is_lim_plus'. Qed.
Lemma lim_times (f : R -> R) c l : is_lim f p_infty (Finite l) -> is_lim (fun x => c * f x) p_infty (Finite (c * l)).
Proof. intros H. exact (is_lim_scal_l f c p_infty l H). Qed.
Lemma lapl_2 : line_integral (fun x => x ^ 2 * (exp (- Rabs x) / 2)) 2.
Proof.
  apply (line_value _ (2 * (0 - - ((0 ^ 2 + 2 * 0 + 2) * exp (- 0)) / 2))); [rewrite Ropp_0, exp_0; field|]. apply (line_even_deriv _ (fun x => x ^ 2 * (exp (- x) / 2)) (fun x => - ((x ^ 2 + 2 * x + 2) * exp (- x)) / 2) 0).
  - intros x. rewrite Rabs_Ropp. field.
  - intros x Hx. now rewrite Rabs_right by lra.
  - intros x. auto_derive; [easy|field].
  - intros x. smooth. easy.
  - pose proof (lim_times _ (- (1 / 2)) _ (lim_sum _ _ _ _ (exp_tail 2) (lim_sum _ _ _ _ (lim_times _ 2 _ (exp_tail 1)) (lim_times _ 2 _ (exp_tail 0))))) as L. replace (- (1 / 2) * (0 + (2 * 0 + 2 * 0))) with 0 in L by field. apply (is_lim_ext _ _ _ _) with (2 := L). intros y. cbv beta. field.
Qed.
Lemma lapl_R : line_integral (fun x => (exp (- Rabs x) / 2) ^ 2) (1 / 4).
Proof.
  assert (E : forall x, (exp (- Rabs x) / 2) ^ 2 = / 4 * exp (- Rabs (x / (1 / 2)))).
  { intros x. assert (HA : - Rabs (x / (1 / 2)) = - Rabs x + - Rabs x). { replace (x / (1 / 2)) with (x * 2) by field. rewrite Rabs_mult, (Rabs_right 2) by lra. ring. } rewrite HA, exp_plus. field. }
  pose proof (line_mult (/ 4) _ _ (line_scale _ (1 / 2) _ ltac:(lra) lapl_line)) as G. apply (line_value _ (/ 4 * (1 / 2 * 2))); [field|]. apply (line_ext _ _ _) with (2 := G). intros x. now rewrite E.
Qed.
(* Gauss *)
Lemma gaus_kernel x : kernel (Gaussian 4) [x] = bell x.
Proof. cbn [kernel map]. unfold npsum. cbn [fold_right]. unfold bell. f_equal. field. Qed.
Lemma bell_tail n : is_lim (fun y => y ^ n * bell y) p_infty 0.
Proof.
  apply is_lim_spec. intros eps. pose proof (proj2 (is_lim_spec _ _ _) (exp_tail n)) as T. destruct (T eps) as [M HM]. exists (Rmax M 2). intros y Hy. pose proof (Rmax_l M 2). pose proof (Rmax_r M 2). specialize (HM y ltac:(lra)). rewrite Rminus_0_r in *. eapply Rle_lt_trans; [|exact HM]. rewrite !Rabs_mult. apply Rmult_le_compat_l; [apply Rabs_pos|].
  unfold bell. rewrite !Rabs_right by (left; apply exp_pos). apply exp_le. nra.
Qed.
Lemma bell_even y : bell (- y) = bell y.
Proof. unfold bell. f_equal. field. Qed.
Lemma bell_2 : line_integral (fun x => x ^ 2 * bell x) (sqrt (2 * PI)).
Proof.
  assert (G : line_integral (fun x => (x ^ 2 - 1) * bell x) 0).
  { apply (line_value _ (2 * (0 - - (0 * bell 0)))); [ring|]. apply (line_even_deriv _ (fun x => (x ^ 2 - 1) * bell x) (fun x => - (x * bell x)) 0).
    - intros x. rewrite bell_even. ring.
    - intros x Hx. reflexivity.
    - intros x. unfold bell. auto_derive; [easy|]. cbn [pow]. unfold Rdiv. field.
    - intros x. unfold bell. smooth. easy.
    - pose proof (lim_times _ (-1) _ (bell_tail 1)) as L. replace (-1 * 0) with 0 in L by ring. apply (is_lim_ext _ _ _ _) with (2 := L). intros y. cbv beta. ring. }
  apply (line_value _ (0 + sqrt (2 * PI))); [ring|]. pose proof (line_plus _ _ _ _ G bell_line) as G2. apply (line_ext _ _ _) with (2 := G2). intros x. ring.
Qed.
Lemma bell_4 : line_integral (fun x => x ^ 4 * bell x) (3 * sqrt (2 * PI)).
Proof.
  assert (G : line_integral (fun x => (x ^ 4 - 3 * x ^ 2) * bell x) 0).
  { apply (line_value _ (2 * (0 - - (0 ^ 3 * bell 0)))); [ring|]. apply (line_even_deriv _ (fun x => (x ^ 4 - 3 * x ^ 2) * bell x) (fun x => - (x ^ 3 * bell x)) 0).
    - intros x. rewrite bell_even. ring.
    - intros x Hx. reflexivity.
    - intros x. unfold bell. auto_derive; [easy|]. cbn [pow]. unfold Rdiv. field.
    - intros x. unfold bell. smooth. easy.
    - pose proof (lim_times _ (-1) _ (bell_tail 3)) as L. replace (-1 * 0) with 0 in L by ring. apply (is_lim_ext _ _ _ _) with (2 := L). intros y. cbv beta. ring. }
  apply (line_value _ (0 + 3 * sqrt (2 * PI))); [ring|]. pose proof (line_plus _ _ _ _ G (line_mult 3 _ _ bell_2)) as G2. apply (line_ext _ _ _) with (2 := G2). intros x. ring.
Qed.
Lemma gaus_factor g n c : norm_factor g (Gaussian 4) 1 n = Ok c -> c = sqrt (2 * PI).
Proof.
  assert (Q : forall a b : R, Ok a = Ok b -> a = b) by (intros a b E; now injection E). cbn [norm_factor]. intros E. apply Q in E. rewrite <- E. pose proof PI_RGT_0. change (INR 1) with 1. replace (2 * PI * (4 / 4)) with (2 * PI) by field. replace (1 / 2) with (/ 2) by field. apply Rpower_sqrt. lra.
Qed.
Lemma gaus_2 : line_integral (fun x => x ^ 2 * (bell x / sqrt (2 * PI))) 1.
Proof.
  pose proof PI_RGT_0. assert (S0 : 0 < sqrt (2 * PI)) by (apply sqrt_lt_R0; lra). apply (line_value _ (/ sqrt (2 * PI) * sqrt (2 * PI))); [field; lra|]. pose proof (line_mult (/ sqrt (2 * PI)) _ _ bell_2) as G. apply (line_ext _ _ _) with (2 := G). intros x. unfold Rdiv. ring.
Qed.
Lemma root_2_PI : sqrt (2 * PI) = sqrt 2 * sqrt PI.
Proof. pose proof PI_RGT_0. apply sqrt_mult; lra. Qed.
Lemma bell_sq x : bell x ^ 2 = bell (x / (/ sqrt 2)).
Proof.
  pose proof (sqrt_lt_R0 2 ltac:(lra)) as S2. pose proof (sqrt_sqrt 2 ltac:(lra)) as E2. unfold bell. match goal with |- ?a ^ 2 = _ => replace (a ^ 2) with (a * a) by ring end. rewrite <- exp_plus. apply f_equal. replace (x / / sqrt 2) with (x * sqrt 2) by (field; lra). replace ((x * sqrt 2) ^ 2) with (x * x * (sqrt 2 * sqrt 2)) by ring. rewrite E2. field.
Qed.
Lemma gaus_R : line_integral (fun x => (bell x / sqrt (2 * PI)) ^ 2) (1 / (2 * sqrt PI)).
Proof.
  pose proof PI_RGT_0 as HP. assert (S0 : 0 < sqrt (2 * PI)) by (apply sqrt_lt_R0; lra). assert (S1 : 0 < sqrt PI) by (apply sqrt_lt_R0; lra). pose proof (sqrt_lt_R0 2 ltac:(lra)) as S2. pose proof (sqrt_sqrt 2 ltac:(lra)) as E2.
  pose proof (line_mult (/ sqrt (2 * PI) ^ 2) _ _ (line_scale _ (/ sqrt 2) _ ltac:(now apply Rinv_0_lt_compat) bell_line)) as G.
  apply (line_value _ (/ sqrt (2 * PI) ^ 2 * (/ sqrt 2 * sqrt (2 * PI)))).
  - rewrite root_2_PI. replace (/ (sqrt 2 * sqrt PI) ^ 2 * (/ sqrt 2 * (sqrt 2 * sqrt PI))) with (/ (sqrt 2 * sqrt 2) * / sqrt PI) by (field; lra). rewrite E2. field. lra.
  - apply (line_ext _ _ _) with (2 := G). intros x. cbv beta. rewrite <- bell_sq. unfold Rdiv. rewrite Rpow_mult_distr, pow_inv. ring.
Qed.
Lemma gaus_bend : bending (fun x => bell x / sqrt (2 * PI)) (3 / (8 * sqrt PI)).
Proof.
  pose proof PI_RGT_0 as HP. assert (S0 : 0 < sqrt (2 * PI)) by (apply sqrt_lt_R0; lra). assert (S1 : 0 < sqrt PI) by (apply sqrt_lt_R0; lra). pose proof (sqrt_lt_R0 2 ltac:(lra)) as S2. pose proof (sqrt_sqrt 2 ltac:(lra)) as E2.
  exists (fun x => - x * bell x / sqrt (2 * PI)), (fun x => (x ^ 2 - 1) * bell x / sqrt (2 * PI)), []. split; [|split; [|split]].
  - intros x. unfold bell. auto_derive; [easy|]. cbn [pow]. unfold Rdiv. field. lra.
  - intros x. unfold bell. smooth. easy.
  - intros x _. unfold bell. auto_derive; [easy|]. cbn [pow]. unfold Rdiv. field. lra.
  - pose proof (line_plus _ _ _ _ (line_mult (/ 4) _ _ bell_4) (line_plus _ _ _ _ (line_mult (-1) _ _ bell_2) bell_line)) as G0. assert (I2 : 0 < / sqrt 2) by (now apply Rinv_0_lt_compat). pose proof (line_mult (/ sqrt (2 * PI) ^ 2) _ _ (line_scale _ (/ sqrt 2) _ I2 G0)) as G.
    apply (line_value _ (/ sqrt (2 * PI) ^ 2 * (/ sqrt 2 * (/ 4 * (3 * sqrt (2 * PI)) + (-1 * sqrt (2 * PI) + sqrt (2 * PI)))))).
    + rewrite root_2_PI. replace (/ (sqrt 2 * sqrt PI) ^ 2 * (/ sqrt 2 * (/ 4 * (3 * (sqrt 2 * sqrt PI)) + (-1 * (sqrt 2 * sqrt PI) + sqrt 2 * sqrt PI)))) with (3 / 4 * / (sqrt 2 * sqrt 2) * / sqrt PI) by (field; lra). rewrite E2. field. lra.
    + apply (line_ext _ _ _) with (2 := G). intros x. cbv beta. rewrite <- bell_sq. replace (x / / sqrt 2) with (x * sqrt 2) by (field; lra).
      assert (P2 : (x * sqrt 2) ^ 2 = 2 * x ^ 2) by (replace ((x * sqrt 2) ^ 2) with (x ^ 2 * (sqrt 2 * sqrt 2)) by ring; rewrite E2; ring). assert (P4 : (x * sqrt 2) ^ 4 = 4 * x ^ 4) by (replace ((x * sqrt 2) ^ 4) with (x ^ 4 * (sqrt 2 * sqrt 2) * (sqrt 2 * sqrt 2)) by ring; rewrite E2; ring). rewrite P2, P4. unfold Rdiv. rewrite !Rpow_mult_distr, pow_inv. field. lra.
Qed.
(* logistic *)
Lemma logi_k r x : kernel (Logistic r) [x] = sigm x * (1 - sigm x).
Proof. cbn [kernel map]. unfold prodl. cbn [fold_right]. rewrite Rmult_1_r. apply logi_kernel. Qed.
Lemma logi_2 : line_integral (fun x => x ^ 2 * (sigm x * (1 - sigm x) / 1)) (PI ^ 2 / 3).
Proof. apply (line_ext _ _ _) with (2 := logi_second). intros x. field. Qed.
Lemma logi_R : line_integral (fun x => (sigm x * (1 - sigm x) / 1) ^ 2) (1 / 6).
Proof.
  assert (D : forall u, is_derive (fun u => u ^ 2 / 2 - u ^ 3 / 3) u (u * (1 - u))) by (intros u; auto_derive; [easy|field]). assert (C : forall u, continuous (fun u => u * (1 - u)) u) by (intros u; smooth; easy).
  pose proof (line_logit _ (fun u => u * (1 - u)) D C) as G. apply (line_value _ (1 ^ 2 / 2 - 1 ^ 3 / 3 - (0 ^ 2 / 2 - 0 ^ 3 / 3))); [field|]. apply (line_ext _ _ _) with (2 := G). intros x. cbv beta. field.
Qed.
Lemma logi_bend : bending (fun x => sigm x * (1 - sigm x) / 1) (1 / 42).
Proof.
  exists (fun x => (1 - 2 * sigm x) * (sigm x * (1 - sigm x))), (fun x => (1 - 6 * sigm x + 6 * sigm x ^ 2) * (sigm x * (1 - sigm x))), []. split; [|split; [|split]].
  - intros x. unfold sigm. pose proof (exp_pos x). auto_derive; [repeat split; lra|]. field. lra.
  - intros x. unfold sigm. pose proof (exp_pos x). smooth. repeat split; lra.
  - intros x _. unfold sigm. pose proof (exp_pos x). auto_derive; [repeat split; lra|]. field. lra.
  - assert (D : forall u, is_derive (fun u => u ^ 2 / 2 - 13 * u ^ 3 / 3 + 60 * u ^ 4 / 4 - 120 * u ^ 5 / 5 + 108 * u ^ 6 / 6 - 36 * u ^ 7 / 7) u ((1 - 6 * u + 6 * u ^ 2) ^ 2 * (u * (1 - u)))) by (intros u; auto_derive; [easy|field]). assert (C : forall u, continuous (fun u => (1 - 6 * u + 6 * u ^ 2) ^ 2 * (u * (1 - u))) u) by (intros u; smooth; easy).
    pose proof (line_logit _ (fun u => (1 - 6 * u + 6 * u ^ 2) ^ 2 * (u * (1 - u))) D C) as G. match type of G with line_integral _ ?v => apply (line_value _ v) end; [field|]. apply (line_ext _ _ _) with (2 := G). intros x. cbv beta. ring.
Qed.
(* one side of a derivative *)
Lemma right_side (K P : R -> R) x l a : (forall h, 0 <= h < 1 -> K (x + h) = P (x + h)) -> is_derive K x l -> is_derive P x a -> l = a.
Proof.
  intros E DK DP. destruct (Req_dec l a) as [H|H]; [easy|]. exfalso. assert (He : 0 < Rabs (l - a) / 2) by (apply Rdiv_lt_0_compat; [apply Rabs_pos_lt; lra|lra]). apply is_derive_Reals in DK, DP. destruct (DK _ He) as [d1 H1]. destruct (DP _ He) as [d2 H2]. pose proof (cond_pos d1). pose proof (cond_pos d2).
  set (h := Rmin (1 / 2) (Rmin (d1 / 2) (d2 / 2))). assert (B : 0 < h) by (unfold h; repeat apply Rmin_pos; lra). assert (B1 : h <= 1 / 2) by apply Rmin_l. assert (B2 : h <= d1 / 2) by (eapply Rle_trans; [apply Rmin_r|apply Rmin_l]). assert (B3 : h <= d2 / 2) by (eapply Rle_trans; [apply Rmin_r|apply Rmin_r]).
  specialize (H1 h ltac:(lra) ltac:(rewrite Rabs_right; lra)). specialize (H2 h ltac:(lra) ltac:(rewrite Rabs_right; lra)). pose proof (E 0 ltac:(lra)) as E0. rewrite Rplus_0_r in E0. rewrite E, E0 in H1 by lra. set (u := (P (x + h) - P x) / h) in *. pose proof (Rabs_triang (l - u) (u - a)) as T. replace (l - u + (u - a)) with (l - a) in T by ring. rewrite (Rabs_minus_sym l u) in T. lra.
Qed.
Lemma left_side (K P : R -> R) x l a : (forall h, 0 <= h < 1 -> K (x - h) = P (x - h)) -> is_derive K x l -> is_derive P x a -> l = a.
Proof.
  intros E DK DP.
  assert (M : forall (f : R -> R) l, is_derive f x l -> is_derive (fun y => f (- y)) (- x) (- l)).
  { intros f m D. assert (DO : is_derive (fun y : R => - y) (- x) (-1)) by (auto_derive; [easy|ring]). assert (D' : is_derive f (- - x) m) by (now rewrite Ropp_involutive). pose proof (is_derive_comp f (fun y => - y) (- x) m (-1) D' DO) as G. unfold scal in G. cbn in G. unfold mult in G. cbn in G. replace (- m) with (-1 * m) by ring. exact G. }
  apply M in DK. apply M in DP. enough (- l = - a) by lra. apply (right_side (fun y => K (- y)) (fun y => P (- y)) (- x) (- l) (- a)); [|exact DK|exact DP]. intros h Hh. replace (- (- x + h)) with (x - h) by ring. now apply E.
Qed.
Definition kinked (K : R -> R) : Prop := exists x, ~ exists l, is_derive K x l.
Lemma epan_kink : kinked (fun x => clip 1 x / (4 / 3)).
Proof.
  exists 1. intros [l D].
  assert (l = 0). { apply (right_side _ (fun _ => 0) 1 l 0) with (2 := D); [|apply @is_derive_const]. intros h Hh. cbv beta. unfold clip. rewrite Rmax_left by nra. cbn. field. }
  assert (l = - (3 / 2)). { apply (left_side _ (fun x => 3 / 4 * (1 - x ^ 2)) 1 l (- (3 / 2))) with (2 := D); [|auto_derive; [easy|field]]. intros h Hh. cbv beta. unfold clip. rewrite Rmax_right by nra. field. } lra.
Qed.
Lemma tria_kink : kinked (fun x => tent x / 1).
Proof.
  exists 0. intros [l D].
  assert (l = -1). { apply (right_side _ (fun x => 1 - x) 0 l (-1)) with (2 := D); [|auto_derive; [easy|ring]]. intros h Hh. cbv beta. rewrite Rplus_0_l, tent_in by lra. field. }
  assert (l = 1). { apply (left_side _ (fun x => 1 + x) 0 l 1) with (2 := D); [|auto_derive; [easy|ring]]. intros h Hh. cbv beta. replace (0 - h) with (- h) by ring. rewrite tent_even, tent_in by lra. field. } lra.
Qed.
Lemma lapl_kink : kinked (fun x => exp (- Rabs x) / 2).
Proof.
  exists 0. intros [l D].
  assert (l = - (1 / 2)). { apply (right_side _ (fun x => exp (- x) / 2) 0 l (- (1 / 2))) with (2 := D). - intros h Hh. cbv beta. now rewrite Rplus_0_l, Rabs_right by lra. - auto_derive; [easy|]. rewrite Ropp_0, exp_0. field. }
  assert (l = 1 / 2). { apply (left_side _ (fun x => exp x / 2) 0 l (1 / 2)) with (2 := D). - intros h Hh. cbv beta. replace (0 - h) with (- h) by ring. now rewrite Rabs_Ropp, Rabs_right by lra. - auto_derive; [easy|]. rewrite exp_0. field. } lra.
Qed.
Lemma rect_kink : kinked (fun x => box x / 2).
Proof.
  exists 1. intros [l D].
  assert (C : continuous (fun x => box x / 2) 1) by (apply (ex_derive_continuous (V := R_NormedModule)); now exists l).
  assert (E1 : box 1 = 1) by (unfold box; rewrite Rabs_R1; destruct (Rle_dec 1 1); lra).
  destruct (C (ball (box 1 / 2) (mkposreal (1 / 4) ltac:(lra)))) as [d Hd]; [apply locally_ball|]. pose proof (cond_pos d). assert (HB : ball 1 d (1 + d / 2)). { unfold ball. cbn. unfold AbsRing_ball, abs, minus, plus, opp. cbn. rewrite Rabs_right; lra. }
  specialize (Hd _ HB). unfold ball in Hd. cbn in Hd. unfold AbsRing_ball, abs, minus, plus, opp in Hd. cbn in Hd. rewrite box_out, E1 in Hd by lra. apply Rabs_def2 in Hd. lra.
Qed.
(* the table *)
Lemma lapl_factor g r n c : norm_factor g (Laplace r) 1 n = Ok c -> c = 2.
Proof. cbn [norm_factor]. intros E. injection E as <-. ring. Qed.
Lemma rect_factor g n c : norm_factor g (Rectangular 1) 1 n = Ok c -> c = 2.
Proof. cbn [norm_factor]. intros E. injection E as <-. ring. Qed.
Lemma one_factor g k n c : (exists r, k = Triangular r \/ k = Logistic r) -> norm_factor g k 1 n = Ok c -> c = 1.
Proof. intros [r [-> | ->]]; cbn [norm_factor Nat.eqb]; destruct (Nat.eqb n 0); intros E; try discriminate; now injection E. Qed.
Lemma both_lines (K K' : R -> R) a b : (forall x, K' x = K x) -> line_integral (fun x => x ^ 2 * K x) a -> line_integral (fun x => K x ^ 2) b -> line_integral (fun x => x ^ 2 * K' x) a /\ line_integral (fun x => K' x ^ 2) b.
Proof. intros E H1 H2. split; [apply (line_ext _ _ _) with (2 := H1)|apply (line_ext _ _ _) with (2 := H2)]; intros x; now rewrite E. Qed.
Lemma table g n key k mu2 Rk Rdd name c : log_gamma g -> In (key, (k, (mu2, Rk, Rdd), name)) mkernel_dict -> norm_factor g k 1 n = Ok c ->
  line_integral (fun x => x ^ 2 * (kernel k [x] / c)) mu2 /\ line_integral (fun x => (kernel k [x] / c) ^ 2) Rk.
Proof.
  intros Hg HI HC. unfold mkernel_dict in HI. cbn [In] in HI. unfold stats_epan, stats_biwe, stats_triw, stats_rect, stats_tria, stats_lapl, stats_logi, stats_gaus, st in HI.
  destruct HI as [H|[H|[H|[H|[H|[H|[H|[H|[H|[H|[H|[]]]]]]]]]]]]; inversion H; subst; clear H.
  - rewrite (factor_1 c) by (apply (multi_factor g 1 n c Hg); now left). apply (both_lines (fun x => clip 1 x / (4 / 3))); [intros x; now rewrite clip_multi|exact epan_2|exact epan_R].
  - rewrite (factor_2 c) by (apply (multi_factor g 2 n c Hg); now left). apply (both_lines (fun x => clip 2 x / (16 / 15))); [intros x; now rewrite clip_multi|exact biwe_2|exact biwe_R].
  - rewrite (factor_3 c) by (apply (multi_factor g 3 n c Hg); now left). apply (both_lines (fun x => clip 3 x / (32 / 35))); [intros x; now rewrite clip_multi|exact triw_2|exact triw_R].
  - rewrite (factor_1 c) by (apply (multi_factor g 1 n c Hg); now right). apply (both_lines (fun x => clip 1 x / (4 / 3))); [intros x; now rewrite clip_product|exact epan_2|exact epan_R].
  - rewrite (factor_2 c) by (apply (multi_factor g 2 n c Hg); now right). apply (both_lines (fun x => clip 2 x / (16 / 15))); [intros x; now rewrite clip_product|exact biwe_2|exact biwe_R].
  - rewrite (factor_3 c) by (apply (multi_factor g 3 n c Hg); now right). apply (both_lines (fun x => clip 3 x / (32 / 35))); [intros x; now rewrite clip_product|exact triw_2|exact triw_R].
  - rewrite (rect_factor _ _ _ HC). apply (both_lines (fun x => box x / 2)); [intros x; now rewrite box_kernel|exact rect_2|exact rect_R].
  - rewrite (one_factor g (Triangular 1) n c ltac:(exists 1; now left) HC). apply (both_lines (fun x => tent x / 1)); [intros x; now rewrite tent_kernel|exact tria_2|exact tria_R].
  - rewrite (lapl_factor _ _ _ _ HC). apply (both_lines (fun x => exp (- Rabs x) / 2)); [intros x; now rewrite lapl_kernel|exact lapl_2|exact lapl_R].
  - rewrite (one_factor g (Logistic 7) n c ltac:(exists 7; now right) HC). apply (both_lines (fun x => sigm x * (1 - sigm x) / 1)); [intros x; now rewrite logi_k|exact logi_2|exact logi_R].
  - rewrite (gaus_factor _ _ _ HC). apply (both_lines (fun x => bell x / sqrt (2 * PI))); [intros x; now rewrite gaus_kernel|exact gaus_2|exact gaus_R].
Qed.
Lemma table_bending g n key k mu2 Rk v name c : log_gamma g -> In (key, (k, (mu2, Rk, Some v), name)) mkernel_dict -> norm_factor g k 1 n = Ok c -> bending (fun x => kernel k [x] / c) v.
Proof.
  intros Hg HI HC. unfold mkernel_dict in HI. cbn [In] in HI. unfold stats_epan, stats_biwe, stats_triw, stats_rect, stats_tria, stats_lapl, stats_logi, stats_gaus, st in HI.
  destruct HI as [H|[H|[H|[H|[H|[H|[H|[H|[H|[H|[H|[]]]]]]]]]]]]; try discriminate; inversion H; subst; clear H.
  - rewrite (factor_2 c) by (apply (multi_factor g 2 n c Hg); now left). apply (bend_value (fun x => clip 2 x / (16 / 15))); [intros x; now rewrite clip_multi|exact biwe_bend].
  - rewrite (factor_2 c) by (apply (multi_factor g 2 n c Hg); now right). apply (bend_value (fun x => clip 2 x / (16 / 15))); [intros x; now rewrite clip_product|exact biwe_bend].
  - rewrite (one_factor g (Logistic 7) n c ltac:(exists 7; now right) HC). apply (bend_value (fun x => sigm x * (1 - sigm x) / 1)); [intros x; now rewrite logi_k|exact logi_bend].
  - rewrite (gaus_factor _ _ _ HC). apply (bend_value (fun x => bell x / sqrt (2 * PI))); [intros x; now rewrite gaus_kernel|exact gaus_bend].
Qed.
Lemma kink_value (K K' : R -> R) : (forall x, K x = K' x) -> kinked K -> kinked K'.
Proof. intros E (x & N). exists x. intros [l D]. apply N. exists l. apply (is_derive_ext K'); [intros y; symmetry; apply E|exact D]. Qed.
Lemma table_none g n key k mu2 Rk name c : log_gamma g -> In (key, (k, (mu2, Rk, None), name)) mkernel_dict -> norm_factor g k 1 n = Ok c -> ~ In key ["triw"; "p1tr"]%string -> exists x, ~ exists l, is_derive (fun x => kernel k [x] / c) x l.
Proof.
  intros Hg HI HC HN. change (kinked (fun x => kernel k [x] / c)). unfold mkernel_dict in HI. cbn [In] in HI. unfold stats_epan, stats_biwe, stats_triw, stats_rect, stats_tria, stats_lapl, stats_logi, stats_gaus, st in HI.
  destruct HI as [H|[H|[H|[H|[H|[H|[H|[H|[H|[H|[H|[]]]]]]]]]]]]; try discriminate; inversion H; subst; clear H.
  - rewrite (factor_1 c) by (apply (multi_factor g 1 n c Hg); now left). apply (kink_value (fun x => clip 1 x / (4 / 3))); [intros x; now rewrite clip_multi|exact epan_kink].
  - exfalso. apply HN. now left.
  - rewrite (factor_1 c) by (apply (multi_factor g 1 n c Hg); now right). apply (kink_value (fun x => clip 1 x / (4 / 3))); [intros x; now rewrite clip_product|exact epan_kink].
  - exfalso. apply HN. right. now left.
  - rewrite (rect_factor _ _ _ HC). apply (kink_value (fun x => box x / 2)); [intros x; now rewrite box_kernel|exact rect_kink].
  - rewrite (one_factor g (Triangular 1) n c ltac:(exists 1; now left) HC). apply (kink_value (fun x => tent x / 1)); [intros x; now rewrite tent_kernel|exact tria_kink].
  - rewrite (lapl_factor _ _ _ _ HC). apply (kink_value (fun x => exp (- Rabs x) / 2)); [intros x; now rewrite lapl_kernel|exact lapl_kink].
Qed.
Lemma triw_refuted g n : log_gamma g -> exists key k mu2 Rk name c, In (key, (k, (mu2, Rk, None), name)) mkernel_dict /\ norm_factor g k 1 n = Ok c /\ bending (fun x => kernel k [x] / c) 35.
Proof.
  intros Hg. assert (EX : exists c, norm_factor g (Multi 3 1) 1 n = Ok c) by (eexists; reflexivity). destruct EX as [c HC]. exists "triw"%string, (Multi 3 1), (1 / 9), (350 / 429), "triweight"%string, c. split; [cbn; tauto|]. split; [exact HC|].
  rewrite (factor_3 c) by (apply (multi_factor g 3 n c Hg); now left). apply (bend_value (fun x => clip 3 x / (32 / 35))); [intros x; now rewrite clip_multi|exact triw_bend].
Qed.
