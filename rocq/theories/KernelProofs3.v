From Coq Require Import Reals Lra Lia List Bool Psatz.
From Coquelicot Require Import Coquelicot.
From Verif Require Import Base PolyModel KdeModel SeaModel SeaSpec SeaProofs SeaProofs2 SeaProofs3 SeaCases SpreadModel SpreadSpec CosPow GammaProofs KernelModel KernelSpec SpreadProofs SpreadProofs2 SpreadProofs4 KernelProofs KernelProofs2.
Import ListNotations.
Local Open Scope R_scope.

Lemma area_opp (f : R -> R) a b l : area f (- a) (- b) l -> area (fun x => f (- x)) a b (- l).
Proof.
  intros H. pose proof (@is_RInt_comp_opp R_NormedModule f a b l H) as G. apply (area_mult _ (-1)) in G. change (opp) with Ropp in G. replace (-1 * l) with (- l) in G by ring. apply (area_eq _ _ _ _ _) with (2 := G). intros x. ring.
Qed.
Lemma line_even (f : R -> R) (l : R) : (forall x, f (- x) = f x) -> (forall W, 0 <= W -> ex_RInt f 0 W) -> is_lim (fun W => RInt f 0 W) p_infty l -> line_integral f (2 * l).
Proof.
  intros HE HX HL.
  assert (A : forall W, 0 <= W -> area f 0 W (RInt f 0 W)) by (intros W HW; apply (@RInt_correct R_CompleteNormedModule); now apply HX).
  assert (B : forall W, 0 <= W -> area f (- W) 0 (RInt f 0 W)).
  { intros W HW. pose proof (area_opp f (- W) 0 (- RInt f 0 W)) as G. rewrite !Ropp_involutive, Ropp_0 in G. specialize (G (@is_RInt_swap R_NormedModule f W 0 _ (A W HW))). apply (area_eq _ _ _ _ _) with (2 := G). apply HE. }
  assert (E0 : forall x, ex_RInt f 0 x). { intros x. destruct (Rle_dec 0 x) as [H|H]; [now apply HX|]. apply ex_RInt_swap. exists (RInt f 0 (- x)). replace x with (- - x) at 1 by ring. apply B. lra. }
  split.
  - intros a b. apply (ex_RInt_Chasles f a 0 b); [apply ex_RInt_swap; apply E0|apply E0].
  - apply (is_lim_ext_loc (fun W => 2 * RInt f 0 W)).
    + exists 0. intros W HW. symmetry. apply is_RInt_unique. replace (2 * RInt f 0 W) with (RInt f 0 W + RInt f 0 W) by ring. apply (area_split f (- W) 0 W); [apply B|apply A]; lra.
    + apply (is_lim_scal_l _ 2 p_infty l HL).
Qed.
Lemma line_even_deriv (f f' F : R -> R) (L : R) : (forall x, f (- x) = f x) -> (forall x, 0 < x -> f' x = f x) -> (forall x, is_derive F x (f' x)) -> (forall x, continuous f' x) -> is_lim F p_infty L -> line_integral f (2 * (L - F 0)).
Proof.
  intros HE Hf D C HL. assert (A : forall W, 0 <= W -> area f 0 W (F W - F 0)). { intros W HW. apply (area_ext_in f'); [easy|intros x Hx; apply Hf; lra|]. now apply area_deriv. }
  apply line_even; [easy|intros W HW; eexists; now apply A|]. apply (is_lim_ext_loc (fun W => F W - F 0)).
  - exists 0. intros W HW. symmetry. apply area_unique. apply A. lra.
  - apply (is_lim_minus' F (fun _ => F 0) p_infty L (F 0) HL). apply is_lim_const.
Qed.
Lemma exp_tail n : is_lim (fun y => y ^ n * exp (- y)) p_infty 0.
Proof.
  apply is_lim_spec. intros eps. destruct (tail_small (INR n + 1) eps) as (K & HK & H); [pose proof (pos_INR n); lra|apply cond_pos|]. exists (Rmax K 1). intros y Hy. pose proof (Rmax_l K 1). pose proof (Rmax_r K 1). specialize (H y ltac:(lra)).
  rewrite Rminus_0_r, Rabs_right by (apply Rle_ge, Rmult_le_pos; [apply pow_le; lra|left; apply exp_pos]). eapply Rle_lt_trans; [|exact H]. apply Rmult_le_compat_r; [left; apply exp_pos|]. rewrite Rpower_plus, Rpower_1, Rpower_pow by lra.
  rewrite <- (Rmult_1_r (y ^ n)) at 1. apply Rmult_le_compat_l; [apply pow_le|]; lra.
Qed.
(* Laplace *)
Lemma lapl_line : line_integral (fun v => exp (- Rabs v)) 2.
Proof.
  replace 2 with (2 * (0 - - exp (- 0))) by (rewrite Ropp_0, exp_0; ring). apply (line_even_deriv _ (fun x => exp (- x)) (fun x => - exp (- x)) 0).
  - intros x. now rewrite Rabs_Ropp.
  - intros x Hx. now rewrite Rabs_right by lra.
  - intros x. auto_derive; [easy|ring].
  - intros x. smooth. easy.
  - pose proof (exp_tail 0) as E. apply (is_lim_scal_l _ (-1) p_infty 0) in E. cbn in E. rewrite Rmult_0_r in E. apply (is_lim_ext _ _ _ _) with (2 := E). intros y. ring.
Qed.
Lemma lapl_prod v : exp (- npsum (map Rabs v)) = prodl (map (fun v => exp (- Rabs v)) v).
Proof. induction v as [|a v IH]; unfold npsum, prodl in *; cbn [map fold_right]; [now rewrite Ropp_0, exp_0|]. rewrite <- IH, <- exp_plus. f_equal. ring. Qed.
Lemma lapl_one g r d n c : norm_factor g (Laplace r) d n = Ok c -> space_integral d (fun v => kernel (Laplace r) v / c) 1.
Proof. intros E. cbn [norm_factor] in E. injection E as <-. exact (space_factor _ _ 2 d _ lapl_line Rlt_0_2 eq_refl (fun v _ => lapl_prod v)). Qed.
(* logistic *)
Definition sigm (x : R) : R := exp x / (exp x + 1).
Lemma sigm_opp x : sigm (- x) = 1 - sigm x.
Proof. unfold sigm. rewrite exp_Ropp. pose proof (exp_pos x). field. lra. Qed.
Lemma sigm_lim : is_lim sigm p_infty 1.
Proof.
  assert (E : is_lim (fun x => 1 - / (exp x + 1)) p_infty 1).
  { replace (Finite 1) with (Finite (1 - 0)) by (f_equal; ring). apply (is_lim_minus' (fun _ => 1) (fun x => / (exp x + 1)) p_infty 1 0); [apply is_lim_const|]. replace (Finite 0) with (Rbar_inv p_infty) by reflexivity. apply is_lim_inv; [|easy].
    replace p_infty with (Rbar_plus p_infty 1) at 2 by reflexivity. apply (is_lim_plus _ _ _ p_infty 1); [apply is_lim_exp_p|apply is_lim_const|easy]. }
  apply (is_lim_ext _ _ _ _) with (2 := E). intros x. unfold sigm. pose proof (exp_pos x). field. lra.
Qed.
Lemma sigm_derive x : is_derive sigm x (sigm x * (1 - sigm x)).
Proof. unfold sigm. pose proof (exp_pos x). auto_derive; [lra|]. field. lra. Qed.
Lemma logi_kernel x : exp x / (exp x + 1) ^ 2 = sigm x * (1 - sigm x).
Proof. unfold sigm. pose proof (exp_pos x). field. lra. Qed.
Lemma line_logit (P p : R -> R) : (forall u, is_derive P u (p u)) -> (forall u, continuous p u) -> line_integral (fun x => p (sigm x) * (sigm x * (1 - sigm x))) (P 1 - P 0).
Proof.
  intros D C. assert (CS : forall x, continuous sigm x) by (intros x; apply (ex_derive_continuous (V := R_NormedModule)); eexists; apply sigm_derive).
  assert (A : forall a b, area (fun x => p (sigm x) * (sigm x * (1 - sigm x))) a b (P (sigm b) - P (sigm a))).
  { intros a b. apply (area_deriv (fun x => P (sigm x)) (fun x => p (sigm x) * (sigm x * (1 - sigm x)))).
    - intros x. pose proof (is_derive_comp P sigm x _ _ (D (sigm x)) (sigm_derive x)) as G. unfold scal in G. cbn in G. unfold mult in G. cbn in G. rewrite Rmult_comm. exact G.
    - intros x. apply (continuous_mult (fun x => p (sigm x)) (fun x => sigm x * (1 - sigm x))); [apply continuous_comp; [apply CS|apply C]|]. apply (continuous_mult sigm (fun x => 1 - sigm x)); [apply CS|]. apply (continuous_minus (fun _ => 1) sigm); [apply continuous_const|apply CS]. }
  split; [intros a b; eexists; apply A|]. apply (is_lim_ext (fun W => P (sigm W) - P (1 - sigm W))).
  - intros W. symmetry. apply is_RInt_unique. rewrite <- sigm_opp. apply A.
  - assert (CP : forall u, continuous P u) by (intros u; apply (ex_derive_continuous (V := R_NormedModule)); eexists; apply D).
    apply (is_lim_minus' _ _ p_infty (P 1) (P 0)).
    + apply (is_lim_comp_continuous sigm P p_infty 1 sigm_lim). apply CP.
    + apply (is_lim_comp_continuous (fun W => 1 - sigm W) P p_infty 0); [|apply CP]. replace (Finite 0) with (Finite (1 - 1)) by (f_equal; ring). apply (is_lim_minus' (fun _ => 1) sigm p_infty 1 1); [apply is_lim_const|apply sigm_lim].
Qed.
Lemma logi_line : line_integral (fun v => let s := exp v in s / (s + 1) ^ 2) 1.
Proof.
  pose proof (line_logit (fun u => u) (fun _ => 1) ltac:(intros u; auto_derive; easy) ltac:(intros u; apply continuous_const)) as G. cbv beta in G. replace (1 - 0) with 1 in G by ring. apply (line_ext _ _ _) with (2 := G). intros x. cbv zeta. rewrite logi_kernel. ring.
Qed.
Lemma logi_one g r d n c : norm_factor g (Logistic r) d n = Ok c -> space_integral d (fun v => kernel (Logistic r) v / c) 1.
Proof.
  intros E. cbn in E. destruct (Nat.eqb d 0); [discriminate|]. destruct (Nat.eqb n 0); [discriminate|]. injection E as <-. pose proof (space_factor _ _ 1 d (kernel (Logistic r)) logi_line Rlt_0_1 eq_refl (fun v _ => eq_refl)) as G. rewrite pow1 in G. exact G.
Qed.
(* Gauss *)
Definition bell (u : R) : R := exp (- (u ^ 2 / 2)).
Lemma bell_cont u : continuous bell u.
Proof. unfold bell. smooth. easy. Qed.
Lemma bell_ex a b : ex_RInt bell a b.
Proof. apply (@ex_RInt_continuous R_CompleteNormedModule). intros; apply bell_cont. Qed.
Lemma bell_euler a W : 0 < a -> a <= W -> RInt (euler (1 / 2)) (a ^ 2 / 2) (W ^ 2 / 2) = sqrt 2 * RInt bell a W.
Proof.
  intros Ha HW. assert (C : is_RInt (fun y => scal y (euler (1 / 2) (y ^ 2 / 2))) a W (RInt (euler (1 / 2)) (a ^ 2 / 2) (W ^ 2 / 2))).
  { apply (@is_RInt_comp R_CompleteNormedModule (euler (1 / 2)) (fun y => y ^ 2 / 2) (fun y => y) a W).
    - intros x Hx. rewrite Rmin_left in Hx by easy. apply euler_continuous. apply Rdiv_lt_0_compat; [apply pow_lt|]; lra.
    - intros x _. split; [auto_derive; [easy|unfold one; cbn; lra]|]. apply continuous_id. }
  symmetry. assert (G : area (fun y => sqrt 2 * bell y) a W (RInt (euler (1 / 2)) (a ^ 2 / 2) (W ^ 2 / 2))).
  { apply (area_ext_in (fun y => scal y (euler (1 / 2) (y ^ 2 / 2)))); [easy| |exact C]. intros x Hx. unfold scal. cbn -[euler pow]. unfold mult. cbn -[euler pow]. unfold euler, bell. replace (1 / 2 - 1) with (- / 2) by field. rewrite Rpower_Ropp, Rpower_sqrt by (apply Rdiv_lt_0_compat; [apply pow_lt|]; lra).
    rewrite sqrt_div_alt by lra. rewrite sqrt_pow2 by lra. pose proof (sqrt_lt_R0 2 ltac:(lra)). field. lra. }
  rewrite <- (area_unique _ _ _ _ G). symmetry. apply area_unique. apply area_mult. apply (@RInt_correct R_CompleteNormedModule). apply bell_ex.
Qed.
Lemma bell_half g : log_gamma g -> is_lim (fun W => RInt bell 0 W) p_infty (sqrt PI / sqrt 2).
Proof.
  intros Hg. pose proof PI_RGT_0 as HP. pose proof (sqrt_lt_R0 2 ltac:(lra)) as S2. apply is_lim_spec. intros eps. set (e := pos eps / 2). assert (He : 0 < e) by (unfold e; pose proof (cond_pos eps); lra).
  destruct (euler_limits g (1 / 2) e Hg ltac:(lra) He) as (d & K & Hd & HK & H). set (a := Rmin 1 (Rmin d e) / 2). assert (B0 : 0 < Rmin 1 (Rmin d e)) by (repeat apply Rmin_pos; lra).
  assert (B1 : Rmin 1 (Rmin d e) <= 1) by apply Rmin_l. assert (B2 : Rmin 1 (Rmin d e) <= d) by (eapply Rle_trans; [apply Rmin_r|apply Rmin_l]). assert (B3 : Rmin 1 (Rmin d e) <= e) by (eapply Rle_trans; [apply Rmin_r|apply Rmin_r]).
  exists (2 * K + 2). intros W HW. assert (Ha : 0 < a) by (unfold a; lra). assert (Ha1 : a <= 1 / 2) by (unfold a; lra). assert (Had : a < d) by (unfold a; lra). assert (Hae : a <= e / 2) by (unfold a; lra).
  assert (X1 : 0 < a ^ 2 / 2 < d) by (split; [apply Rdiv_lt_0_compat; [apply pow_lt|]; lra|nra]). assert (X2 : K < W ^ 2 / 2) by nra. specialize (H _ _ X1 X2). rewrite bell_euler in H by lra. rewrite (gamma_half g Hg) in H.
  assert (I0 : 0 <= RInt bell 0 a <= a). { split; [apply RInt_ge_0; [lra|apply bell_ex|intros; left; apply exp_pos]|]. replace a with (RInt (fun _ => 1) 0 a) at 2. 2:{ apply area_unique. pose proof (const_area 0 a 1) as G. replace ((a - 0) * 1) with a in G by ring. exact G. }
    apply RInt_le; [lra|apply bell_ex|eexists; apply const_area|]. intros x Hx. unfold bell. apply Rle_trans with (exp 0); [|rewrite exp_0; lra]. apply exp_le. nra. }
  assert (IC : RInt bell 0 W = RInt bell 0 a + RInt bell a W). { symmetry. apply (RInt_Chasles bell 0 a W); apply bell_ex. } rewrite IC. clear IC.
  assert (Sb : 1 <= sqrt 2) by (rewrite <- sqrt_1 at 1; apply sqrt_le_1; lra). set (I := RInt bell a W) in *. set (J := RInt bell 0 a) in *.
  replace (J + I - sqrt PI / sqrt 2) with (J + (sqrt 2 * I - sqrt PI) / sqrt 2) by (field; lra).
  assert (Q : Rabs ((sqrt 2 * I - sqrt PI) / sqrt 2) < e). { unfold Rdiv. rewrite Rabs_mult, (Rabs_right (/ sqrt 2)) by (left; now apply Rinv_0_lt_compat). assert (HI : / sqrt 2 <= 1) by (rewrite <- Rinv_1; apply Rinv_le_contravar; lra). pose proof (Rabs_pos (sqrt 2 * I - sqrt PI)). pose proof (Rinv_0_lt_compat _ S2). nra. }
  apply Rabs_def2 in Q. assert (EE : pos eps = 2 * e) by (unfold e; field). rewrite EE. apply Rabs_def1; lra.
Qed.
Lemma bell_line : line_integral bell (sqrt (2 * PI)).
Proof.
  pose proof PI_RGT_0 as HP. pose proof (sqrt_lt_R0 2 ltac:(lra)) as S2. replace (sqrt (2 * PI)) with (2 * (sqrt PI / sqrt 2)). 2:{ rewrite sqrt_mult by lra. rewrite <- (sqrt_sqrt 2) at 1 by lra. field. lra. }
  apply line_even; [|intros; apply bell_ex|apply (bell_half gammaln_real gammaln_real_ok)]. intros x. unfold bell. f_equal. field.
Qed.
Lemma gaus_line s : 0 < s -> line_integral (fun v => exp (- (1 / 2) * (v / s) ^ 2)) (s * sqrt (2 * PI)).
Proof. intros Hs. pose proof (line_scale _ s _ Hs bell_line) as G. apply (line_ext _ _ _) with (2 := G). intros x. unfold bell. f_equal. field. lra. Qed.
Lemma gaus_prod s v : exp (- (1 / 2) * npsum (map (fun v => (v / s) ^ 2) v)) = prodl (map (fun v => exp (- (1 / 2) * (v / s) ^ 2)) v).
Proof. induction v as [|a v IH]; unfold npsum, prodl in *; cbn [map fold_right]; [now rewrite Rmult_0_r, exp_0|]. rewrite <- IH, <- exp_plus. f_equal. ring. Qed.
Lemma gaus_one g d n c : norm_factor g (Gaussian 4) d n = Ok c -> space_integral d (fun v => kernel (Gaussian 4) v / c) 1.
Proof.
  intros E. cbn [norm_factor] in E. injection E as <-. pose proof PI_RGT_0 as HP. replace (2 * PI * (4 / 4)) with (2 * PI) by field.
  assert (EC : Rpower (2 * PI) (INR d / 2) = (4 / 4 * sqrt (2 * PI)) ^ d). { replace (4 / 4 * sqrt (2 * PI)) with (sqrt (2 * PI)) by field. rewrite <- (Rpower_sqrt (2 * PI)) by lra. rewrite <- Rpower_pow by apply exp_pos. rewrite Rpower_mult. f_equal. field. }
  rewrite EC. assert (HC : 0 < 4 / 4 * sqrt (2 * PI)) by (apply Rmult_lt_0_compat; [lra|apply sqrt_lt_R0; lra]). exact (space_factor _ _ _ d _ (gaus_line (4 / 4) ltac:(lra)) HC eq_refl (fun v _ => gaus_prod (4 / 4) v)).
Qed.
(* the factor of the Gaussian class is right for the radius 4 only *)
Lemma gaus_radius g r n : 0 < r -> r <> 4 -> exists c l, norm_factor g (Gaussian r) 1 n = Ok c /\ space_integral 1 (fun v => kernel (Gaussian r) v / c) l /\ l <> 1.
Proof.
  intros Hr Hr4. pose proof PI_RGT_0 as HP. set (s := r / 4). assert (Hs : 0 < s) by (unfold s; lra). exists (Rpower (2 * PI * s) (1 / 2)), (sqrt s).
  assert (EC : Rpower (2 * PI * s) (1 / 2) = sqrt (2 * PI) * sqrt s). { replace (1 / 2) with (/ 2) by field. rewrite Rpower_sqrt by (apply Rmult_lt_0_compat; lra). rewrite sqrt_mult by lra. reflexivity. }
  assert (S1 : 0 < sqrt (2 * PI)) by (apply sqrt_lt_R0; lra). assert (S3 : 0 < sqrt s) by (now apply sqrt_lt_R0). assert (S4 : sqrt s * sqrt s = s) by (apply sqrt_sqrt; lra).
  split; [reflexivity|]. split.
  - rewrite EC. exists (fun x => exp (- (1 / 2) * (x / s) ^ 2) / (sqrt (2 * PI) * sqrt s)). split.
    + intros x. cbn [space_integral kernel map]. fold s. unfold npsum. cbn [fold_right]. rewrite Rplus_0_r. reflexivity.
    + pose proof (line_mult (/ (sqrt (2 * PI) * sqrt s)) _ _ (gaus_line s Hs)) as G. replace (/ (sqrt (2 * PI) * sqrt s) * (s * sqrt (2 * PI))) with (sqrt s) in G. 2:{ transitivity (/ (sqrt (2 * PI) * sqrt s) * (sqrt s * sqrt s * sqrt (2 * PI))); [field; lra|now rewrite S4]. } apply (line_ext _ _ _) with (2 := G). intros x. unfold Rdiv. ring.
  - intros E. rewrite E in S4. unfold s in S4. lra.
Qed.
