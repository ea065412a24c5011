From Coq Require Import Reals Lra Lia.
From Coquelicot Require Import Coquelicot.
From Verif Require Import Base SpreadModel SeaModel SeaSpec SeaProofs SeaProofs2 SeaProofs3 SeaProofs4 SeaCases GammaProofs.
Local Open Scope R_scope.



Lemma pw_pos b e : 0 < b -> pw b e = Rpower b e.
Proof. intros Hb. unfold pw. destruct (Req_EM_T e 0) as [->|]; [now rewrite Rpower_O|]. destruct (Rlt_dec 0 b); [easy|lra]. Qed.
Lemma pw_nonneg b e : 0 <= pw b e.
Proof. unfold pw. destruct (Req_EM_T e 0); [lra|]. destruct (Rlt_dec 0 b); [left; apply exp_pos|lra]. Qed.
Lemma pw_0 b : pw b 0 = 1.
Proof. unfold pw. now destruct (Req_EM_T 0 0). Qed.
Lemma pw_neg b e : e <> 0 -> b <= 0 -> pw b e = 0.
Proof. intros He Hb. unfold pw. destruct (Req_EM_T e 0); [lra|]. destruct (Rlt_dec 0 b); [lra|easy]. Qed.
Lemma pw_deriv b e : 1 < e -> is_derive (fun x => pw x e) b (e * pw b (e - 1)).
Proof.
  intros He. destruct (Rtotal_order b 0) as [N|[->|P]].
  - rewrite (pw_neg b (e - 1)) by lra. rewrite Rmult_0_r. apply (is_derive_ext_loc (fun _ => 0)).
    + exists (mkposreal (- b) ltac:(lra)). intros y Hy. change (Rabs (y - b) < - b) in Hy. apply Rabs_def2 in Hy. symmetry. apply pw_neg; lra.
    + apply (@is_derive_const R_AbsRing R_NormedModule).
  - rewrite (pw_neg 0 (e - 1)) by lra. rewrite Rmult_0_r. apply is_derive_Reals. intros eps Heps.
    destruct (pow_small (e - 1) eps ltac:(lra) Heps) as (d & Hd & Hs). exists (mkposreal d Hd). intros h Hh Hl. cbn in Hl. rewrite Rplus_0_l, (pw_neg 0 e) by lra.
    destruct (Rlt_dec 0 h) as [L|L].
    + rewrite pw_pos by easy. rewrite Rabs_right in Hl by lra. replace ((Rpower h e - 0) / h - 0) with (Rpower h (e - 1)).
      * rewrite Rabs_right by (left; apply exp_pos). apply Hs. lra.
      * replace e with (e - 1 + 1) at 2 by ring. rewrite Rpower_plus, Rpower_1 by easy. field. lra.
    + rewrite pw_neg by lra. replace ((0 - 0) / h - 0) with 0 by (field; lra). now rewrite Rabs_R0.
  - apply (is_derive_ext_loc (fun x => Rpower x e)).
    + exists (mkposreal b P). intros y Hy. change (Rabs (y - b) < b) in Hy. apply Rabs_def2 in Hy. symmetry. apply pw_pos. lra.
    + rewrite pw_pos by easy. unfold Rpower. auto_derive; [lra|]. replace ((e - 1) * ln b) with (e * ln b + - ln b) by ring. rewrite exp_plus, exp_Ropp, exp_ln by easy. field. lra.
Qed.
Lemma pw_continuous (b e : R) : 0 <= e -> continuous (fun x => pw x e) b.
Proof.
  intros He. destruct (Req_EM_T e 0) as [->|Hn].
  - apply (continuous_ext (fun _ => 1)); [intros; now rewrite pw_0|]. apply continuous_const.
  - assert (HE : 0 < e) by lra. destruct (Rtotal_order b 0) as [N|[->|P]].
    + apply (continuous_ext_loc _ (fun _ => 0)); [|apply continuous_const]. exists (mkposreal (- b) ltac:(lra)). intros y Hy. change (Rabs (y - b) < - b) in Hy. apply Rabs_def2 in Hy. symmetry. apply pw_neg; lra.
    + unfold continuous. apply filterlim_locally. intros eps. destruct (pow_small e eps HE (cond_pos eps)) as (d & Hd & Hs). exists (mkposreal d Hd). intros h Hh. change (Rabs (h - 0) < d) in Hh.
      change (Rabs (pw h e - pw 0 e) < eps). rewrite (pw_neg 0 e) by lra. rewrite Rminus_0_r in *. destruct (Rlt_dec 0 h) as [L|L].
      * rewrite pw_pos by easy. rewrite Rabs_right by (left; apply exp_pos). apply Hs. rewrite Rabs_right in Hh by lra. lra.
      * rewrite pw_neg by lra. rewrite Rabs_R0. apply cond_pos.
    + apply (continuous_ext_loc _ (fun x => Rpower x e)).
      * exists (mkposreal b P). intros y Hy. change (Rabs (y - b) < b) in Hy. apply Rabs_def2 in Hy. symmetry. apply pw_pos. lra.
      * apply (ex_derive_continuous (V := R_NormedModule)). unfold Rpower. auto_derive. easy.
Qed.
Lemma half_cos t : - PI <= t <= PI -> 0 <= cos (t / 2).
Proof. intros Ht. apply cos_ge_0; lra. Qed.
(* the integral of a power of cos(t/2) *)
Definition cosint (s : R) : R := RInt (fun t => pw (cos (t / 2)) (2 * s)) (- PI) PI.
Lemma cospow_continuous (s t : R) : 0 <= s -> continuous (fun t => pw (cos (t / 2)) (2 * s)) t.
Proof.
  intros Hs. apply (continuous_comp (fun t => cos (t / 2)) (fun x => pw x (2 * s))).
  - apply (ex_derive_continuous (V := R_NormedModule)). auto_derive. easy.
  - apply pw_continuous. lra.
Qed.
Lemma cosint_is s : 0 <= s -> area (fun t => pw (cos (t / 2)) (2 * s)) (- PI) PI (cosint s).
Proof. intros Hs. apply (@RInt_correct R_CompleteNormedModule). apply (@ex_RInt_continuous R_CompleteNormedModule). intros. now apply cospow_continuous. Qed.
Lemma cosint_step s : 0 <= s -> (s + 1) * cosint (s + 1) = (s + 1 / 2) * cosint s.
Proof.
  intros Hs. pose proof PI_RGT_0 as HP.
  assert (D : is_RInt (fun t => (s + 1) * pw (cos (t / 2)) (2 * (s + 1)) - (s + 1 / 2) * pw (cos (t / 2)) (2 * s)) (- PI) PI
    (minus (sin (PI / 2) * pw (cos (PI / 2)) (2 * s + 1)) (sin (- PI / 2) * pw (cos (- PI / 2)) (2 * s + 1)))).
  { destruct (Req_EM_T s 0) as [->|Hn].
    - rewrite cos_PI2. replace (- PI / 2) with (- (PI / 2)) by field. rewrite cos_neg, cos_PI2. rewrite (pw_neg 0) by lra. rewrite !Rmult_0_r.
      pose proof (@is_RInt_derive R_CompleteNormedModule (fun t => sin (t / 2) * cos (t / 2)) (fun t => cos (t / 2) ^ 2 - 1 / 2) (- PI) PI) as G. cbv beta in G.
      replace (- PI / 2) with (- (PI / 2)) in G by field. rewrite cos_neg, cos_PI2, !Rmult_0_r in G. apply (is_RInt_ext (fun t => cos (t / 2) ^ 2 - 1 / 2)).
      + intros t Ht. rewrite Rmin_left, Rmax_right in Ht by lra. rewrite ?(Rmult_0_r 2), ?pw_0. assert (0 < cos (t / 2)) by (apply cos_gt_0; lra). rewrite pw_pos by easy.
        replace (2 * (0 + 1)) with (INR 2) by (simpl; ring). rewrite Rpower_pow by easy. change (@eq R (cos (t / 2) ^ 2 - 1 / 2) ((0 + 1) * cos (t / 2) ^ 2 - (0 + 1 / 2) * 1)). field.
      + apply G.
        * intros t _. auto_derive; [easy|]. pose proof (sin2_cos2 (t / 2)) as Q. unfold Rsqr in Q. unfold Rdiv in *. nra.
        * intros t _. apply (ex_derive_continuous (V := R_NormedModule)). auto_derive. easy.
    - apply (@is_RInt_derive R_CompleteNormedModule (fun t => sin (t / 2) * pw (cos (t / 2)) (2 * s + 1))).
      + intros t Ht. rewrite Rmin_left, Rmax_right in Ht by lra.
        assert (D1 : is_derive (fun t => sin (t / 2)) t (cos (t / 2) / 2)) by (auto_derive; [easy|unfold Rdiv; ring]).
        assert (D0 : is_derive (fun t => cos (t / 2)) t (- (sin (t / 2) / 2))) by (auto_derive; [easy|unfold Rdiv; ring]).
        assert (D2 : is_derive (fun t => pw (cos (t / 2)) (2 * s + 1)) t (- (sin (t / 2) / 2) * ((2 * s + 1) * pw (cos (t / 2)) (2 * s)))).
        { pose proof (pw_deriv (cos (t / 2)) (2 * s + 1) ltac:(lra)) as Q. replace (2 * s + 1 - 1) with (2 * s) in Q by ring. exact (is_derive_comp (fun x => pw x (2 * s + 1)) (fun t => cos (t / 2)) t _ _ Q D0). }
        pose proof (is_derive_mult _ _ _ _ _ D1 D2 (fun a b => Rmult_comm a b)) as D3.
        assert (E : plus (mult (cos (t / 2) / 2) (pw (cos (t / 2)) (2 * s + 1))) (mult (sin (t / 2)) (- (sin (t / 2) / 2) * ((2 * s + 1) * pw (cos (t / 2)) (2 * s))))
          = (s + 1) * pw (cos (t / 2)) (2 * (s + 1)) - (s + 1 / 2) * pw (cos (t / 2)) (2 * s)); [|rewrite <- E; exact D3].
        change (@eq R (cos (t / 2) / 2 * pw (cos (t / 2)) (2 * s + 1) + sin (t / 2) * (- (sin (t / 2) / 2) * ((2 * s + 1) * pw (cos (t / 2)) (2 * s)))) ((s + 1) * pw (cos (t / 2)) (2 * (s + 1)) - (s + 1 / 2) * pw (cos (t / 2)) (2 * s))).
        pose proof (half_cos t Ht) as HC. set (b := cos (t / 2)) in *. pose proof (sin2_cos2 (t / 2)) as Q. unfold Rsqr in Q. fold b in Q. set (sn := sin (t / 2)) in *.
        destruct HC as [HC|HC].
        * rewrite !pw_pos by easy. replace (2 * (s + 1)) with (2 * s + 1 + 1) by ring. rewrite !Rpower_plus, !Rpower_1 by easy. set (u := Rpower b (2 * s)). replace (sn * (- (sn / 2) * ((2 * s + 1) * u))) with (- (sn * sn) * (s + 1 / 2) * u) by field. replace (sn * sn) with (1 - b * b) by lra. field.
        * rewrite <- HC. rewrite !(pw_neg 0) by lra. field.
      + intros t _. apply (@continuous_minus _ R_AbsRing R_NormedModule (fun t => (s + 1) * pw (cos (t / 2)) (2 * (s + 1))) (fun t => (s + 1 / 2) * pw (cos (t / 2)) (2 * s)));
        apply (@continuous_scal_r _ R_AbsRing R_NormedModule); apply cospow_continuous; lra. }
  pose proof (@is_RInt_minus R_NormedModule _ _ _ _ _ _ (@is_RInt_scal R_NormedModule _ _ _ (s + 1) _ (cosint_is (s + 1) ltac:(lra))) (@is_RInt_scal R_NormedModule _ _ _ (s + 1 / 2) _ (cosint_is s Hs))) as D2.
  pose proof (eq_trans (eq_sym (is_RInt_unique _ _ _ _ D)) (is_RInt_unique _ _ _ _ D2)) as U. change (minus (scal (s + 1) (cosint (s + 1))) (scal (s + 1 / 2) (cosint s))) with ((s + 1) * cosint (s + 1) - (s + 1 / 2) * cosint s) in U.
  replace (- PI / 2) with (- (PI / 2)) in U by field. rewrite cos_neg, cos_PI2, (pw_neg 0) in U by lra.
  change (sin (PI / 2) * 0 - sin (- (PI / 2)) * 0 = (s + 1) * cosint (s + 1) - (s + 1 / 2) * cosint s) in U. lra.
Qed.
Lemma cosint_mono s r : 0 <= s -> s <= r -> cosint r <= cosint s.
Proof.
  intros Hs Hr. pose proof PI_RGT_0 as HP. apply (is_RInt_le (fun t => pw (cos (t / 2)) (2 * r)) (fun t => pw (cos (t / 2)) (2 * s)) (- PI) PI); [lra|apply cosint_is; lra|apply cosint_is; lra|].
  intros t Ht. assert (Hc : 0 < cos (t / 2)) by (apply cos_gt_0; lra). rewrite !pw_pos by easy. unfold Rpower. apply exp_le. pose proof (COS_bound (t / 2)). assert (ln (cos (t / 2)) <= 0) by (apply ln_le1; lra). nra.
Qed.
Lemma cosint_0 : cosint 0 = 2 * PI.
Proof.
  unfold cosint. apply is_RInt_unique. apply (is_RInt_ext (fun _ => 1)); [intros; now rewrite Rmult_0_r, pw_0|].
  pose proof (@is_RInt_const R_NormedModule (- PI) PI 1) as G. change (scal (PI - - PI) 1) with ((PI - - PI) * 1) in G. replace ((PI - - PI) * 1) with (2 * PI) in G by ring. exact G.
Qed.
Lemma cosint_half : cosint (1 / 2) = 4.
Proof.
  pose proof PI_RGT_0 as HP. unfold cosint. apply is_RInt_unique. apply (is_RInt_ext (fun t => cos (t / 2))).
  - intros t Ht. rewrite Rmin_left, Rmax_right in Ht by lra. rewrite pw_pos by (apply cos_gt_0; lra). replace (2 * (1 / 2)) with 1 by field. now rewrite Rpower_1 by (apply cos_gt_0; lra).
  - replace 4 with (minus (2 * sin (PI / 2)) (2 * sin (- PI / 2))).
    + apply (@is_RInt_derive R_CompleteNormedModule (fun t => 2 * sin (t / 2))).
      * intros t _. auto_derive; [easy|]. change (@eq R (2 * (1 * / 2 * cos (t * / 2))) (cos (t / 2))). unfold Rdiv. field.
      * intros t _. apply (ex_derive_continuous (V := R_NormedModule)). auto_derive. easy.
    + replace (- PI / 2) with (- (PI / 2)) by field. rewrite sin_neg, sin_PI2. change (2 * 1 - 2 * - (1) = 4). ring.
Qed.
(* the product with the quotient of gamma functions does not depend on the exponent *)
Definition gquot (g : R -> R) (s : R) : R := exp (g (s + 1)) / exp (g (s + 1 / 2)).
Lemma gquot_pos g s : 0 < gquot g s.
Proof. apply Rdiv_lt_0_compat; apply exp_pos. Qed.
Lemma gquot_step g s : log_gamma g -> 0 <= s -> (s + 1 / 2) * gquot g (s + 1) = (s + 1) * gquot g s.
Proof.
  intros Hg Hs. unfold gquot. rewrite (gamma_step g (s + 1)) by (easy || lra). replace (s + 1 + 1 / 2) with (s + 1 / 2 + 1) by ring. rewrite (gamma_step g (s + 1 / 2)) by (easy || lra).
  pose proof (exp_pos (g (s + 1 / 2))). field. lra.
Qed.
Lemma gquot_mono g s r : log_gamma g -> 0 <= s -> s <= r -> gquot g s <= gquot g r.
Proof.
  intros Hg Hs [Hr| ->]; [|lra]. pose proof (gamma_cross g (s + 1 / 2) (1 / 2) (r - s) Hg ltac:(lra) ltac:(lra) ltac:(lra)) as C.
  replace (s + 1 / 2 + 1 / 2) with (s + 1) in C by field. replace (s + 1 / 2 + (r - s)) with (r + 1 / 2) in C by ring. replace (s + 1 + (r - s)) with (r + 1) in C by ring.
  unfold gquot. pose proof (exp_pos (g (s + 1 / 2))) as P1. pose proof (exp_pos (g (r + 1 / 2))) as P2. apply (Rmult_le_reg_r (exp (g (s + 1 / 2)) * exp (g (r + 1 / 2)))); [now apply Rmult_lt_0_compat|].
  replace (exp (g (s + 1)) / exp (g (s + 1 / 2)) * (exp (g (s + 1 / 2)) * exp (g (r + 1 / 2)))) with (exp (g (s + 1)) * exp (g (r + 1 / 2))) by (field; lra).
  replace (exp (g (r + 1)) / exp (g (r + 1 / 2)) * (exp (g (s + 1 / 2)) * exp (g (r + 1 / 2)))) with (exp (g (r + 1)) * exp (g (s + 1 / 2))) by (field; lra). exact C.
Qed.
Lemma prod_step g s : log_gamma g -> 0 <= s -> cosint (s + 1) * gquot g (s + 1) = cosint s * gquot g s.
Proof.
  intros Hg Hs. pose proof (cosint_step s Hs) as A. pose proof (gquot_step g s Hg Hs) as B. apply (Rmult_eq_reg_l ((s + 1) * (s + 1 / 2))); [|nra].
  replace ((s + 1) * (s + 1 / 2) * (cosint (s + 1) * gquot g (s + 1))) with ((s + 1) * cosint (s + 1) * ((s + 1 / 2) * gquot g (s + 1))) by ring. rewrite A, B. ring.
Qed.
Lemma prod_shift g s n : log_gamma g -> 0 <= s -> cosint (s + INR n) * gquot g (s + INR n) = cosint s * gquot g s.
Proof.
  intros Hg Hs. induction n as [|n IH]; [simpl; now rewrite Rplus_0_r|]. rewrite S_INR. replace (s + (INR n + 1)) with (s + INR n + 1) by ring. rewrite prod_step; [easy|easy|]. pose proof (pos_INR n). lra.
Qed.
Lemma cosint_pos s : 0 <= s -> 0 < cosint s.
Proof.
  intros Hs. pose proof PI_RGT_0 as HP. unfold cosint. apply RInt_gt_0; [lra| |].
  - intros t Ht. rewrite pw_pos by (apply cos_gt_0; lra). apply exp_pos.
  - intros t Ht. now apply cospow_continuous.
Qed.
Lemma squeeze_eq a b : 0 < b -> (forall n, a <= b * ((INR n + 1) / (INR n + 1 / 2))) -> (forall n, b * ((INR n + 1 / 2) / (INR n + 1)) <= a) -> a = b.
Proof.
  intros Hb U L. apply cond_eq. intros eps He. assert (UB : exists n, b / eps < INR n). { exists (Z.to_nat (up (b / eps))). destruct (archimed (b / eps)) as [A _]. assert (0 < b / eps) by now apply Rdiv_lt_0_compat. assert (0 < IZR (up (b / eps))) by lra. apply lt_IZR in H0. rewrite INR_IZR_INZ, Z2Nat.id by lia. lra. }
  destruct UB as [n Hn]. specialize (U n). specialize (L n). pose proof (pos_INR n) as Pn.
  assert (B : b < eps * INR n). { apply (Rmult_lt_compat_l eps) in Hn; [|easy]. replace (eps * (b / eps)) with b in Hn by (field; lra). lra. }
  replace (b * ((INR n + 1) / (INR n + 1 / 2))) with (b + b / (2 * INR n + 1)) in U by (field; lra).
  replace (b * ((INR n + 1 / 2) / (INR n + 1))) with (b - b / (2 * INR n + 2)) in L by (field; lra).
  assert (Q1 : b / (2 * INR n + 1) < eps). { apply (Rmult_lt_reg_r (2 * INR n + 1)); [lra|]. unfold Rdiv. rewrite Rmult_assoc, Rinv_l by lra. nra. }
  assert (Q2 : b / (2 * INR n + 2) < eps). { apply (Rmult_lt_reg_r (2 * INR n + 2)); [lra|]. unfold Rdiv. rewrite Rmult_assoc, Rinv_l by lra. nra. }
  apply Rabs_def1; lra.
Qed.
Lemma prod_const01 g s : log_gamma g -> 0 <= s <= 1 -> cosint s * gquot g s = cosint 0 * gquot g 0.
Proof.
  intros Hg Hs. set (b := cosint 0 * gquot g 0). assert (Hb : 0 < b) by (unfold b; apply Rmult_lt_0_compat; [apply cosint_pos; lra|apply gquot_pos]). apply squeeze_eq; [easy| |]; intros n; pose proof (pos_INR n) as Pn.
  - rewrite <- (prod_shift g s n) by (easy || lra). pose proof (gquot_step g (INR n) Hg Pn) as Q. pose proof (prod_shift g 0 n Hg ltac:(lra)) as Z. rewrite Rplus_0_l in Z. fold b in Z.
    apply Rle_trans with (cosint (INR n) * gquot g (INR n + 1)).
    + apply Rmult_le_compat; [left; apply cosint_pos; lra|left; apply gquot_pos|apply cosint_mono; lra|apply gquot_mono; try easy; lra].
    + right. rewrite <- Z. apply (Rmult_eq_reg_l (INR n + 1 / 2)); [|lra]. replace ((INR n + 1 / 2) * (cosint (INR n) * gquot g (INR n + 1))) with (cosint (INR n) * ((INR n + 1 / 2) * gquot g (INR n + 1))) by ring. rewrite Q. field. lra.
  - rewrite <- (prod_shift g s n) by (easy || lra). pose proof (gquot_step g (INR n) Hg Pn) as Q. pose proof (prod_shift g 0 (S n) Hg ltac:(lra)) as Z. rewrite Rplus_0_l, S_INR in Z. fold b in Z.
    apply Rle_trans with (cosint (INR n + 1) * gquot g (INR n)).
    + right. rewrite <- Z. apply (Rmult_eq_reg_l (INR n + 1)); [|lra]. replace ((INR n + 1) * (cosint (INR n + 1) * gquot g (INR n))) with (cosint (INR n + 1) * ((INR n + 1) * gquot g (INR n))) by ring. rewrite <- Q. field. lra.
    + apply Rmult_le_compat; [left; apply cosint_pos; lra|left; apply gquot_pos|apply cosint_mono; lra|apply gquot_mono; try easy; lra].
Qed.
Lemma gamma_half g : log_gamma g -> exp (g (1 / 2)) = sqrt PI.
Proof.
  intros Hg. pose proof PI_RGT_0 as HP. pose proof (prod_const01 g (1 / 2) Hg ltac:(lra)) as Q. rewrite cosint_0, cosint_half in Q. unfold gquot in Q.
  replace (1 / 2 + 1 / 2) with 1 in Q by field. rewrite (gamma_step g (1 / 2)) in Q by (easy || lra). rewrite !Rplus_0_l, (log_gamma_1 g Hg), exp_0 in Q. pose proof (exp_pos (g (1 / 2))) as P. set (u := exp (g (1 / 2))) in *.
  assert (E : u * u = PI). { assert (4 * (1 / 2 * u / 1) * u = 2 * PI * (1 / u) * u) by (now rewrite Q). replace (2 * PI * (1 / u) * u) with (2 * PI) in H by (field; lra). lra. }
  rewrite <- E. symmetry. apply sqrt_square. lra.
Qed.
Lemma prod_const g s : log_gamma g -> 0 <= s -> cosint s * gquot g s = 2 * sqrt PI.
Proof.
  intros Hg Hs. pose proof PI_RGT_0 as HP. assert (Z : cosint 0 * gquot g 0 = 2 * sqrt PI).
  { rewrite cosint_0. unfold gquot. rewrite !Rplus_0_l, (log_gamma_1 g Hg), (gamma_half g Hg), exp_0. pose proof (sqrt_lt_R0 PI HP). apply (Rmult_eq_reg_r (sqrt PI)); [|lra]. replace (2 * PI * (1 / sqrt PI) * sqrt PI) with (2 * PI) by (field; lra). rewrite Rmult_assoc, sqrt_sqrt by lra. easy. }
  rewrite <- Z. destruct (archimed s) as [A1 A2]. set (z := up s) in *. assert (Hz : (1 <= z)%Z). { apply (lt_IZR 0) in A1 || idtac. assert (0 < IZR z) by lra. apply lt_IZR in H. lia. }
  set (n := Z.to_nat (z - 1)). assert (En : INR n = IZR z - 1). { unfold n. rewrite INR_IZR_INZ, Z2Nat.id by lia. rewrite minus_IZR. easy. }
  replace s with (s - INR n + INR n) by ring. rewrite prod_shift by (easy || lra). apply prod_const01; [easy|lra].
Qed.
