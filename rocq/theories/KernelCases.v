From Coq Require Import Reals ZArith Lra Lia List Bool Psatz String Permutation.
From Coquelicot Require Import Coquelicot.
From Verif Require Import Base PolyModel PolySpec TransModel FilterModel GridSpec KdeModel KdeSpec KdeProofs2 SeaModel SeaSpec SeaProofs SeaCases GammaProofs CosPow KernelModel KernelSpec KernelProofs2 KernelProofs3 KernelProofs4 KernelProofs5 KernelProofs6 KernelProofs7 KernelProofs8.
Import ListNotations.
Local Open Scope R_scope.

Lemma density g key k s name c X hs lam : log_gamma g -> In (key, (k, s, name)) mkernel_dict -> norm_factor g k (List.length hs) (List.length X) = Ok c ->
  hs <> [] -> X <> [] -> Forall (fun h => 0 < h) hs -> List.length lam = List.length X -> Forall (fun l => 0 < l) lam -> Forall (fun p => List.length p = List.length hs) X ->
  exists f, (forall pts, Forall (fun p => List.length p = List.length hs) pts ->
              eval_points (Kde X (diagonal (map Rinv hs)) lam (kernel k) (prodl hs * INR (List.length X) * c)) pts (repeat 1 (List.length X)) 0 = Ok (map f pts))
            /\ space_integral (List.length hs) f 1 /\ (forall x, 0 <= f x).
Proof.
  intros Hg HI HC Hh HX HF HL HFl HFX. exists (estimate (my_kde k c X hs lam) (repeat 1 (List.length X)) 0). split; [|split].
  - intros pts HP. apply (eval_points_value (my_kde k c X hs lam)); cbn [dataset lambda_ inv_hs my_kde]; [apply repeat_length|exact HL|]. intros p Hp. rewrite Forall_forall in HP. unfold my_kde. cbn [inv_hs]. rewrite diagonal_length, map_length. now apply HP.
  - now apply (estimate_density g key k s name).
  - intros x. now apply (estimate_nonneg g key k s name).
Qed.
Lemma norm_values g key k s name d pts : In (key, (k, s, name)) mkernel_dict -> (1 <= d)%nat -> pts <> [] -> exists c, 0 < c /\ norm_factor g k d (List.length pts) = Ok c /\ norm_kernel g k d pts = Ok (map (fun v => kernel k v / c) pts).
Proof.
  intros HI Hd Hp. assert (HN : (1 <= List.length pts)%nat) by (destruct pts; [congruence|cbn; lia]). destruct (factor_ok g d _ _ _ _ _ HI Hd HN) as [c HC]. exists c. split; [exact (factor_pos g d _ _ _ _ _ c HI Hd HC)|]. split; [exact HC|]. unfold norm_kernel. now rewrite HC.
Qed.
Lemma plain_factor_error g r d n : d = O \/ n = O -> norm_factor g (Triangular r) d n = Err ValueError /\ norm_factor g (Logistic r) d n = Err ValueError.
Proof. intros [-> | ->]; cbn [norm_factor Nat.eqb]; [easy|]. destruct (Nat.eqb d 0); easy. Qed.
Lemma disk_factor : norm_factor gammaln_real (Multi 1 1) 2 10 = Ok (PI / 2).
Proof.
  cbn [norm_factor]. f_equal. unfold sphere_volume. replace (INR 2 / 2) with 1 by (cbn; field). rewrite (log_gamma_1 gammaln_real gammaln_real_ok), exp_0. pose proof PI_RGT_0. rewrite Rpower_1 by lra. cbn. field.
Qed.
Lemma support_case : kernel (Multi 1 1) [3 / 5; 3 / 5] = 28 / 100 /\ kernel (Multi 1 1) [3 / 5; - (11 / 10)] = 0.
Proof. cbn [kernel map]. unfold npsum. cbn [fold_right]. split; [rewrite Rmax_right|rewrite Rmax_left]; lra. Qed.
Lemma table_case : In ("triw"%string, (Multi 3 1, (1 / 9, 350 / 429, None), "triweight"%string)) mkernel_dict /\ norm_factor gammaln_real (Multi 3 1) 1 5 = Ok (32 / 35).
Proof.
  split; [cbn; tauto|]. assert (EX : exists c, norm_factor gammaln_real (Multi 3 1) 1 5 = Ok c) by (eexists; reflexivity). destruct EX as [c HC]. rewrite HC. f_equal. apply factor_3. apply (multi_factor gammaln_real 3 5 c gammaln_real_ok). now left.
Qed.
Lemma density_case : exists f, eval_points (Kde [[0]; [1]] (diagonal [/ (1 / 2)]) [1; 2] (kernel (Rectangular 1)) (prodl [1 / 2] * INR 2 * 2)) [[1 / 4]; [2]] [1; 1] 0 = Ok (map f [[1 / 4]; [2]]) /\ f [1 / 4] = 3 / 4 /\ f [2] = 1 / 4 /\ space_integral 1 f 1.
Proof.
  assert (Q : forall a b : R, a = b -> Ok a = Ok b) by (intros; now f_equal).
  assert (HC : norm_factor gammaln_real (Rectangular 1) 1 2 = Ok 2) by (cbn [norm_factor]; apply Q; ring).
  exists (estimate (my_kde (Rectangular 1) 2 [[0]; [1]] [1 / 2] [1; 2]) [1; 1] 0). split; [|split; [|split]].
  - apply (eval_points_value (my_kde (Rectangular 1) 2 [[0]; [1]] [1 / 2] [1; 2])); [reflexivity|reflexivity|]. intros p [<- |[<- |[]]]; reflexivity.
  - unfold estimate, my_kde. cbn. destruct (Rle_dec _ _) as [A|A]; [|exfalso; apply A; apply Rabs_le; lra]. destruct (Rle_dec _ _) as [B|B]; [|exfalso; apply B; apply Rabs_le; lra]. unfold sumR. cbn. field.
  - unfold estimate, my_kde. cbn. destruct (Rle_dec _ _) as [A|A]; [exfalso; apply Rabs_le_between in A; lra|]. destruct (Rle_dec _ _) as [B|B]; [|exfalso; apply B; apply Rabs_le; lra]. unfold sumR. cbn. field.
  - apply (estimate_density gammaln_real "rect" (Rectangular 1) stats_rect "Rectangular" 2 [[0]; [1]] [1 / 2] [1; 2]); try easy; [exact gammaln_real_ok|cbn; tauto|repeat constructor; lra|repeat constructor; lra|repeat constructor].
Qed.
Lemma iqr_case : iqrange [3; 1; 2; 0; 4] = 2.
Proof.
  unfold iqrange. rewrite !percentile_interp. assert (E : sortR [3; 1; 2; 0; 4] = [0; 1; 2; 3; 4]). { cbn [sortR insertR]. repeat (destruct (Rle_dec _ _); try lra; cbn [insertR]). reflexivity. } rewrite E. unfold interp. cbn [List.length Nat.sub]. replace (INR 4 * (75 / 100)) with 3 by (cbn; field). replace (INR 4 * (25 / 100)) with 1 by (cbn; field).
  rewrite (place_unique 3 3) by (cbn; lra). rewrite (place_unique 1 1) by (cbn; lra). cbn. rewrite Rabs_right; lra.
Qed.
Lemma hns_case : exists h, hns_row stats_gaus [3; 1; 2; 0; 4] = Some h /\ hns_row stats_gaus (map (fun v => -2 * v + 7) [3; 1; 2; 0; 4]) = Some (2 * h) /\ 0 < h.
Proof.
  destruct (hns_exists stats_gaus [3; 1; 2; 0; 4]) as [h Hh]; [cbn; lia|]. exists h. split; [exact Hh|]. split.
  - rewrite (hns_affine stats_gaus (-2) 7 [3; 1; 2; 0; 4]) by discriminate. rewrite Hh. cbn [option_map]. do 2 f_equal. rewrite Rabs_left; lra.
  - destruct (hns_zero _ _ _ Hh) as [H0 HZ]. destruct (Rle_lt_or_eq_dec 0 h H0) as [G|G]; [exact G|]. exfalso. symmetry in G. apply HZ in G as [c Hc]. assert (3 = c) by (apply Hc; cbn; tauto). assert (1 = c) by (apply Hc; cbn; tauto). lra.
Qed.
Lemma deriv_case : nth_error (deriv4_6_8_10 0 2) 1 = Some (-15 * normal 1 0) /\ psi 4 1 = 3 / (8 * sqrt PI).
Proof.
  pose proof PI_RGT_0. assert (S0 : 0 < sqrt PI) by (apply sqrt_lt_R0; lra). split.
  - cbn [deriv4_6_8_10 deriv_loop Nat.sub nth_error]. f_equal. rewrite polyval_peval. match goal with |- ?a * _ = _ => assert (P : a = -15) by (cbn; ring); rewrite P end. f_equal. unfold normal. rewrite Rmult_1_l. f_equal. apply f_equal. field.
  - unfold psi. cbn. unfold prodl. cbn. field. lra.
Qed.
