From Coq Require Import Reals Lra Lia.
From Coquelicot Require Import Coquelicot.
From Verif Require Import Base PolyModel WaveModel WaveProofs2 SeaModel SeaSpec SeaProofs SeaProofs2 SeaProofs3 SeaProofs4 SeaProofs5 SeaProofs6 SeaCases.
Local Open Scope R_scope.

Lemma exp_nln x n : 0 < x -> exp (INR n * ln x) = x ^ n.
Proof. intros Hx. rewrite <- Rpower_pow by easy. reflexivity. Qed.
Lemma gengam_54 g x : g 1 = 0 -> 0 < x -> gengamspec g 5 4 x = 5 / x ^ 5 * exp (- (5 / 4) / x ^ 4).
Proof.
  intros Hg Hx. unfold gengamspec. destruct (Rlt_dec 0 x); [|lra]. cbv zeta.
  replace ((5 - 1) / 4) with 1 by field. rewrite Hg.
  assert (E4 : exp (Ropp 4 * ln x) = / x ^ 4). { replace (Ropp 4 * ln x) with (- (INR 4 * ln x)) by (simpl; ring). rewrite exp_Ropp, exp_nln by easy. easy. }
  rewrite E4. replace (1 * ln (5 / 4) + ln 4 - 0 - 5 * ln x - 5 / 4 * / x ^ 4) with (ln 5 + - (INR 5 * ln x) + - (5 / 4) / x ^ 4).
  - rewrite !exp_plus, exp_ln by lra. rewrite exp_Ropp, exp_nln by easy. unfold Rdiv. ring.
  - replace (ln 5) with (ln (5 / 4) + ln 4) by (rewrite <- ln_mult by lra; f_equal; field). simpl (INR 5). unfold Rdiv. ring.
Qed.
Lemma bret_formula g H T w : g 1 = 0 -> 0 < H -> 0 < T -> 0 < w -> let wp := 2 * PI / T in
  bret_call g (Bret H T 5 4) w = 5 / 16 * H ^ 2 * wp ^ 4 / w ^ 5 * exp (- (5 / 4) * (wp / w) ^ 4).
Proof.
  intros Hg HH HT Hw wp. pose proof (peak_pos T HT) as Hp. fold wp in Hp. rewrite bret_val by easy. fold wp. rewrite gengam_54; [|easy|now apply Rdiv_lt_0_compat].
  replace (- (5 / 4) / (w / wp) ^ 4) with (- (5 / 4) * (wp / w) ^ 4) by (field; lra). set (e := exp _). field. lra.
Qed.
Lemma jons_formula g s w : g 1 = 0 -> 0 < jHm0 s -> 0 < jTp s -> jN s = 5 -> jM s = 4 -> 0 < w -> let wp := 2 * PI / jTp s in
  jons_call g s w = jAg s * (5 / 16 * jHm0 s ^ 2 * wp ^ 4 / w ^ 5 * exp (- (5 / 4) * (wp / w) ^ 4))
    * Rpower (jgamma s) (exp (- ((w / wp - 1) ^ 2 / (2 * (if Rle_dec w wp then jsigmaA s else jsigmaB s) ^ 2)))).
Proof.
  intros Hg HH HT HN HM Hw wp. destruct s as [H T gam sa sb A N M]. cbn [jHm0 jTp jgamma jsigmaA jsigmaB jAg jN jM] in *. subst N M.
  pose proof (peak_pos T HT) as Hp. fold wp in Hp. rewrite jons_val by easy. fold wp. unfold localspec. pose proof (bret_formula g H T w Hg HH HT Hw) as BF. cbv zeta in BF. fold wp in BF. rewrite <- BF. rewrite bret_val by easy. fold wp.
  unfold peak_e_factor. cbv zeta. assert (Hx : 0 < w / wp) by now apply Rdiv_lt_0_compat. rewrite (Rmax_left (w / wp) 0) by lra.
  assert (E : forall sg, 1 / 2 * ((w / wp - 1) / sg) ^ 2 = (w / wp - 1) ^ 2 / (2 * sg ^ 2)).
  { intros sg. destruct (Req_EM_T sg 0) as [->|Hs]; [|field; lra]. unfold Rdiv. replace (2 * 0 ^ 2) with 0 by ring. rewrite !Rinv_0. ring. }
  assert (Q : w / wp * wp = w) by (field; lra).
  destruct (Rlt_dec 1 (w / wp)) as [L|L]; destruct (Rle_dec w wp) as [L'|L']; try (exfalso; nra); rewrite E; unfold Rdiv; ring.
Qed.
Lemma bret_homogeneous g H T N M a c w : 0 < H -> 0 < T -> 0 < a -> 0 < c -> bret_call g (Bret (a * H) (c * T) N M) (w / c) = a ^ 2 * c * bret_call g (Bret H T N M) w.
Proof.
  intros HH HT Ha Hc. pose proof PI_RGT_0. rewrite !bret_val by (try easy; nra). replace (w / c / (2 * PI / (c * T))) with (w / (2 * PI / T)) by (field; lra). set (q := gengamspec _ _ _ _). field. lra.
Qed.
Lemma tma_bounds g s gr h w k : 0 < gr -> 0 < h -> 0 < w -> 0 < k -> dispersion gr h w k -> 0 < jons_call g s w -> 0 < tma_call g s k (Some h) gr w < jons_call g s w.
Proof. intros Hg Hh Hw Hk D HP. pose proof (phi1_bounds gr h w k Hg Hh Hw Hk D). unfold tma_call. nra. Qed.
Lemma tma_deep g s gr w k : tma_call g s k None gr w = jons_call g s w.
Proof. unfold tma_call, phi1. ring. Qed.
Lemma phi1_zero gr h k : phi1 k 0 (Some h) gr = 0.
Proof. unfold phi1, deep_k. destruct (Req_EM_T _ 0) as [|N]; [easy|]. exfalso. apply N. unfold Rdiv. ring. Qed.
(* the wave number exists *)
Lemma tma_witness gr h w : 0 < gr -> 0 < h -> 0 < w -> exists k, 0 < k /\ dispersion gr h w k.
Proof.
  intros Hg Hh Hw. set (c := w ^ 2 / gr). assert (Hc : 0 < c) by (unfold c; apply Rdiv_lt_0_compat; [now apply pow_lt|easy]).
  set (K := c / tanh (c * h) + c + 1 / h). 
  destruct (IVT_gen (fun k => disp h k) 0 (Rmax c (1 / h) / tanh 1) c) as [k [B E]].
  - intros x. apply derivable_continuous_pt. exists (tanh (x * h) + x * h / cosh (x * h) ^ 2). apply is_derive_Reals, disp_derive.
  - assert (T1 : 0 < tanh 1) by (apply tanh_pos; lra). assert (T1' : tanh 1 < 1) by (pose proof (tanh_abs_lt 1) as Q; apply Rabs_def2 in Q; lra).
    set (m := Rmax c (1 / h)). assert (Hm : 0 < m) by (unfold m; pose proof (Rmax_l c (1 / h)); lra).
    assert (Hq : m <= m / tanh 1). { apply (Rmult_le_reg_r (tanh 1)); [easy|]. unfold Rdiv. rewrite Rmult_assoc, Rinv_l by lra. nra. }
    assert (V : c <= disp h (m / tanh 1)).
    { unfold disp. assert (1 <= m / tanh 1 * h). { assert (1 / h <= m) by apply Rmax_r. assert (1 = 1 / h * h) by (field; lra). nra. }
      pose proof (tanh_mono 1 (m / tanh 1 * h) H) as Tm. assert (m / tanh 1 * tanh 1 = m) by (field; lra). assert (c <= m) by apply Rmax_l. nra. }
    assert (Z : disp h 0 = 0) by (unfold disp; ring). rewrite Z. rewrite Rmin_left, Rmax_right by lra. lra.
  - exists k. assert (Hk : 0 <= k).
    { destruct B as [B _]. eapply Rle_trans; [|exact B]. apply Rmin_glb; [lra|]. assert (T1 : 0 < tanh 1) by (apply tanh_pos; lra). assert (Hm : c <= Rmax c (1 / h)) by apply Rmax_l. apply Rlt_le, Rdiv_lt_0_compat; lra. }
    assert (Hn : k <> 0). { intros ->. unfold disp in E. rewrite Rmult_0_l in E. lra. }
    split; [lra|]. unfold dispersion. unfold disp in E. unfold c in E. assert (w ^ 2 = gr * (w ^ 2 / gr)) by (field; lra). rewrite H, <- E. ring.
Qed.
