From Coq Require Import Reals Lra Lia Psatz.
From Coquelicot Require Import Coquelicot.
From Verif Require Import Base PolyModel TransModel TransSpec.
Local Open Scope R_scope.

(* ---- TrLinear ---- *)
Lemma linear_formula : forall s x, linear_dat2gauss s x [] = Plain (map (fun v => ymean s + ysigma s * ((v - mean s) / sigma s)) x).
Proof. intros s x. unfold linear_dat2gauss, linear_transform. f_equal. apply map_ext. intros v. unfold Rdiv. ring. Qed.

Lemma map_id_ext : forall (f : R -> R) l, (forall v, f v = v) -> map f l = l.
Proof. intros f l H. induction l as [|a l IH]; auto. cbn. rewrite H, IH. reflexivity. Qed.

Lemma linear_roundtrip : forall s x xi, sigma s <> 0 -> ysigma s <> 0 ->
  match linear_dat2gauss s x xi with
  | Plain y => xi = [] /\ linear_gauss2dat s y [] = Plain x
  | Many [] => False
  | Many (y :: yi) => xi <> [] /\ length yi = length xi /\ linear_gauss2dat s y yi = Many (x :: xi)
  end.
Proof.
  intros s x xi H1 H2. unfold linear_dat2gauss, linear_gauss2dat, linear_transform.
  assert (E : forall v, ((v - mean s) * (ysigma s / sigma s) + ymean s - ymean s) * (sigma s / ysigma s) + mean s = v) by (intros; field; auto).
  assert (E2 : forall v, v * (ysigma s / sigma s) * (sigma s / ysigma s) = v) by (intros; field; auto).
  assert (E3 : forall l, map (map (fun v => v * (sigma s / ysigma s))) (map (map (fun v => v * (ysigma s / sigma s))) l) = l).
  { induction l as [|a l IH]; auto. cbn [map]. rewrite IH. f_equal. rewrite map_map. apply map_id_ext. auto. }
  destruct xi as [|x1 xi].
  - split; auto. f_equal. rewrite map_map. apply map_id_ext. auto.
  - split; [discriminate|]. split; [cbn; rewrite map_length; reflexivity|].
    cbn [map]. f_equal. f_equal; [rewrite map_map; apply map_id_ext; auto|]. apply (E3 (x1 :: xi)).
Qed.

Lemma linear_roundtrip' : forall s y yi, sigma s <> 0 -> ysigma s <> 0 ->
  match linear_gauss2dat s y yi with
  | Plain x => yi = [] /\ linear_dat2gauss s x [] = Plain y
  | Many [] => False
  | Many (x :: xi) => yi <> [] /\ length xi = length yi /\ linear_dat2gauss s x xi = Many (y :: yi)
  end.
Proof. intros s y yi H1 H2. apply (linear_roundtrip (Stats (ymean s) (ysigma s) 0 0 (mean s) (sigma s)) y yi); auto. Qed.

(* time derivatives along a path *)
Lemma linear_derivative : forall s (x x1 : R -> R) t, is_derive x t (x1 t) ->
  exists y y1, (forall u, linear_dat2gauss s [x u] [[x1 u]] = Many [[y u]; [y1 u]]) /\ is_derive y t (y1 t).
Proof.
  intros s x x1 t H. exists (fun u => (x u - mean s) * (ysigma s / sigma s) + ymean s), (fun u => x1 u * (ysigma s / sigma s)). split; [reflexivity|].
  auto_derive; [exists (x1 t); exact H|]. replace (Derive (fun x0 : R => x x0) t) with (x1 t) by (symmetry; apply is_derive_unique; exact H). ring.
Qed.

Lemma trapz_step : forall y0 y1 y x0 x1 x, trapz (y0 :: y1 :: y) (x0 :: x1 :: x) = (x1 - x0) * (y0 + y1) / 2 + trapz (y1 :: y) (x1 :: x).
Proof. reflexivity. Qed.
Lemma trapz_zero : forall y x, (forall v, In v y -> v = 0) -> trapz y x = 0.
Proof.
  induction y as [|y0 y IH]; intros x H; [reflexivity|]. destruct y as [|y1 y]; [reflexivity|]. destruct x as [|x0 [|x1 x]]; try reflexivity.
  rewrite trapz_step. rewrite IH; [rewrite (H y0), (H y1) by (cbn; auto); lra|]. intros v Hv. apply H. right. exact Hv.
Qed.
Lemma map2_in : forall (f : R -> R -> R) a b v, In v (map2 f a b) -> exists i, nth_error a i <> None /\ nth_error b i <> None /\ v = f (nth i a 0) (nth i b 0).
Proof.
  induction a as [|p a IH]; intros [|q b] v H; cbn in H; try contradiction.
  destruct H as [H|H]; [exists O; cbn; repeat split; try discriminate; auto|].
  destruct (IH b v H) as (i & H1 & H2 & H3). exists (S i). auto.
Qed.
Lemma linear_dist : forall s x, sigma s <> 0 -> ysigma s <> 0 -> dist2gauss s (fun x => match linear_dat2gauss s x [] with Plain y => y | Many _ => [] end) x = 0.
Proof.
  intros s x H1 H2. unfold dist2gauss. rewrite linear_formula. apply trapz_zero. intros v Hv.
  apply map2_in in Hv. destruct Hv as (i & Hi & _ & E). rewrite nth_error_Some in Hi. rewrite map_length in Hi. subst v. rewrite map_map.
  rewrite (nth_indep _ 0 ((fun v => (v - mean s) / sigma s) 0)) by (rewrite map_length; auto). rewrite map_nth with (f := fun v => (v - mean s) / sigma s).
  rewrite (nth_indep (map _ x) 0 ((fun v => (ymean s + ysigma s * ((v - mean s) / sigma s) - ymean s) / ysigma s) 0)) by (rewrite map_length; auto).
  rewrite map_nth with (f := fun v => (ymean s + ysigma s * ((v - mean s) / sigma s) - ymean s) / ysigma s).
  replace ((ymean s + ysigma s * ((nth i x 0 - mean s) / sigma s) - ymean s) / ysigma s) with ((nth i x 0 - mean s) / sigma s) by (field; auto). ring.
Qed.
(* the measure is never negative on increasing abscissae *)
Lemma trapz_nonneg : forall y x, (forall v, In v y -> 0 <= v) -> (forall i, (S i < length x)%nat -> nth i x 0 <= nth (S i) x 0) -> 0 <= trapz y x.
Proof.
  induction y as [|y0 y IH]; intros x H Hx; [cbn; lra|]. destruct y as [|y1 y]; [cbn; lra|]. destruct x as [|x0 [|x1 x]]; try (cbn; lra).
  rewrite trapz_step. assert (0 <= trapz (y1 :: y) (x1 :: x)).
  { apply IH; [intros v Hv; apply H; right; exact Hv|]. intros i Hi. apply (Hx (S i)). cbn in *. lia. }
  pose proof (Hx 0%nat ltac:(cbn; lia)) as Q. cbn in Q. pose proof (H y0 ltac:(cbn; auto)). pose proof (H y1 ltac:(cbn; auto)). nra.
Qed.
Lemma dist_nonneg : forall s g x, 0 < sigma s -> (forall i, (S i < length x)%nat -> nth i x 0 <= nth (S i) x 0) -> 0 <= dist2gauss s g x.
Proof.
  intros s g x H Hx. unfold dist2gauss. apply trapz_nonneg.
  - intros v Hv. apply map2_in in Hv. destruct Hv as (i & _ & _ & ->). apply pow2_ge_0.
  - intros i Hi. rewrite map_length in Hi. rewrite !(nth_indep (map _ x) 0 ((fun v => (v - mean s) / sigma s) 0)) by (rewrite map_length; lia).
    rewrite !(map_nth (fun v => (v - mean s) / sigma s)). pose proof (Hx i Hi). apply Rmult_le_compat_r; [left; apply Rinv_0_lt_compat; auto|lra].
Qed.

(* ---- TrOchi: parameters ---- *)
Definition ochi_bracket (skew : R) : Prop := 0 < Rabs skew <= 2.82842712474619.
Lemma g2_at : forall skew s, 0 <= s -> g2 skew (1 + s) = Rabs skew - sqrt (2 * s) * (3 - s).
Proof. intros skew s H. unfold g2. replace (1 + s - 1) with s by ring. rewrite Rabs_pos_eq by auto. replace (s * 2) with (2 * s) by ring. ring. Qed.

Lemma limit_lt : 2.82842712474619 < 2 * sqrt 2.
Proof. apply Rsqr_incrst_0; [|lra|pose proof (sqrt_pos 2); lra]. unfold Rsqr. replace (2 * sqrt 2 * (2 * sqrt 2)) with (4 * (sqrt 2 * sqrt 2)) by ring. rewrite sqrt_sqrt by lra. lra. Qed.

Lemma g2_ends : forall skew, ochi_bracket skew -> 0 < g2 skew 1 /\ g2 skew 2 < 0.
Proof.
  intros skew [H1 H2]. pose proof limit_lt as L. split.
  - replace 1 with (1 + 0) by ring. rewrite g2_at by lra. replace (2 * 0) with 0 by ring. rewrite sqrt_0. lra.
  - replace 2 with (1 + 1) by ring. rewrite g2_at by lra. replace (2 * 1) with 2 by ring. lra.
Qed.

(* the root is unique: u (3 - u^2/2) is increasing on [0, sqrt 2] *)
Lemma root_unique : forall skew a b, 1 <= a <= 2 -> 1 <= b <= 2 -> g2 skew a = 0 -> g2 skew b = 0 -> a = b.
Proof.
  intros skew a b Ha Hb Ea Eb. replace a with (1 + (a - 1)) in Ea by ring. replace b with (1 + (b - 1)) in Eb by ring.
  rewrite g2_at in Ea by lra. rewrite g2_at in Eb by lra.
  set (u := sqrt (2 * (a - 1))) in *. set (v := sqrt (2 * (b - 1))) in *.
  assert (Hu : u * u = 2 * (a - 1)) by (apply sqrt_sqrt; lra). assert (Hv : v * v = 2 * (b - 1)) by (apply sqrt_sqrt; lra).
  assert (0 <= u) by apply sqrt_pos. assert (0 <= v) by apply sqrt_pos.
  assert (E : u * (3 - u * u / 2) = v * (3 - v * v / 2)) by (rewrite Hu, Hv; lra).
  assert (Z : (u - v) * (6 - (u * u + u * v + v * v)) = 0) by (replace ((u - v) * (6 - (u * u + u * v + v * v))) with (2 * (u * (3 - u * u / 2) - v * (3 - v * v / 2))) by field; lra).
  assert (Hw : u * u <= 2 /\ v * v <= 2) by lra.
  assert (u * v <= 2) by nra.
  apply Rmult_integral in Z. destruct Z as [Z|Z]; [assert (u = v) by lra; nra|].
  assert (u * u = 2) by nra. assert (v * v = 2) by nra. lra.
Qed.

Lemma g2_continuous : forall skew, continuity (g2 skew).
Proof.
  intros skew x. unfold g2.
  apply continuity_pt_plus; [|apply continuity_pt_const; intros ? ?; reflexivity].
  apply continuity_pt_mult.
  - apply continuity_pt_opp. apply continuity_pt_filterlim. apply (continuous_comp (fun x => Rabs (x - 1) * 2) sqrt).
    + apply (continuous_mult (fun x => Rabs (x - 1)) (fun _ => 2)); [|apply continuous_const]. apply (continuous_comp (fun x => x - 1) Rabs); [apply (continuous_minus (fun x => x) (fun _ => 1)); [apply continuous_id|apply continuous_const]|apply continuous_Rabs].
    + apply continuous_sqrt.
  - apply continuity_pt_minus; [apply continuity_pt_mult; [apply continuity_pt_const; intros ? ?; reflexivity|apply continuity_pt_id]|].
    apply continuity_pt_mult; [apply continuity_pt_const; intros ? ?; reflexivity|].
    apply (continuity_pt_comp (fun x => x - 1) Rabs); [apply continuity_pt_minus; [apply continuity_pt_id|apply continuity_pt_const; intros ? ?; reflexivity]|apply Rcontinuity_abs].
Qed.

Definition ochi_root (skew : R) : ochi_bracket skew -> { r : R | 1 <= r <= 2 /\ g2 skew r = 0 }.
Proof.
  intros H. destruct (IVT_cor (g2 skew) 1 2 (g2_continuous skew) ltac:(lra)) as (r & Hr & E); [destruct (g2_ends skew H); nra|].
  exists r. auto.
Defined.
Lemma root_exists : forall skew, ochi_bracket skew -> exists r, 1 <= r <= 2 /\ g2 skew r = 0 /\ forall r', 1 <= r' <= 2 -> g2 skew r' = 0 -> r' = r.
Proof. intros skew H. destruct (ochi_root skew H) as (r & Hr & E). exists r. split; auto. split; auto. intros r' Hr' E'. eapply root_unique; eauto. Qed.

Lemma sign_abs : forall x, sign x * Rabs x = x.
Proof. intros x. unfold sign. destruct (Rlt_dec x 0); [rewrite Rabs_left by lra; ring|]. destruct (Rlt_dec 0 x); [rewrite Rabs_right by lra; ring|]. replace x with 0 by lra. ring. Qed.
Lemma sign_sqr : forall x, x <> 0 -> sign x * sign x = 1.
Proof. intros x H. unfold sign. destruct (Rlt_dec x 0); [lra|]. destruct (Rlt_dec 0 x); lra. Qed.

Lemma par_cases : forall brentq s, finds_root brentq (skew s) \/ skew s = 0 ->
  (2.82842712474619 < Rabs (skew s) -> par_from_stats brentq s = Err ValueError) /\
  (Rabs (skew s) <= 2.82842712474619 -> exists p, par_from_stats brentq s = Ok p /\ p_sigma p = sigma s /\ p_mean p = mean s /\
     exists a, gam_a p = 1.28 * a /\ gam_b p = 3 * a /\ 1 <= sigma2 p /\ sigma2 p ^ 2 <= 2 /\
       (skew s = 0 -> a = 0 /\ sigma2 p = 1 /\ mean2 p = 0) /\ (skew s <> 0 -> 0 < a * skew s) /\
       ochi_variance_equation a (sigma2 p) /\ ochi_skewness_equation a (sigma2 p) (skew s) /\
       (skew s <> 0 -> exists m, ochi_mean_equation a (sigma2 p) m /\ mean2 p = a / 2 * m /\ (forall m', ochi_mean_equation a (sigma2 p) m' -> Rabs m <= Rabs m'))).
Proof.
  intros brentq s Hroot. split; [intros H; unfold par_from_stats; destruct (Rlt_dec _ _); [reflexivity|lra]|]. intros H.
  unfold par_from_stats. destruct (Rlt_dec _ _) as [?|_]; [lra|].
  destruct (Req_EM_T (skew s) 0) as [Z|Z].
  - eexists. split; [reflexivity|]. cbn [p_sigma p_mean gam_a gam_b sigma2 mean2]. split; [reflexivity|]. split; [reflexivity|].
    exists 0. unfold ochi_variance_equation, ochi_skewness_equation. do 4 (split; [lra|]). split; [auto|]. split; [intros; lra|]. split; [lra|]. split; [lra|]. intros; lra.
  - assert (B : ochi_bracket (skew s)) by (split; auto; apply Rabs_pos_lt; auto).
    destruct (g2_ends _ B) as [G1 G2]. destruct (Rlt_dec 0 (g2 (skew s) 1 * g2 (skew s) 2)) as [Q|_]; [exfalso; nra|].
    destruct Hroot as [[R1 R2]|]; [|contradiction]. set (r := brentq (g2 (skew s)) 1 2) in *. cbv zeta.
    assert (R0 : r <> 1) by (intros E; rewrite E in R2; lra).
    eexists. split; [reflexivity|]. cbn [p_sigma p_mean gam_a gam_b sigma2 mean2]. split; [reflexivity|]. split; [reflexivity|].
    replace (Rabs (r - 1)) with (r - 1) by (symmetry; apply Rabs_pos_eq; lra).
    set (a := sign (skew s) * sqrt ((r - 1) / 2) / r). exists a.
    assert (Sq : sqrt r ^ 2 = r) by (rewrite <- Rsqr_pow2; apply Rsqr_sqrt; lra).
    assert (Hs : sqrt ((r - 1) / 2) * sqrt ((r - 1) / 2) = (r - 1) / 2) by (apply sqrt_sqrt; lra).
    assert (Hs0 : 0 < sqrt ((r - 1) / 2)) by (apply sqrt_lt_R0; lra).
    pose proof (sign_sqr _ Z) as S2.
    assert (A2 : a ^ 2 * r ^ 2 = (r - 1) / 2). { unfold a. replace ((sign (skew s) * sqrt ((r - 1) / 2) / r) ^ 2 * r ^ 2) with ((sign (skew s) * sign (skew s)) * (sqrt ((r - 1) / 2) * sqrt ((r - 1) / 2))) by (field; lra). rewrite S2, Hs. ring. }
    assert (A1 : a * r = sign (skew s) * sqrt ((r - 1) / 2)) by (unfold a; field; lra).
    assert (Apos : 0 < a * skew s).
    { assert (0 < sign (skew s) * skew s) by (unfold sign; destruct (Rlt_dec (skew s) 0); [lra|]; destruct (Rlt_dec 0 (skew s)); lra).
      assert (0 < (a * r) * skew s) by (rewrite A1; nra). assert (0 < r) by lra. nra. }
    assert (A0 : a <> 0) by (intros E; rewrite E in Apos; lra).
    split; [reflexivity|]. split; [reflexivity|]. split; [rewrite <- sqrt_1; apply sqrt_le_1_alt; lra|]. split; [lra|].
    split; [intros; contradiction|]. split; [auto|].
    unfold ochi_variance_equation, ochi_skewness_equation, ochi_mean_equation. replace (sqrt r ^ 4) with (r ^ 2) by (replace (sqrt r ^ 4) with ((sqrt r ^ 2) ^ 2) by ring; rewrite Sq; reflexivity).
    rewrite Sq. split; [nra|]. split.
    + replace r with (1 + (r - 1)) in R2 by ring. rewrite g2_at in R2 by lra.
      assert (S4 : sqrt (2 * (r - 1)) = 2 * sqrt ((r - 1) / 2)). { replace (2 * (r - 1)) with (2 ^ 2 * ((r - 1) / 2)) by field. rewrite sqrt_mult by lra. replace (2 ^ 2) with (2 * 2) by ring. rewrite sqrt_square by lra. reflexivity. }
      rewrite S4 in R2. replace (2 * a * r ^ 2 * (3 - 8 * a ^ 2 * r)) with (2 * (a * r) * (3 * r - 8 * (a ^ 2 * r ^ 2))) by ring. rewrite A2, A1.
      replace (2 * (sign (skew s) * sqrt ((r - 1) / 2)) * (3 * r - 8 * ((r - 1) / 2))) with (sign (skew s) * (2 * sqrt ((r - 1) / 2) * (3 - (r - 1)))) by field.
      replace (2 * sqrt ((r - 1) / 2) * (3 - (r - 1))) with (Rabs (skew s)) by lra. apply sign_abs.
    + intros _. assert (D : 0 <= 1 - 4 * a ^ 2 * r). { assert (a ^ 2 * r * r = (r - 1) / 2) by (rewrite <- A2; ring). assert (a ^ 2 * r <= 1 / 4); [|lra]. apply (Rmult_le_reg_r r); [lra|]. rewrite H0. lra. }
      set (q := sqrt (1 - 4 * a ^ 2 * r)) in *. assert (Q0 : 0 <= q) by apply sqrt_pos. assert (Q2 : q * q = 1 - 4 * a ^ 2 * r) by (apply sqrt_sqrt; auto).
      exists (- 2 * a * r / (1 + q)). split; [|split].
      * apply (Rmult_eq_reg_r ((1 + q) ^ 2)); [|apply pow_nonzero; lra]. rewrite Rmult_0_l.
        replace ((a * (r + (-2 * a * r / (1 + q)) ^ 2) + -2 * a * r / (1 + q)) * (1 + q) ^ 2) with (a * r * ((1 + q) ^ 2 + 4 * a ^ 2 * r - 2 * (1 + q))) by (field; lra).
        replace (4 * a ^ 2 * r) with (1 - q * q) by lra. ring.
      * field. split; lra.
      * intros m' Em'. (* m m' >= ... the two roots have product r and m is the smaller *)
        set (m := -2 * a * r / (1 + q)).
        assert (Em : m * (1 + q) = - 2 * a * r) by (unfold m; field; lra).
        assert (Hm2 : (2 * a * m' + 1) * (2 * a * m' + 1) = q * q) by (rewrite Q2; replace ((2 * a * m' + 1) * (2 * a * m' + 1)) with (4 * a * (a * (r + m' ^ 2) + m') + 1 - 4 * a ^ 2 * r) by ring; rewrite Em'; ring).
        assert (Hc : (2 * a * m' + 1 - q) * (2 * a * m' + 1 + q) = 0) by (replace ((2 * a * m' + 1 - q) * (2 * a * m' + 1 + q)) with ((2 * a * m' + 1) * (2 * a * m' + 1) - q * q) by ring; lra).
        assert (E1 : 2 * Rabs a * Rabs m = 1 - q).
        { replace (2 * Rabs a * Rabs m) with (Rabs (2 * a * m)) by (rewrite !Rabs_mult, (Rabs_pos_eq 2) by lra; ring).
          replace (2 * a * m) with (- (1 - q)); [rewrite Rabs_Ropp; apply Rabs_pos_eq; nra|]. apply (Rmult_eq_reg_r (1 + q)); [|lra]. replace (2 * a * m * (1 + q)) with (2 * a * (m * (1 + q))) by ring. rewrite Em. replace (2 * a * (-2 * a * r)) with (- (4 * a ^ 2 * r)) by ring. replace (4 * a ^ 2 * r) with (1 - q * q) by lra. ring. }
        assert (E2 : 2 * Rabs a * Rabs m' = Rabs (2 * a * m')) by (rewrite !Rabs_mult, (Rabs_pos_eq 2) by lra; ring).
        assert (1 - q <= Rabs (2 * a * m')). { apply Rmult_integral in Hc. destruct Hc as [Hc|Hc]; unfold Rabs; destruct (Rcase_abs _); lra. }
        assert (0 < Rabs a) by (apply Rabs_pos_lt; auto). nra.
Qed.
