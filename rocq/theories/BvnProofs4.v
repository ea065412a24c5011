From Coq Require Import Reals List ZArith Bool Lra Lia Psatz.
From Coquelicot Require Import Coquelicot.
From Verif Require Import KernelProofs3 RvModel RvnModel RvnProofs PolyModel BvnModel BvnSpec BvnProofs BvnProofs3.
Import ListNotations.
Local Open Scope R_scope.

Lemma rule_exact r : let '(X, W) := rule r in exact_rule (2 / 10 ^ 15) 12 X W.
Proof.
  assert (M : forall e n X W, 0 <= e <= 2 / 10 ^ 15 -> (12 <= n)%nat -> exact_rule e n X W -> exact_rule (2 / 10 ^ 15) 12 X W).
  { intros e n X W He Hn H c L. eapply Rle_trans; [apply H; lia|]. apply Rmult_le_compat_r; [|lra]. unfold size. clear. induction c as [|a c IH]; cbn; [lra|]. pose proof (Rabs_pos a). lra. }
  unfold rule. destruct (Rle_dec _ r); [|destruct (Rle_dec _ r)].
  - apply (M (1 / 10 ^ 16) 40%nat); [lra|lia|exact exact20].
  - apply (M (3 / 10 ^ 16) 24%nat); [lra|lia|exact exact12].
  - exact exact6.
Qed.
Lemma signed_combine X W f : signed X W f = fold_right Rplus 0 (map (fun xw => f (- fst xw) (snd xw) + f (fst xw) (snd xw)) (combine X W)).
Proof. unfold signed, sumf. revert W. induction X as [|x X IH]; intros [|w W]; cbn; auto. f_equal. apply IH. Qed.
Lemma cos_asin_pos r x : Rabs r < 1 -> -1 <= x <= 1 -> 0 < cos (asin r * (x + 1) / 2).
Proof.
  intros H X. apply Rabs_def2 in H. pose proof (asin_bound r) as B. pose proof PI_RGT_0. assert (A : - (PI / 2) < asin r < PI / 2). { split. - destruct (Req_dec (asin r) (- (PI / 2))) as [E|E]; [|lra]. pose proof (sin_asin r ltac:(lra)) as S. rewrite E, sin_neg, sin_PI2 in S. lra. - destruct (Req_dec (asin r) (PI / 2)) as [E|E]; [|lra]. pose proof (sin_asin r ltac:(lra)) as S. rewrite E, sin_PI2 in S. lra. }
  apply cos_gt_0; nra.
Qed.
Lemma quadrature b1 b2 r : Rabs r < 925 / 1000 -> exists X W, exact_rule (2 / 10 ^ 15) 12 X W /\
  value (cdfnorm2 b1 b2 r) = ndtr b1 * ndtr b2 + 1 / (2 * PI) * (asin r / 2 *
    fold_right Rplus 0 (map (fun xw => snd xw * (bend b1 b2 (asin r * (- fst xw + 1) / 2) + bend b1 b2 (asin r * (fst xw + 1) / 2))) (combine X W))).
Proof.
  intros H. rewrite at_moderate by exact H. cbn [value]. unfold moderate. pose proof (rule_exact r) as E. destruct (rule r) as [X W]. exists X, W. split; [exact E|]. rewrite signed_combine, !fi_ndtr, !Ropp_involutive.
  rewrite (map_ext _ (fun xw => snd xw * (bend b1 b2 (asin r * (- fst xw + 1) / 2) + bend b1 b2 (asin r * (fst xw + 1) / 2)))).
  2: { intros [x w]. cbn [fst snd]. assert (Q : forall t, integrand (- b1 * - b2) (((- b1) ^ 2 + (- b2) ^ 2) / 2) (sin t) = bend b1 b2 t); [|rewrite !Q; ring]. intros t. unfold integrand, bend. f_equal. pose proof (sin2_cos2 t) as P. unfold Rsqr in P.
       replace (1 - sin t * sin t) with (cos t ^ 2) by (cbn; lra). destruct (Req_dec (cos t) 0) as [Z|Z]; [|field; exact Z]. rewrite Z. unfold Rdiv. replace (0 ^ 2) with 0 by ring. rewrite Rmult_0_r, Rinv_0. ring. }
  set (s := fold_right _ _ _). pose proof PI_RGT_0. field. lra.
Qed.
Lemma median r : Rabs r < 925 / 1000 -> Rabs (value (cdfnorm2 0 0 r) - (1 / 4 + asin r / (2 * PI))) <= 1 / 10 ^ 15.
Proof.
  intros H. destruct (quadrature 0 0 r H) as (X & W & E & ->). rewrite ndtr_0.
  specialize (E [1] ltac:(cbn; lia)). assert (P1 : RInt (poly [1]) (-1) 1 = 2). { apply (is_RInt_unique (V := R_CompleteNormedModule)). apply (is_RInt_ext (fun x => x ^ 0)). 1: { intros x _. cbn. rewrite Rmult_0_r, Rplus_0_r. reflexivity. } pose proof (power_integral 0) as P. unfold true_moment in P. refine (eq_ind _ (fun v : R => is_RInt (fun x : R => x ^ 0) (-1) 1 v) P 2 _). cbn. field. }
  rewrite P1 in E. unfold size in E. cbn [fold_right] in E. rewrite Rabs_R1 in E.
  set (T := fold_right Rplus 0 (map (fun xw => snd xw * (bend 0 0 (asin r * (- fst xw + 1) / 2) + bend 0 0 (asin r * (fst xw + 1) / 2))) (combine X W))).
  assert (Q : T = fold_right Rplus 0 (map (fun xw : R * R => snd xw * (poly [1] (- fst xw) + poly [1] (fst xw))) (combine X W))).
  { unfold T. f_equal. apply map_ext. intros [x w]. cbn [fst snd poly]. assert (B : forall t, bend 0 0 t = 1). { intros t. unfold bend. replace (0 ^ 2 - 2 * 0 * 0 * sin t + 0 ^ 2) with 0 by ring. unfold Rdiv. rewrite Rmult_0_l, Ropp_0. apply exp_0. } rewrite !B. ring. }
  rewrite <- Q in E. pose proof PI_RGT_0 as PP. pose proof (asin_bound r) as A.
  replace (/ 2 * / 2 + 1 / (2 * PI) * (asin r / 2 * T) - (1 / 4 + asin r / (2 * PI))) with (asin r / (4 * PI) * (T - 2)) by (field; lra).
  rewrite Rabs_mult. assert (A2 : Rabs (asin r / (4 * PI)) <= 1 / 8). { apply Rabs_le. split; apply (Rmult_le_reg_r (4 * PI)); try lra; replace (asin r / (4 * PI) * (4 * PI)) with (asin r) by (field; lra); lra. }
  pose proof (Rabs_pos (T - 2)). pose proof (Rabs_pos (asin r / (4 * PI))). assert (Rabs (asin r / (4 * PI)) * Rabs (T - 2) <= 1 / 8 * (2 / 10 ^ 15 * (1 + 0))); [|lra]. apply Rmult_le_compat; assumption.
Qed.

(* local maxima *)
Lemma pdf_derive u : is_derive norm_pdf u (- u * norm_pdf u).
Proof. unfold norm_pdf. auto_derive; [exact I|]. unfold norm_pdf_C. pose proof root2pi. change (u ^ 2) with (u * (u * 1)). unfold Rdiv. set (E := exp _). set (c := sqrt _) in *. field. lra. Qed.
Lemma mills t : 0 < t -> ndtr (- t) < norm_pdf t / t.
Proof.
  intros T. set (h := fun t => ndtr (- t) - norm_pdf t / t).
  assert (D : forall v, 0 < v -> is_derive h v (norm_pdf v / v ^ 2)).
  { intros v V. unfold h. replace (norm_pdf v / v ^ 2) with (minus (- 1 * norm_pdf (- v)) ((- v * norm_pdf v * v - norm_pdf v * 1) / v ^ 2)).
    2: { unfold minus, plus, opp; cbn -[norm_pdf]. rewrite norm_pdf_even. field. lra. }
    apply (is_derive_minus (fun v => ndtr (- v)) (fun v => norm_pdf v / v)).
    - apply (is_derive_comp ndtr (fun v => - v) v (norm_pdf (- v)) (- 1)); [apply ndtr_derive|]. apply (is_derive_opp (fun v : R => v)). apply (is_derive_id (K := R_AbsRing)).
    - apply (is_derive_div norm_pdf (fun v => v) v (- v * norm_pdf v) 1); [apply pdf_derive|apply (is_derive_id (K := R_AbsRing))|lra]. }
  assert (M : forall a b, 0 < a -> a < b -> h a < h b).
  { intros a b A B. destruct (MVT_gen h a b (fun v => norm_pdf v / v ^ 2)) as (c & Hc & E).
    - intros x. rewrite Rmin_left, Rmax_right by lra. intros X. apply D. lra.
    - intros x. rewrite Rmin_left, Rmax_right by lra. intros X. apply continuity_pt_filterlim. apply (ex_derive_continuous h). eexists. apply D. lra.
    - rewrite Rmin_left, Rmax_right in Hc by lra. assert (0 < norm_pdf c / c ^ 2). { apply Rdiv_lt_0_compat; [apply norm_pdf_pos|apply pow_lt; lra]. } nra. }
  destruct (Rlt_dec (h t) 0) as [L|L]; [unfold h in L; lra|]. exfalso.
  pose proof (M t (t + 1) T ltac:(lra)) as P. assert (Hd : 0 < h (t + 1)) by lra. destruct (ndtr_top _ Hd) as (x & Hx).
  set (v := Rmax x (t + 2)). assert (V1 : x <= v) by apply Rmax_l. assert (V2 : t + 2 <= v) by apply Rmax_r. pose proof (M (t + 1) v ltac:(lra) ltac:(lra)) as Q.
  assert (W : ndtr x <= ndtr v). { destruct V1 as [V1|V1]; [apply ndtr_increasing in V1; lra|rewrite V1; lra]. }
  assert (U : h v <= 1 - ndtr v). { unfold h. rewrite ndtr_neg. assert (0 < norm_pdf v / v) by (apply Rdiv_lt_0_compat; [apply norm_pdf_pos|lra]). lra. } lra.
Qed.
Lemma mills_both u : 0 < norm_pdf u + u * ndtr u.
Proof.
  destruct (Rlt_dec u 0) as [L|L].
  - pose proof (mills (- u) ltac:(lra)) as M. rewrite Ropp_involutive, norm_pdf_even in M. assert (ndtr u * - u < norm_pdf u); [|lra]. apply (Rmult_lt_compat_r (- u)) in M; [|lra]. replace (norm_pdf u / - u * - u) with (norm_pdf u) in M by (field; lra). exact M.
  - pose proof (norm_pdf_pos u). pose proof (ndtr_values u). nra.
Qed.
Definition lomax (alpha m0 x : R) : R := let c1 := 1 / sqrt (1 - alpha ^ 2) * x / sqrt m0 in ndtr c1 - alpha * exp (- x ^ 2 / 2 / m0) * ndtr (alpha * c1).
Lemma lomax_value alpha m0 x : Rabs alpha < 1 -> cdflomax x alpha m0 = Some (lomax alpha m0 x).
Proof.
  intros H. apply Rabs_def2 in H. assert (0 < 1 - alpha ^ 2) by nra. unfold cdflomax, lomax. destruct (Rlt_dec _ 0); [lra|]. destruct (Req_EM_T _ 0); [lra|reflexivity].
Qed.
Lemma lomax_parts alpha m0 : Rabs alpha < 1 -> 0 < m0 -> 0 < sqrt (1 - alpha ^ 2) /\ sqrt (1 - alpha ^ 2) ^ 2 = 1 - alpha ^ 2 /\ 0 < sqrt m0 /\ sqrt m0 ^ 2 = m0.
Proof. intros H M. apply Rabs_def2 in H. assert (0 < 1 - alpha ^ 2) by nra. repeat split; try (apply sqrt_lt_R0; assumption); apply pow2_sqrt; lra. Qed.
Lemma lomax_derive alpha m0 x : Rabs alpha < 1 -> 0 < m0 -> is_derive (lomax alpha m0) x (rice alpha m0 x) /\ 0 < rice alpha m0 x.
Proof.
  intros H M. destruct (lomax_parts alpha m0 H M) as (S & S2 & Q & Q2). unfold lomax, rice. set (s := sqrt (1 - alpha ^ 2)) in *. set (q := sqrt m0) in *. cbv zeta. set (y := x / q).
  assert (E1 : norm_pdf (y / s) = exp (- (y ^ 2 / 2)) * norm_pdf (alpha * y / s)).
  { unfold norm_pdf. transitivity (exp (- (y ^ 2 / 2)) * exp (- (alpha * y / s) ^ 2 / 2) / norm_pdf_C); [|unfold Rdiv; ring]. rewrite <- exp_plus. f_equal. f_equal. assert (A2 : alpha ^ 2 = 1 - s ^ 2) by lra. replace ((alpha * y / s) ^ 2) with (alpha ^ 2 * y ^ 2 / s ^ 2) by (field; lra). rewrite A2. field. lra. }
  assert (A2 : alpha ^ 2 = 1 - s ^ 2) by lra.
  split.
  - set (k := 1 / s / q). 
    assert (D : forall b, is_derive (fun x => ndtr (b * (1 / s * x / q))) x (b * k * norm_pdf (b * (1 / s * x / q)))).
    { intros b. apply (is_derive_comp ndtr (fun x => b * (1 / s * x / q)) x (norm_pdf (b * (1 / s * x / q))) (b * k)); [apply ndtr_derive|]. unfold k. auto_derive; [exact I|]. field. lra. }
    assert (G : is_derive (fun x => exp (- x ^ 2 / 2 / m0)) x (- (x / m0) * exp (- x ^ 2 / 2 / m0))). { auto_derive; [exact I|]. change (x ^ 2) with (x * (x * 1)). unfold Rdiv. set (E := exp _). field. lra. }
    pose proof (D alpha) as Da. pose proof (D 1) as D1. pose proof (is_derive_mult _ _ _ _ _ G Da Rmult_comm) as P. pose proof (is_derive_scal _ _ alpha _ P) as P2. pose proof (is_derive_minus _ _ _ _ _ D1 P2) as F.
    apply (is_derive_ext _ (fun x0 => ndtr (1 / s * x0 / q) - alpha * exp (- x0 ^ 2 / 2 / m0) * ndtr (alpha * (1 / s * x0 / q)))) in F.
    2: { intros t. unfold minus, plus, opp, mult; cbn -[ndtr]. rewrite Rmult_1_l. unfold Rminus. f_equal. f_equal. ring. }
    refine (eq_ind _ (fun v : R => is_derive _ x v) F _ _). unfold minus, plus, opp, mult; cbn -[norm_pdf pow ndtr].
    replace (1 * (1 / s * x / q)) with (y / s) by (unfold y; field; lra). replace (alpha * (1 / s * x / q)) with (alpha * y / s) by (unfold y; field; lra).
    replace (- x ^ 2 / 2 / m0) with (- (y ^ 2 / 2)) by (unfold y; rewrite <- Q2; field; lra).
    assert (E2 : exp (- (y ^ 2 / 2)) * norm_pdf (alpha * y / s) = norm_pdf (y / s)) by (symmetry; exact E1).
    replace (x / m0) with (y / q) by (unfold y; rewrite <- Q2; field; lra). unfold k. set (e := exp (- (y ^ 2 / 2))) in *. set (p := norm_pdf (y / s)) in *. set (pa := norm_pdf (alpha * y / s)) in *. set (N := ndtr (alpha * y / s)).
    transitivity (1 * (1 / s / q) * p - alpha * (- (y / q) * e * N + alpha * (1 / s / q) * (e * pa))); [ring|]. rewrite E2. transitivity ((1 - alpha ^ 2) / (s * q) * p + alpha * (y / q) * e * N); [field; lra|]. rewrite A2. field. lra.
  - rewrite E1. set (u := alpha * y / s). replace (alpha * y) with (s * u) by (unfold u; field; lra). set (e := exp (- (y ^ 2 / 2))). assert (0 < e) by apply exp_pos. pose proof (mills_both u) as U.
    replace ((s * (e * norm_pdf u) + s * u * e * ndtr u) / q) with (s * e * (norm_pdf u + u * ndtr u) / q) by (field; lra). apply Rdiv_lt_0_compat; [|exact Q]. repeat apply Rmult_lt_0_compat; assumption.
Qed.
Lemma lomax_increasing alpha m0 x y : Rabs alpha < 1 -> 0 < m0 -> x < y -> lomax alpha m0 x < lomax alpha m0 y.
Proof.
  intros H M L. destruct (MVT_gen (lomax alpha m0) x y (rice alpha m0)) as (c & Hc & E).
  - intros t _. now apply lomax_derive.
  - intros t _. apply continuity_pt_filterlim, (ex_derive_continuous (lomax alpha m0)). eexists. now apply lomax_derive.
  - destruct (lomax_derive alpha m0 c H M) as [_ P]. nra.
Qed.
Lemma lomax_ends alpha m0 e : Rabs alpha < 1 -> 0 < m0 -> 0 < e -> exists b, 0 < b /\ (forall x, x <= - b -> Rabs (lomax alpha m0 x) < e) /\ (forall x, b <= x -> Rabs (lomax alpha m0 x - 1) < e).
Proof.
  intros H M He. destruct (lomax_parts alpha m0 H M) as (S & S2 & Q & Q2). destruct (ndtr_top (e / 2) ltac:(lra)) as (z & Hz).
  set (s := sqrt (1 - alpha ^ 2)) in *. set (q := sqrt m0) in *.
  set (b := Rmax (z * s * q) (4 * m0 / e + 1)). assert (B1 : z * s * q <= b) by apply Rmax_l. assert (B2 : 4 * m0 / e + 1 <= b) by apply Rmax_r.
  assert (P4 : 0 < 4 * m0 / e) by (apply Rdiv_lt_0_compat; lra).
  assert (K : forall x, b <= Rabs x -> Rabs (alpha * exp (- x ^ 2 / 2 / m0) * ndtr (alpha * (1 / s * x / q))) < e / 2).
  { intros x X. rewrite !Rabs_mult, (Rabs_right (exp _)) by (apply Rle_ge, Rlt_le, exp_pos). pose proof (ndtr_values (alpha * (1 / s * x / q))) as V. rewrite (Rabs_right (ndtr _)) by lra.
    assert (X2 : b * 1 <= x ^ 2). { rewrite <- (pow2_abs x). replace (Rabs x ^ 2) with (Rabs x * Rabs x) by ring. apply Rmult_le_compat; lra. }
    assert (Y : 2 / e < x ^ 2 / 2 / m0). { apply (Rmult_lt_reg_r (2 * m0)); [lra|]. replace (x ^ 2 / 2 / m0 * (2 * m0)) with (x ^ 2) by (field; lra). replace (2 / e * (2 * m0)) with (4 * m0 / e) by (field; lra). lra. }
    assert (G : exp (- x ^ 2 / 2 / m0) < e / 2). { replace (- x ^ 2 / 2 / m0) with (- (x ^ 2 / 2 / m0)) by (field; lra). rewrite exp_Ropp. replace (e / 2) with (/ (2 / e)) by (field; lra). assert (0 < 2 / e) by (apply Rdiv_lt_0_compat; lra). pose proof (exp_ineq1 (x ^ 2 / 2 / m0) ltac:(lra)). apply Rinv_lt_contravar; [|lra]. apply Rmult_lt_0_compat; [assumption|apply exp_pos]. }
    pose proof (exp_pos (- x ^ 2 / 2 / m0)) as G0. set (g := exp (- x ^ 2 / 2 / m0)) in *. set (n := ndtr _) in *. pose proof (Rabs_pos alpha). apply Rle_lt_trans with (1 * g * 1); [|lra]. apply Rmult_le_compat; [apply Rmult_le_pos; lra|lra| |lra]. apply Rmult_le_compat_r; lra. }
  exists b. split; [lra|]. split; intros x X.
  - assert (Xb : b <= Rabs x) by (rewrite Rabs_left by lra; lra). specialize (K x Xb). unfold lomax. fold s q. cbv zeta. assert (C : ndtr (1 / s * x / q) < e / 2).
    { apply Rle_lt_trans with (ndtr (- z)); [|rewrite ndtr_neg; lra]. assert (A : 1 / s * x / q <= - z). { apply (Rmult_le_reg_r (s * q)); [apply Rmult_lt_0_compat; assumption|]. replace (1 / s * x / q * (s * q)) with x by (field; lra). lra. } destruct A as [A|A]; [apply ndtr_increasing in A; lra|rewrite A; lra]. }
    pose proof (ndtr_values (1 / s * x / q)). apply Rabs_def2 in K. apply Rabs_def1; lra.
  - assert (Xb : b <= Rabs x) by (rewrite Rabs_right by lra; lra). specialize (K x Xb). unfold lomax. fold s q. cbv zeta. assert (C : 1 - e / 2 < ndtr (1 / s * x / q)).
    { apply Rlt_le_trans with (ndtr z); [exact Hz|]. assert (A : z <= 1 / s * x / q). { apply (Rmult_le_reg_r (s * q)); [apply Rmult_lt_0_compat; assumption|]. replace (1 / s * x / q * (s * q)) with x by (field; lra). lra. } destruct A as [A|A]; [apply ndtr_increasing in A; lra|rewrite A; lra]. }
    pose proof (ndtr_values (1 / s * x / q)). apply Rabs_def2 in K. apply Rabs_def1; lra.
Qed.
Lemma lomax_distribution alpha m0 : Rabs alpha < 1 -> 0 < m0 -> distribution_function (fun x => value (cdflomax x alpha m0)).
Proof.
  intros H M. assert (V : forall x, value (cdflomax x alpha m0) = lomax alpha m0 x) by (intros; now rewrite lomax_value).
  constructor.
  - intros x y L. rewrite !V. now apply lomax_increasing.
  - intros x. apply (continuous_ext (lomax alpha m0)); [intros; symmetry; apply V|]. apply (ex_derive_continuous (lomax alpha m0)). eexists. now apply lomax_derive.
  - intros x. rewrite V. split.
    + destruct (Rlt_dec 0 (lomax alpha m0 x)) as [A|A]; [exact A|exfalso]. pose proof (lomax_increasing alpha m0 (x - 1) x H M ltac:(lra)) as I. destruct (lomax_ends alpha m0 (- lomax alpha m0 (x - 1)) H M ltac:(lra)) as (b & Hb & L & _). specialize (L (Rmin (- b) (x - 2)) (Rmin_l _ _)). pose proof (lomax_increasing alpha m0 (Rmin (- b) (x - 2)) (x - 1) H M ltac:(pose proof (Rmin_r (- b) (x - 2)); lra)). apply Rabs_def2 in L. lra.
    + destruct (Rlt_dec (lomax alpha m0 x) 1) as [A|A]; [exact A|exfalso]. pose proof (lomax_increasing alpha m0 x (x + 1) H M ltac:(lra)) as I. destruct (lomax_ends alpha m0 (lomax alpha m0 (x + 1) - 1) H M ltac:(lra)) as (b & Hb & _ & L). specialize (L (Rmax b (x + 2)) (Rmax_l _ _)). pose proof (lomax_increasing alpha m0 (x + 1) (Rmax b (x + 2)) H M ltac:(pose proof (Rmax_r b (x + 2)); lra)). apply Rabs_def2 in L. lra.
  - intros e He. destruct (lomax_ends alpha m0 e H M He) as (b & Hb & L & _). exists (- b). rewrite V. specialize (L (- b) ltac:(lra)). apply Rabs_def2 in L. lra.
  - intros e He. destruct (lomax_ends alpha m0 e H M He) as (b & Hb & _ & L). exists b. rewrite V. specialize (L b ltac:(lra)). apply Rabs_def2 in L. lra.
Qed.
Lemma lomax_density alpha m0 x : Rabs alpha < 1 -> 0 < m0 -> is_derive (fun x => value (cdflomax x alpha m0)) x (rice alpha m0 x).
Proof. intros H M. apply (is_derive_ext (lomax alpha m0)); [intros; now rewrite lomax_value|]. now apply lomax_derive. Qed.
Lemma lomax_normal m0 x : cdflomax x 0 m0 = Some (ndtr (x / sqrt m0)).
Proof. rewrite lomax_value by (rewrite Rabs_R0; lra). unfold lomax. replace (1 - 0 ^ 2) with 1 by ring. rewrite sqrt_1. cbv zeta. replace (1 / 1 * x / sqrt m0) with (x / sqrt m0) by (unfold Rdiv; rewrite Rinv_1; ring). f_equal. ring. Qed.
Lemma lomax_rayleigh m0 x : (0 < x -> cdflomax x 1 m0 = Some (1 - exp (- x ^ 2 / 2 / m0))) /\ (x < 0 -> cdflomax x 1 m0 = Some 0) /\ cdflomax 0 1 m0 = None.
Proof.
  assert (Z : 1 - 1 ^ 2 = 0) by ring. unfold cdflomax. rewrite Z. destruct (Rlt_dec 0 0) as [A|_]; [lra|]. destruct (Req_EM_T 0 0) as [_|A]; [|lra].
  repeat split; try intros X.
  - destruct (Req_EM_T x 0); [lra|]. destruct (Rlt_dec 0 x); [|lra]. destruct (Rlt_dec 0 (1 * x)); [|lra]. f_equal. ring.
  - destruct (Req_EM_T x 0); [lra|]. destruct (Rlt_dec 0 x); [lra|]. destruct (Rlt_dec 0 (1 * x)); [lra|]. f_equal. ring.
Qed.
Lemma lomax_invalid x alpha m0 : 1 < Rabs alpha -> cdflomax x alpha m0 = None.
Proof. intros H. unfold cdflomax. destruct (Rlt_dec _ 0) as [_|A]; [reflexivity|]. exfalso. apply A. assert (1 < alpha ^ 2); [|lra]. rewrite <- pow2_abs. nra. Qed.
