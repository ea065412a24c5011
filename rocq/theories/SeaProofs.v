From Coq Require Import Reals Lra Lia.
From Coquelicot Require Import Coquelicot.
From Verif Require Import Base PolyModel WaveModel SeaModel SeaSpec.
Local Open Scope R_scope.

(* ---- the shape ---- *)
Lemma exp_gt x : x <> 0 -> 1 + x < exp x.
Proof. apply exp_ineq1. Qed.
Definition height (N M u : R) : R := N * u + N / M * exp (- M * u).
Lemma height_down N M u v : 0 < N -> 0 < M -> u < v -> v <= 0 -> height N M v < height N M u.
Proof.
  intros HN HM H Hv. unfold height. assert (E : exp (- M * u) = exp (- M * v) * exp (M * (v - u))) by (rewrite <- exp_plus; f_equal; ring).
  pose proof (exp_gt (M * (v - u))) as G. assert (Hp : 0 < M * (v - u)) by nra. specialize (G ltac:(lra)).
  assert (H1 : 1 <= exp (- M * v)). { rewrite <- exp_0. destruct (Req_dec v 0) as [->|]; [right; f_equal; ring|left; apply exp_increasing; nra]. }
  set (a := exp (- M * v)) in *. set (b := exp (M * (v - u))) in *. rewrite E.
  assert (Hq : M * (v - u) < a * (b - 1)) by nra.
  assert (Hr : N * (v - u) < N / M * (a * (b - 1))). { replace (N * (v - u)) with (N / M * (M * (v - u))) by (field; lra). apply Rmult_lt_compat_l; [apply Rdiv_lt_0_compat; lra|easy]. }
  replace (N / M * (a * b)) with (N / M * (a * (b - 1)) + N / M * a) by ring. lra.
Qed.
Lemma height_up N M u v : 0 < N -> 0 < M -> 0 <= u -> u < v -> height N M u < height N M v.
Proof.
  intros HN HM Hu H. unfold height. assert (E : exp (- M * v) = exp (- M * u) * exp (- (M * (v - u)))) by (rewrite <- exp_plus; f_equal; ring).
  pose proof (exp_gt (- (M * (v - u)))) as G. assert (Hp : 0 < M * (v - u)) by nra. specialize (G ltac:(lra)).
  assert (H1 : exp (- M * u) <= 1). { rewrite <- exp_0. destruct (Req_dec u 0) as [->|]; [right; f_equal; ring|left; apply exp_increasing; nra]. }
  pose proof (exp_pos (- M * u)) as H2. set (a := exp (- M * u)) in *. set (b := exp (- (M * (v - u)))) in *. rewrite E.
  assert (Hq : a * (1 - b) < M * (v - u)) by nra.
  assert (Hr : N / M * (a * (1 - b)) < N * (v - u)). { replace (N * (v - u)) with (N / M * (M * (v - u))) by (field; lra). apply Rmult_lt_compat_l; [apply Rdiv_lt_0_compat; lra|easy]. }
  replace (N / M * a) with (N / M * (a * (1 - b)) + N / M * (a * b)) by ring. lra.
Qed.
Definition log_scale (g : R -> R) (N M : R) : R := (N - 1) / M * ln (N / M) + ln M - g ((N - 1) / M).
Lemma gengam_pos_val g N M x : 0 < x -> gengamspec g N M x = exp (log_scale g N M - height N M (ln x)).
Proof. intros H. unfold gengamspec. destruct (Rlt_dec 0 x); [|lra]. f_equal. unfold log_scale, height. ring. Qed.
Lemma gengam_neg g N M x : x <= 0 -> gengamspec g N M x = 0.
Proof. intros H. unfold gengamspec. destruct (Rlt_dec 0 x); [lra|easy]. Qed.
Lemma gengam_pos g N M x : 0 < x -> 0 < gengamspec g N M x.
Proof. intros H. rewrite gengam_pos_val by easy. apply exp_pos. Qed.
Lemma gengam_nonneg g N M x : 0 <= gengamspec g N M x.
Proof. destruct (Rlt_dec 0 x); [left; now apply gengam_pos|rewrite gengam_neg; lra]. Qed.
Lemma ln_le1 x : 0 < x -> x <= 1 -> ln x <= 0.
Proof. intros H H1. rewrite <- ln_1. destruct H1 as [H1| ->]; [left; now apply ln_increasing|right; reflexivity]. Qed.
Lemma ln_ge1 x : 1 <= x -> 0 <= ln x.
Proof. intros H1. rewrite <- ln_1. destruct H1 as [H1| <-]; [left; apply ln_increasing; lra|right; reflexivity]. Qed.
Lemma gengam_peak g N M : 0 < N -> 0 < M -> single_peak (gengamspec g N M) 1.
Proof.
  intros HN HM. split; intros x y H1 H2.
  - intros H3. rewrite !gengam_pos_val by lra. apply exp_increasing. enough (height N M (ln y) < height N M (ln x)) by lra.
    apply height_down; [easy|easy|apply ln_increasing; lra|apply ln_le1; lra].
  - rewrite !gengam_pos_val by lra. apply exp_increasing. enough (height N M (ln x) < height N M (ln y)) by lra.
    apply height_up; [easy|easy|now apply ln_ge1|apply ln_increasing; lra].
Qed.

(* ---- continuity, also at 0 ---- *)
Lemma gengam_small g N M : 0 < N -> 0 < M -> forall eps, 0 < eps -> exists d, 0 < d /\ forall x, 0 < x < d -> gengamspec g N M x < eps.
Proof.
  intros HN HM eps He. set (A := log_scale g N M). set (c := N / M * (M ^ 2 / 4)).
  assert (Hc : 0 < c). { unfold c. apply Rmult_lt_0_compat; [now apply Rdiv_lt_0_compat|]. nra. }
  set (v0 := Rmax 0 (Rmax ((N + 1) / c) (A - ln eps))). exists (exp (- v0)). split; [apply exp_pos|]. intros x Hx.
  rewrite gengam_pos_val by lra. fold A. set (v := - ln x).
  assert (Hv : v0 < v). { unfold v. enough (ln x < - v0) by lra. rewrite <- (ln_exp (- v0)). apply ln_increasing; lra. }
  assert (Hv1 : 0 <= v0) by apply Rmax_l.
  assert (Hv2 : (N + 1) / c <= v0) by (eapply Rle_trans; [apply Rmax_l|apply Rmax_r]).
  assert (Hv3 : A - ln eps <= v0) by (eapply Rle_trans; [apply Rmax_r|apply Rmax_r]).
  rewrite <- (exp_ln eps) by easy. apply exp_increasing. unfold height. replace (ln x) with (- v) by (unfold v; ring).
  assert (Hq : (M * v) ^ 2 / 4 <= exp (- M * - v)).
  { replace (- M * - v) with (M * v / 2 + M * v / 2) by field. rewrite exp_plus. pose proof (exp_ineq1_le (M * v / 2)). assert (0 < M * v) by nra. nra. }
  assert (Hr : c * v ^ 2 <= N / M * exp (- M * - v)).
  { unfold c. replace (N / M * (M ^ 2 / 4) * v ^ 2) with (N / M * ((M * v) ^ 2 / 4)) by (field; lra). apply Rmult_le_compat_l; [|easy]. left; now apply Rdiv_lt_0_compat. }
  assert (Hs : N + 1 < c * v). { apply (Rmult_lt_reg_l (/ c)); [now apply Rinv_0_lt_compat|]. replace (/ c * (c * v)) with v by (field; lra). replace (/ c * (N + 1)) with ((N + 1) / c) by (unfold Rdiv; ring). lra. }
  nra.
Qed.
Lemma gengam_continuous g N M x : 0 < N -> 0 < M -> continuous (gengamspec g N M) x.
Proof.
  intros HN HM. destruct (Rtotal_order x 0) as [H|[H|H]].
  - apply (continuous_ext_loc _ (fun _ => 0)); [|apply continuous_const].
    exists (mkposreal (- x) ltac:(lra)). intros y Hy. symmetry. apply gengam_neg. change (Rabs (y - x) < - x) in Hy. apply Rabs_def2 in Hy. lra.
  - subst x. intros P [eps HP]. destruct (gengam_small g N M HN HM eps (cond_pos eps)) as (d & Hd & Hs).
    exists (mkposreal d Hd). intros y Hy. apply HP. rewrite (gengam_neg _ _ _ 0) by lra. change (Rabs (gengamspec g N M y - 0) < eps).
    change (Rabs (y - 0) < d) in Hy. apply Rabs_def2 in Hy. rewrite Rminus_0_r. rewrite Rabs_pos_eq by apply gengam_nonneg.
    destruct (Rlt_dec 0 y); [apply Hs; lra|]. rewrite gengam_neg by lra. apply cond_pos.
  - apply (continuous_ext_loc _ (fun y => exp (log_scale g N M - height N M (ln y)))).
    + exists (mkposreal x H). intros y Hy. symmetry. apply gengam_pos_val. change (Rabs (y - x) < x) in Hy. apply Rabs_def2 in Hy. lra.
    + apply (ex_derive_continuous (V := R_NormedModule)). unfold height. auto_derive. lra.
Qed.

(* ---- integrals ---- *)
Lemma cont_area f a b : (forall x, continuous f x) -> area f a b (RInt f a b).
Proof. intros H. apply (@RInt_correct R_CompleteNormedModule). apply (@ex_RInt_continuous R_CompleteNormedModule). intros; apply H. Qed.
Lemma area_unique f a b l : area f a b l -> RInt f a b = l.
Proof. intros H. now apply is_RInt_unique. Qed.
Lemma RInt_at0 f : (forall x, continuous f x) -> filterlim (fun a => RInt f 0 a) (at_right 0) (locally 0).
Proof.
  intros H. assert (C : continuous (fun a => RInt f 0 a) 0).
  { apply (ex_derive_continuous (V := R_NormedModule)). exists (f 0). apply (is_derive_RInt f (fun a => RInt f 0 a) 0 0); [|apply H].
    apply filter_forall. intros y. now apply cont_area. }
  unfold continuous in C. assert (E0 : RInt f 0 0 = 0) by (rewrite RInt_point; reflexivity). rewrite E0 in C.
  eapply filterlim_filter_le_1; [|exact C]. intros P HP. unfold at_right, within. apply (filter_imp P); [easy|exact HP].
Qed.
(* an integral from 0 as the limit of integrals from a *)
Lemma area_from0 f (F : R -> R) W l : (forall x, continuous f x) -> 0 < W -> (forall a, 0 < a < W -> RInt f a W = F a) ->
  filterlim F (at_right 0) (locally l) -> area f 0 W l.
Proof.
  intros Hf HW HF Hl. replace l with (RInt f 0 W); [now apply cont_area|].
  assert (L1 : filterlim (fun a => RInt f 0 a + F a) (at_right 0) (locally (0 + l))).
  { eapply filterlim_comp_2; [apply RInt_at0, Hf|exact Hl|]. apply (filterlim_plus (V := R_NormedModule)). }
  rewrite Rplus_0_l in L1.
  assert (L2 : filterlim (fun a => RInt f 0 a + F a) (at_right 0) (locally (RInt f 0 W))).
  { apply (filterlim_ext_loc (fun _ => RInt f 0 W)); [|apply filterlim_const]. unfold at_right, within. exists (mkposreal W HW). intros a Ha H0.
    change (Rabs (a - 0) < W) in Ha. apply Rabs_def2 in Ha. rewrite <- HF by lra. symmetry. apply (RInt_Chasles f 0 a W).
    - now exists (RInt f 0 a); apply cont_area.
    - now exists (RInt f a W); apply cont_area. }
  exact (filterlim_locally_unique (K := R_AbsRing) (V := R_NormedModule) _ _ _ L2 L1).
Qed.
