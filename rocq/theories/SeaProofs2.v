From Coq Require Import Reals Lra Lia.
From Coquelicot Require Import Coquelicot.
From Verif Require Import Base PolyModel WaveModel SeaModel SeaSpec SeaProofs.
Local Open Scope R_scope.

Lemma lim0 (F : R -> R) l : (forall eps, 0 < eps -> exists d, 0 < d /\ forall x, 0 < x < d -> Rabs (F x - l) < eps) -> filterlim F (at_right 0) (locally l).
Proof.
  intros H P [eps HP]. destruct (H eps (cond_pos eps)) as (d & Hd & Hx). unfold filtermap, at_right, within. exists (mkposreal d Hd). intros y Hy Hy0. apply HP.
  change (Rabs (y - 0) < d) in Hy. apply Rabs_def2 in Hy. apply (Hx y). lra.
Qed.
Lemma area_scale f k p W l : 0 < p -> area f 0 (W / p) l -> area (fun w => k / p * f (w / p)) 0 W (k * l).
Proof.
  intros Hp H. unfold area in *. apply (is_RInt_ext (fun w => scal k (scal (/ p) (f (/ p * w + 0))))).
  { intros x _. change (@eq R (k * (/ p * f (/ p * x + 0)) ) (k / p * f (x / p))). replace (/ p * x + 0) with (x / p) by (unfold Rdiv; ring). unfold Rdiv. ring. }
  apply (@is_RInt_scal R_NormedModule). apply (@is_RInt_comp_lin R_NormedModule f (/ p) 0 0 W l).
  replace (/ p * 0 + 0) with 0 by ring. replace (/ p * W + 0) with (W / p) by (unfold Rdiv; ring). exact H.
Qed.

(* ---- N = M + 1: an elementary antiderivative ---- *)
Definition cumulative (N M x : R) : R := exp (- (N / M * exp (- M * ln x))).
Lemma cumulative_deriv g M x : 0 < M -> 0 < x -> g 1 = 0 -> is_derive (cumulative (M + 1) M) x (gengamspec g (M + 1) M x).
Proof.
  intros HM Hx Hg. unfold cumulative. auto_derive; [easy|]. rewrite gengam_pos_val by easy. unfold log_scale, height.
  replace ((M + 1 - 1) / M) with 1 by (field; lra). rewrite Hg. set (L := ln x). set (y := exp (- M * L)).
  replace (1 * ln ((M + 1) / M) + ln M - 0 - ((M + 1) * L + (M + 1) / M * y)) with (ln ((M + 1) / M) + (ln M + (- M * L + (- L + - ((M + 1) / M * y))))) by ring.
  rewrite !exp_plus. rewrite !exp_ln; [|easy|apply Rdiv_lt_0_compat; lra]. rewrite (exp_Ropp L). assert (EL : exp L = x) by (unfold L; now apply exp_ln). rewrite EL. fold y. field. lra.
Qed.
Lemma cumulative_small N M : 0 < N -> 0 < M -> filterlim (cumulative N M) (at_right 0) (locally 0).
Proof.
  intros HN HM. apply lim0. intros eps He. exists (exp (ln eps / N)). split; [apply exp_pos|]. intros x Hx. rewrite Rminus_0_r. rewrite Rabs_pos_eq by (left; apply exp_pos).
  unfold cumulative. rewrite <- (exp_ln eps) at 1 by easy. apply exp_increasing.
  assert (H1 : ln x < ln eps / N). { rewrite <- (ln_exp (ln eps / N)). apply ln_increasing; lra. }
  assert (H2 : N * ln x < ln eps). { apply (Rmult_lt_reg_l (/ N)); [now apply Rinv_0_lt_compat|]. replace (/ N * (N * ln x)) with (ln x) by (field; lra). replace (/ N * ln eps) with (ln eps / N) by (unfold Rdiv; ring). easy. }
  pose proof (exp_ineq1_le (- M * ln x)) as H3.
  assert (H4 : N / M * (- M * ln x) < N / M * exp (- M * ln x)) by (apply Rmult_lt_compat_l; [now apply Rdiv_lt_0_compat|lra]).
  replace (N / M * (- M * ln x)) with (- (N * ln x)) in H4 by (field; lra). lra.
Qed.
Lemma gengam_area g M W : 0 < M -> 0 < W -> g 1 = 0 -> area (gengamspec g (M + 1) M) 0 W (cumulative (M + 1) M W).
Proof.
  intros HM HW Hg. assert (C : forall x, continuous (gengamspec g (M + 1) M) x) by (intros x; apply gengam_continuous; lra).
  apply (area_from0 _ (fun a => cumulative (M + 1) M W - cumulative (M + 1) M a)); [easy|easy| |].
  - intros a Ha. apply is_RInt_unique. apply (@is_RInt_derive R_CompleteNormedModule (cumulative (M + 1) M)).
    + intros x Hx. rewrite Rmin_left in Hx by lra. apply cumulative_deriv; lra.
    + intros x _. apply C.
  - assert (E0 : cumulative (M + 1) M W + - 0 = cumulative (M + 1) M W) by ring.
    assert (Z : filterlim (fun a => - cumulative (M + 1) M a) (at_right 0) (locally (- 0))).
    { eapply filterlim_comp; [apply cumulative_small; lra|]. apply (filterlim_opp (V := R_NormedModule)). }
    enough (G : filterlim (fun a => cumulative (M + 1) M W - cumulative (M + 1) M a) (at_right 0) (locally (cumulative (M + 1) M W + - 0))) by now rewrite E0 in G. apply (filterlim_ext (fun a => cumulative (M + 1) M W + - cumulative (M + 1) M a)); [intros; ring|].
    eapply filterlim_comp_2; [apply filterlim_const|exact Z|]. apply (filterlim_plus (V := R_NormedModule)).
Qed.

(* ---- all N > 1 ---- *)
Definition euler (c t : R) : R := Rpower t (c - 1) * exp (- t).
Definition arg_of (N M w : R) : R := N / M * exp (- M * ln w).
Lemma arg_pos N M w : 0 < N -> 0 < M -> 0 < arg_of N M w.
Proof. intros. unfold arg_of. apply Rmult_lt_0_compat; [now apply Rdiv_lt_0_compat|apply exp_pos]. Qed.
Lemma euler_continuous c t : 0 < t -> continuous (euler c) t.
Proof. intros H. apply (ex_derive_continuous (V := R_NormedModule)). unfold euler, Rpower. auto_derive. easy. Qed.
Lemma gengam_subst g N M x : 1 < N -> 0 < M -> 0 < x ->
  gengamspec g N M x = - / exp (g ((N - 1) / M)) * (- (N / M * M * exp (- M * ln x) / x) * euler ((N - 1) / M) (arg_of N M x)).
Proof.
  intros HN HM Hx. rewrite gengam_pos_val by easy. unfold log_scale, height, euler, Rpower, arg_of. set (C := (N - 1) / M). set (B := N / M). set (L := ln x).
  assert (HB : 0 < B) by (apply Rdiv_lt_0_compat; lra).
  rewrite ln_mult; [|easy|apply exp_pos]. rewrite ln_exp. set (y := exp (- M * L)).
  replace (C * ln B + ln M - g C - (N * L + B * y)) with (ln M + (ln B + (- g C + (- M * L + (- L + ((C - 1) * (ln B + - M * L) + - (B * y))))))).
  2:{ unfold C. field. lra. }
  rewrite !exp_plus. fold y. rewrite !exp_ln by easy. rewrite (exp_Ropp (g C)), (exp_Ropp L). assert (EL : exp L = x) by (unfold L; now apply exp_ln). rewrite EL. field. split; [lra|apply Rgt_not_eq, exp_pos].
Qed.
Lemma gengam_incomplete g N M a W : 1 < N -> 0 < M -> 0 < a < W ->
  RInt (gengamspec g N M) a W = / exp (g ((N - 1) / M)) * RInt (euler ((N - 1) / M)) (arg_of N M W) (arg_of N M a).
Proof.
  intros HN HM Ha. set (c := (N - 1) / M). apply is_RInt_unique.
  set (dg := fun x => - (N / M * M * exp (- M * ln x) / x)).
  apply (is_RInt_ext (fun x => scal (- / exp (g c)) (scal (dg x) (euler c (arg_of N M x))))).
  { intros x Hx. rewrite Rmin_left, Rmax_right in Hx by lra. rewrite (gengam_subst g N M x) by lra. reflexivity. }
  replace (/ exp (g c) * RInt (euler c) (arg_of N M W) (arg_of N M a)) with (scal (- / exp (g c)) (RInt (euler c) (arg_of N M a) (arg_of N M W))).
  2:{ rewrite <- (opp_RInt_swap (euler c)).
      - change (- / exp (g c) * - RInt (euler c) (arg_of N M W) (arg_of N M a) = / exp (g c) * RInt (euler c) (arg_of N M W) (arg_of N M a)). ring.
      - apply (@ex_RInt_continuous R_CompleteNormedModule). intros z Hz. apply euler_continuous.
        pose proof (arg_pos N M W ltac:(lra) HM). pose proof (arg_pos N M a ltac:(lra) HM). unfold Rmin in Hz. destruct (Rle_dec _ _) in Hz; lra. }
  apply (@is_RInt_scal R_NormedModule). apply (@is_RInt_comp R_CompleteNormedModule).
  - intros x Hx. apply euler_continuous. apply arg_pos; lra.
  - intros x Hx. rewrite Rmin_left, Rmax_right in Hx by lra. split.
    + unfold arg_of, dg. auto_derive; [lra|]. field. lra.
    + apply (ex_derive_continuous (V := R_NormedModule)). unfold dg. auto_derive. lra.
Qed.
