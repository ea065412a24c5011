(* A function that satisfies [log_gamma]: Euler's integral converges for every positive argument. *)
From Coq Require Import Reals Lra Lia.
From Coquelicot Require Import Coquelicot.
From Verif Require Import Base SeaModel SeaSpec SeaProofs SeaProofs2 SeaProofs3.
Local Open Scope R_scope.

Lemma exp_le x y : x <= y -> exp x <= exp y.
Proof. intros [H| ->]; [left; now apply exp_increasing|lra]. Qed.
Lemma euler_pos c t : 0 < euler c t.
Proof. unfold euler, Rpower. apply Rmult_lt_0_compat; apply exp_pos. Qed.
Lemma euler_ex c x y : 0 < x -> x <= y -> ex_RInt (euler c) x y.
Proof. intros Hx Hy. apply (@ex_RInt_continuous R_CompleteNormedModule). intros z Hz. rewrite Rmin_left in Hz by easy. apply euler_continuous. lra. Qed.
Lemma euler_mono c x y x' y' : 0 < x' -> x' <= x -> x <= y -> y <= y' -> RInt (euler c) x y <= RInt (euler c) x' y'.
Proof.
  intros H1 H2 H3 H4. rewrite <- (RInt_Chasles (euler c) x' x y') by (apply euler_ex; lra). rewrite <- (RInt_Chasles (euler c) x y y') by (apply euler_ex; lra).
  change (RInt (euler c) x y <= RInt (euler c) x' x + (RInt (euler c) x y + RInt (euler c) y y')).
  assert (A : forall a b, 0 < a -> a <= b -> 0 <= RInt (euler c) a b). { intros a b Ha Hb. apply RInt_ge_0; [easy|now apply euler_ex|]. intros; left; apply euler_pos. }
  pose proof (A x' x ltac:(lra) H2). pose proof (A y y' ltac:(lra) H4). lra.
Qed.
Lemma euler_low c x : 0 < c -> 0 < x <= 1 -> RInt (euler c) x 1 <= 1 / c.
Proof.
  intros Hc Hx. assert (D : is_RInt (fun t => Rpower t (c - 1)) x 1 (minus (Rpower 1 c / c) (Rpower x c / c))).
  { apply (@is_RInt_derive R_CompleteNormedModule (fun t => Rpower t c / c)).
    - intros t Ht. rewrite Rmin_left, Rmax_right in Ht by lra. unfold Rpower. auto_derive; [lra|]. replace ((c - 1) * ln t) with (c * ln t + - ln t) by ring. rewrite exp_plus, (exp_Ropp (ln t)), exp_ln by lra. field. lra.
    - intros t Ht. rewrite Rmin_left, Rmax_right in Ht by lra. apply (ex_derive_continuous (V := R_NormedModule)). unfold Rpower. auto_derive. lra. }
  apply Rle_trans with (RInt (fun t => Rpower t (c - 1)) x 1).
  - apply RInt_le; [easy|now apply euler_ex|eexists; exact D|]. intros t Ht. unfold euler. rewrite <- (Rmult_1_r (Rpower t (c - 1))) at 2. apply Rmult_le_compat_l; [unfold Rpower; left; apply exp_pos|].
    rewrite <- exp_0. left. apply exp_increasing. lra.
  - rewrite (is_RInt_unique _ _ _ _ D). change (Rpower 1 c / c - Rpower x c / c <= 1 / c). unfold Rpower. rewrite ln_1, Rmult_0_r, exp_0.
    pose proof (exp_pos (c * ln x)). pose proof (Rdiv_lt_0_compat _ _ H Hc). lra.
Qed.
Lemma euler_high c y : 1 <= y -> RInt (euler c) 1 y <= 2 * exp ((Rabs (c - 1) + 1) * ln (2 * (Rabs (c - 1) + 1))).
Proof.
  intros Hy. set (a := Rabs (c - 1) + 1). assert (Ha : 0 < a) by (unfold a; pose proof (Rabs_pos (c - 1)); lra). set (K := exp (a * ln (2 * a))).
  assert (D : is_RInt (fun t => K * exp (- (t / 2))) 1 y (minus (-2 * K * exp (- (y / 2))) (-2 * K * exp (- (1 / 2))))).
  { apply (@is_RInt_derive R_CompleteNormedModule (fun t => -2 * K * exp (- (t / 2)))).
    - intros t _. auto_derive; [easy|]. unfold Rdiv. change (@eq R (-2 * K * (- (1 * / 2) * exp (- (t * / 2)))) (K * exp (- (t * / 2)))). field.
    - intros t _. apply (ex_derive_continuous (V := R_NormedModule)). auto_derive. easy. }
  apply Rle_trans with (RInt (fun t => K * exp (- (t / 2))) 1 y).
  - apply RInt_le; [easy|apply euler_ex; lra|eexists; exact D|]. intros t Ht. unfold euler, Rpower, K. rewrite <- !exp_plus. apply exp_le.
    pose proof (exp_ineq1_le (ln (t / (2 * a)))) as L. rewrite exp_ln in L by (apply Rdiv_lt_0_compat; lra). rewrite ln_div in L by lra.
    assert (Hl : 0 <= ln t) by (apply ln_ge1; lra). pose proof (Rle_abs (c - 1)).
    assert (H1 : (c - 1) * ln t <= a * ln t) by (apply Rmult_le_compat_r; [easy|unfold a; lra]).
    assert (H2 : a * (1 + (ln t - ln (2 * a))) <= a * (t / (2 * a))) by (apply Rmult_le_compat_l; lra). replace (a * (t / (2 * a))) with (t / 2) in H2 by (field; lra). lra.
  - rewrite (is_RInt_unique _ _ _ _ D). change (-2 * K * exp (- (y / 2)) - -2 * K * exp (- (1 / 2)) <= 2 * K).
    assert (HK : 0 < K) by apply exp_pos. pose proof (exp_pos (- (y / 2))). assert (exp (- (1 / 2)) < exp 0) by (apply exp_increasing; lra). rewrite exp_0 in *.
    set (e1 := exp (- (y / 2))) in *. set (e2 := exp (- (1 / 2))) in *. pose proof (Rmult_lt_0_compat _ _ HK H). assert (0 < K * (1 - e2)) by (apply Rmult_lt_0_compat; lra). lra.
Qed.
Lemma euler_converges c : 0 < c -> exists l, 0 < l /\ is_RInt_gen (euler c) (at_right 0) (Rbar_locally p_infty) l.
Proof.
  intros Hc. set (E := fun r => exists x y, 0 < x /\ x <= 1 /\ 1 <= y /\ r = RInt (euler c) x y).
  assert (B : bound E).
  { exists (1 / c + 2 * exp ((Rabs (c - 1) + 1) * ln (2 * (Rabs (c - 1) + 1)))). intros r (x & y & H1 & H2 & H3 & ->).
    rewrite <- (RInt_Chasles (euler c) x 1 y) by (apply euler_ex; lra). apply Rplus_le_compat; [now apply euler_low|now apply euler_high]. }
  destruct (completeness E B) as [l [U L]]. { exists (RInt (euler c) 1 1), 1, 1. repeat split; lra. }
  exists l. split.
  - apply Rlt_le_trans with (RInt (euler c) (1 / 2) 2).
    + apply RInt_gt_0; [lra|intros; apply euler_pos|]. intros x Hx. apply euler_continuous. lra.
    + apply U. exists (1 / 2), 2. repeat split; lra.
  - intros P [eps HP]. destruct (Classical_Prop.classic (exists x y, 0 < x /\ x <= 1 /\ 1 <= y /\ l - eps < RInt (euler c) x y)) as [(x & y & H1 & H2 & H3 & H4)|N].
    + unfold filtermapi. apply (Filter_prod _ _ _ (fun a => 0 < a < x) (fun b => y < b)).
      * exists (mkposreal x H1). intros a Ha H0. change (Rabs (a - 0) < x) in Ha. apply Rabs_def2 in Ha. lra.
      * exists y. easy.
      * intros a b Ha Hb. exists (RInt (euler c) a b). split; [apply (@RInt_correct R_CompleteNormedModule), euler_ex; lra|]. apply HP.
        change (Rabs (RInt (euler c) a b - l) < eps).
        assert (RInt (euler c) a b <= l) by (apply U; exists a, b; repeat split; lra). pose proof (euler_mono c x y a b ltac:(lra) ltac:(lra) ltac:(lra) ltac:(lra)).
        apply Rabs_def1; pose proof (cond_pos eps); lra.
    + exfalso. assert (l <= l - eps); [|pose proof (cond_pos eps); lra]. apply L. intros r (x & y & H1 & H2 & H3 & ->). apply Rnot_lt_le. intros H. apply N. now exists x, y.
Qed.
Definition gammaln_real (c : R) : R := ln (@RInt_gen R_CompleteNormedModule (euler c) (at_right 0) (Rbar_locally p_infty)).
Lemma gammaln_real_ok : log_gamma gammaln_real.
Proof.
  intros c Hc. destruct (euler_converges c Hc) as (l & Hl & H). unfold gammaln_real.
  rewrite (is_RInt_gen_unique _ _ H). rewrite exp_ln by easy. exact H.
Qed.
(* the elementary value used by the spectra with N = M + 1 *)
Lemma log_gamma_1 g : log_gamma g -> g 1 = 0.
Proof.
  intros Hg. assert (E : exp (g 1) = 1).
  { apply cond_eq. intros eps He. destruct (euler_limits g 1 (eps / 2) Hg ltac:(lra) ltac:(lra)) as (d & K & Hd & HK & H).
    set (x := Rmin (d / 2) (eps / 4)). assert (X1 : 0 < x) by (unfold x; apply Rmin_pos; lra). assert (X2 : x <= d / 2) by apply Rmin_l. assert (X3 : x <= eps / 4) by apply Rmin_r.
    set (y := Rmax (K + 1) (- ln (eps / 4))). assert (Y1 : K + 1 <= y) by apply Rmax_l. assert (Y2 : - ln (eps / 4) <= y) by apply Rmax_r.
    specialize (H x y ltac:(lra) ltac:(lra)).
    assert (D : is_RInt (euler 1) x y (minus (- exp (- y)) (- exp (- x)))).
    { apply (is_RInt_ext (fun t => exp (- t))).
      - intros t Ht. unfold euler, Rpower. replace ((1 - 1) * ln t) with 0 by ring. rewrite exp_0. change (@eq R (exp (- t)) (1 * exp (- t))). ring.
      - apply (@is_RInt_derive R_CompleteNormedModule (fun t => - exp (- t))).
        + intros t _. auto_derive; [easy|ring].
        + intros t _. apply (ex_derive_continuous (V := R_NormedModule)). auto_derive. easy. }
    rewrite (is_RInt_unique _ _ _ _ D) in H. change (minus (- exp (- y)) (- exp (- x))) with (- exp (- y) - - exp (- x)) in H. apply Rabs_def2 in H.
    assert (A1 : exp (- x) < 1) by (rewrite <- exp_0; apply exp_increasing; lra). pose proof (exp_ineq1_le (- x)) as A2. pose proof (exp_pos (- y)) as A3.
    assert (A4 : exp (- y) <= eps / 4). { rewrite <- (exp_ln (eps / 4)) by lra. apply exp_le. lra. }
    apply Rabs_def1; lra. }
  apply exp_inv. now rewrite exp_0.
Qed.
