From Coq Require Import Reals List Arith Lra Lia.
From Coquelicot Require Import Coquelicot.
From Verif Require Import Base DisuModel DisuSpec.
Set Bullet Behavior "Strict Subproofs".
Local Open Scope R_scope.

Lemma tanh_exp x : tanh x = (exp (2 * x) - 1) / (exp (2 * x) + 1).
Proof.
  unfold tanh, sinh, cosh. replace (2 * x) with (x + x) by ring. rewrite exp_plus, exp_Ropp. pose proof (exp_pos x) as P.
  assert (0 < exp x * exp x) by (apply Rmult_lt_0_compat; exact P). field. repeat split; try lra.
Qed.
Lemma tanh_limit c : c < 0 -> is_lim (fun h => tanh (c * h)) p_infty (-1).
Proof.
  intros C. apply (is_lim_ext (fun h => (fun y => (y - 1) / (y + 1)) (exp (2 * c * h)))).
  { intros h. rewrite tanh_exp. replace (2 * (c * h)) with (2 * c * h) by ring. reflexivity. }
  replace (Finite (-1)) with (Finite ((fun y => (y - 1) / (y + 1)) 0)) by (f_equal; lra).
  apply (is_lim_comp_continuous (fun h => exp (2 * c * h)) (fun y => (y - 1) / (y + 1)) p_infty 0).
  - apply (is_lim_comp exp (fun h => 2 * c * h) p_infty 0 m_infty).
    + apply is_lim_exp_m.
    + replace m_infty with (Rbar_mult (2 * c) p_infty).
      * apply is_lim_scal_l, is_lim_id.
      * unfold Rbar_mult, Rbar_mult'. destruct (Rle_dec 0 (2 * c)); [exfalso; lra|reflexivity].
    + exists 0. intros y _. discriminate.
  - apply (ex_derive_continuous (fun y => (y - 1) / (y + 1))). auto_derive. lra.
Qed.

Lemma minus_limit : forall w1 w2 g, 0 < w1 < w2 -> 0 < g ->
  is_lim (fun h => finite_Ed2 w1 (w1 ^ 2 / g) w2 (w2 ^ 2 / g) h g) p_infty (deep_Ed2 (w1 ^ 2 / g) (w2 ^ 2 / g)).
Proof.
  intros w1 w2 g W G.
  set (q := fun T => (2 * w1 * w2 / g) / (1 - (w1 + w2) / (w1 - w2) * T) + (w1 - w2) ^ 2 / (2 * g)).
  apply (is_lim_ext (fun h => q (tanh ((w1 ^ 2 / g - w2 ^ 2 / g) * h)))).
  { intros h. unfold q, finite_Ed2. cbv zeta. set (T := tanh _).
    replace (g * (w1 ^ 2 / g / w1) * (w2 ^ 2 / g / w2) - 1 / 2 / g * (w1 * w1 + w2 * w2 - w1 * w2)
      + - (1 / 2) * g * (w1 * (w2 ^ 2 / g) * (w2 ^ 2 / g) - w2 * (w1 ^ 2 / g) * (w1 ^ 2 / g)) / (w1 * w2 * (w1 - w2))) with (2 * w1 * w2 / g) by (field; repeat split; lra).
    replace (g * (w1 ^ 2 / g - w2 ^ 2 / g) / (w1 - w2) / (w1 - w2)) with ((w1 + w2) / (w1 - w2)) by (field; split; lra).
    match goal with |- ?X + ?a = ?X + ?b - ?c => cut (a = b - c); [intros ->; ring|] end. field. repeat split; lra. }
  replace (Finite (deep_Ed2 (w1 ^ 2 / g) (w2 ^ 2 / g))) with (Finite (q (-1))).
  2:{ f_equal. unfold q, deep_Ed2. field. repeat split; lra. }
  apply (is_lim_comp_continuous (fun h => tanh ((w1 ^ 2 / g - w2 ^ 2 / g) * h)) q p_infty (-1)).
  - apply tanh_limit. assert (w1 ^ 2 < w2 ^ 2) by nra. unfold Rdiv. rewrite <- Rmult_minus_distr_r.
    assert (0 < / g) by (apply Rinv_0_lt_compat; exact G). nra.
  - apply (ex_derive_continuous q). unfold q. auto_derive.
    intros E. assert (E' : (1 - (w1 + w2) / (w1 - w2) * -1) * (w1 - w2) = 2 * w1) by (field; lra). unfold Rminus, Rdiv in *. rewrite E in E'. lra.
Qed.
