From Coq Require Import Reals List Arith Lra Lia.
From Coquelicot Require Import Coquelicot.
From Verif Require Import Base DisuModel DisuSpec.
Set Bullet Behavior "Strict Subproofs".
Local Open Scope R_scope.

Lemma exp_gt x : 0 < x -> 1 + x < exp x.
Proof. intros P. apply exp_ineq1. lra. Qed.
Lemma cosh_big x : 0 < x -> 1 <= cosh x /\ x <= cosh x * cosh x.
Proof.
  intros P. assert (E : 1 + x < exp x) by (apply exp_gt; exact P).
  assert (C : cosh x = (exp x + / exp x) / 2) by (unfold cosh; rewrite exp_Ropp; reflexivity).
  pose proof (exp_pos x) as Q. assert (I : 0 < / exp x) by (apply Rinv_0_lt_compat; exact Q).
  assert (M : exp x * / exp x = 1) by (apply Rinv_r; lra).
  rewrite C. split.
  - assert (0 <= (exp x - / exp x) * (exp x - / exp x)) by apply Rle_0_sqr. nra.
  - assert (4 * x <= (1 + x) * (1 + x)) by (pose proof (Rle_0_sqr (1 - x)) as S; unfold Rsqr in S; lra).
    assert ((1 + x) * (1 + x) <= exp x * exp x) by (apply Rmult_le_compat; lra).
    assert (0 < / exp x * / exp x) by (apply Rmult_lt_0_compat; exact I). nra.
Qed.
Lemma group x : 0 < x -> 0 < tanh x + x * (1 - tanh x * tanh x) <= 2.
Proof.
  intros P. destruct (cosh_big x P) as [C1 C2].
  assert (S : 0 < sinh x) by (unfold sinh; assert (exp (- x) < exp x) by (apply exp_increasing; lra); lra).
  assert (Q : cosh x * cosh x - sinh x * sinh x = 1) by (pose proof (cosh_sinh x) as K || idtac; unfold cosh, sinh; rewrite exp_Ropp; pose proof (exp_pos x); field; lra).
  assert (T : 1 - tanh x * tanh x = / (cosh x * cosh x)).
  { unfold tanh. replace (/ (cosh x * cosh x)) with ((cosh x * cosh x - sinh x * sinh x) * / (cosh x * cosh x)) by (rewrite Q; ring). field. lra. }
  assert (T0 : 0 < tanh x) by (unfold tanh; apply Rdiv_lt_0_compat; lra).
  assert (D : 0 < / (cosh x * cosh x)) by (apply Rinv_0_lt_compat; nra).
  assert (B : x * / (cosh x * cosh x) <= 1).
  { replace 1 with (cosh x * cosh x * / (cosh x * cosh x)) by (apply Rinv_r; nra). apply Rmult_le_compat_r; lra. }
  rewrite T. split; [nra|]. assert (tanh x <= 1) by nra. lra.
Qed.

Lemma own_limit : forall w g, 0 < w -> 0 < g -> is_lim (fun h => finite_Ed1 w (w ^ 2 / g) h g) p_infty 0.
Proof.
  intros w g W G. apply is_lim_spec. intros [eps Pe]. change (exists M, forall h, M < h -> Rabs (finite_Ed1 w (w ^ 2 / g) h g - 0) < eps).
  set (k := w ^ 2 / g). assert (K : 0 < k) by (unfold k; apply Rdiv_lt_0_compat; [apply pow_lt; exact W|exact G]).
  set (D := g / w). assert (PD : 0 < D) by (unfold D; apply Rdiv_lt_0_compat; assumption).
  fold k. exists (Rmax (300 / k) ((D * D + w * D / eps + 1) / g)). intros h H.
  assert (H1 : 300 / k < h) by (eapply Rle_lt_trans; [apply Rmax_l|exact H]).
  assert (H2 : (D * D + w * D / eps + 1) / g < h) by (eapply Rle_lt_trans; [apply Rmax_r|exact H]).
  assert (H3 : 300 < k * h). { replace 300 with (k * (300 / k)) by (field; lra). apply Rmult_lt_compat_l; assumption. }
  assert (H4 : D * D + w * D / eps + 1 < g * h). { replace (D * D + w * D / eps + 1) with (g * ((D * D + w * D / eps + 1) / g)) by (field; lra). apply Rmult_lt_compat_l; assumption. }
  assert (X : 0 < w * D / eps) by (apply Rdiv_lt_0_compat; [apply Rmult_lt_0_compat; lra|exact Pe]).
  destruct (group (k * h)) as [A B]; [lra|].
  unfold finite_Ed1. cbv zeta. destruct (Rlt_dec (k * h) 300) as [L|_]; [exfalso; lra|].
  set (m := tanh (k * h) + k * h * (1 - tanh (k * h) * tanh (k * h))) in *.
  set (c := 1 / 2 * g * m / w).
  assert (Pc : 0 < c). { unfold c. apply Rdiv_lt_0_compat; [|exact W]. apply Rmult_lt_0_compat; lra. }
  assert (Lc : c <= D). { unfold c, D. unfold Rdiv. apply Rmult_le_compat_r; [left; apply Rinv_0_lt_compat; exact W|nra]. }
  assert (Q : c * c <= D * D) by (apply Rmult_le_compat; lra).
  replace (1 / 2 * g * (k / w) * (k / w) - 1 / 2 * w * w / g + g * k / (w * c)) with (w / c) by (unfold k; field; repeat split; lra).
  replace (w / c / (1 - g * h / (c * c)) - 0 - 0) with (- (w * c / (g * h - c * c))) by (field; repeat split; nra).
  rewrite Rabs_Ropp, Rabs_pos_eq.
  - assert (Y : w * D < eps * (g * h - c * c)).
    { replace (w * D) with (eps * (w * D / eps)) by (field; lra). apply Rmult_lt_compat_l; lra. }
    apply Rmult_lt_reg_r with (g * h - c * c); [lra|]. unfold Rdiv. rewrite Rmult_assoc, Rinv_l by lra. rewrite Rmult_1_r.
    eapply Rle_lt_trans; [|exact Y]. apply Rmult_le_compat_l; lra.
  - left. apply Rdiv_lt_0_compat; [apply Rmult_lt_0_compat; lra|lra].
Qed.
