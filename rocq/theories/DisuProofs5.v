From Coq Require Import Reals List Arith Lra Lia.
From Coquelicot Require Import Coquelicot.
From Verif Require Import Base DisuModel.
From Verif Require Import DisuSpec.
Set Bullet Behavior "Strict Subproofs".
Local Open Scope R_scope.

Lemma cosh_pos x : 0 < cosh x.
Proof. unfold cosh. pose proof (exp_pos x). pose proof (exp_pos (- x)). lra. Qed.
Lemma one_minus_tanh x : 1 - tanh x * tanh x = / cosh x ^ 2.
Proof.
  pose proof (cosh_pos x) as C. assert (Q : cosh x * cosh x - sinh x * sinh x = 1).
  { unfold cosh, sinh. rewrite exp_Ropp. pose proof (exp_pos x). field. lra. }
  unfold tanh. replace (/ cosh x ^ 2) with ((cosh x * cosh x - sinh x * sinh x) * / cosh x ^ 2) by (rewrite Q; ring). field. lra.
Qed.
Lemma transfer : forall w1 k1 w2 k2 h g, 0 < w1 -> 0 < w2 -> 0 < k1 -> 0 < g ->
  finite_Ep2 w1 k1 w2 k2 h g = quadratic w1 k1 w2 k2 h g /\ finite_Ep1 w1 k1 h g = quadratic w1 k1 w1 k1 h g /\
  (w1 <> w2 -> finite_Ed2 w1 k1 w2 k2 h g = quadratic w1 k1 (- w2) (- k2) h g) /\ finite_Ed1 w1 k1 h g = mean_level w1 k1 h g.
Proof.
  intros w1 k1 w2 k2 h g W1 W2 K G. split; [|split; [|split]].
  - unfold finite_Ep2, quadratic. cbv zeta. set (T := tanh _).
    replace (g * (k1 + k2) / (w1 + w2) / (w1 + w2)) with (g * (k1 + k2) / (w1 + w2) ^ 2) by (field; lra).
    match goal with |- ?A / ?D + ?b - ?c = ?A' / ?D - ?c' + ?b' => replace A with A' by (field; repeat split; lra); replace b with b' by (field; lra); replace c with c' by (field; split; lra) end. ring.
  - unfold finite_Ep1, quadratic. cbv zeta. replace ((k1 + k1) * h) with (2 * k1 * h) by ring. set (T := tanh _).
    replace (1 / 2 * g * (k1 / w1) * (k1 / w1) / k1) with (g * (k1 + k1) / (w1 + w1) ^ 2) by (field; lra).
    match goal with |- ?A / ?D + ?b - ?c = ?A' / ?D - ?c' + ?b' => replace A with A' by (field; repeat split; lra); replace b with b' by (field; lra); replace c with c' by (field; lra) end. ring.
  - intros N. assert (N' : w1 - w2 <> 0) by lra. unfold finite_Ed2, quadratic. cbv zeta. replace (k1 + - k2) with (k1 - k2) by ring. replace (w1 + - w2) with (w1 - w2) by ring. set (T := tanh _).
    replace (g * (k1 - k2) / (w1 - w2) / (w1 - w2)) with (g * (k1 - k2) / (w1 - w2) ^ 2) by (field; exact N').
    match goal with |- ?A / ?D + ?b - ?c = ?A' / ?D - ?c' + ?b' => replace A with A' by (field; repeat split; lra); replace b with b' by (field; lra); replace c with c' by (field; repeat split; lra) end. ring.
  - unfold finite_Ed1, mean_level. cbv zeta. rewrite one_minus_tanh.
    replace (1 / 2 * g * (tanh (k1 * h) + k1 * h * / cosh (k1 * h) ^ 2) / w1) with (group_speed w1 k1 h g).
    2:{ unfold group_speed. pose proof (cosh_pos (k1 * h)). field. split; lra. }
    set (c := group_speed _ _ _ _). replace (c * c) with (c ^ 2) by ring.
    f_equal. f_equal. f_equal. field. split; lra.
Qed.
