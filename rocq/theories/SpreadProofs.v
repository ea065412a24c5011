From Coq Require Import Reals Lra Lia List.
From Coquelicot Require Import Coquelicot.
From Verif Require Import Base PolyModel SpreadModel SpreadSpec SeaModel SeaSpec SeaProofs SeaProofs2 SeaProofs3 SeaProofs4 SeaCases WaveProofs2 GammaProofs CosPow.
Import ListNotations.
Local Open Scope R_scope.

Lemma wrap_same x : same_angle x (wrap x).
Proof.
  pose proof PI_RGT_0 as HP. unfold wrap, pymod. set (z := Int_part ((x + PI) / (2 * PI))). destruct (base_Int_part ((x + PI) / (2 * PI))) as [B1 B2]. fold z in B1, B2.
  assert (E : x + PI = (x + PI) / (2 * PI) * (2 * PI)) by (field; lra). set (q := (x + PI) / (2 * PI)) in *. split.
  - nra.
  - exists (- z)%Z. rewrite opp_IZR. ring.
Qed.
Lemma same_unique x y z : same_angle x y -> same_angle x z -> y = z.
Proof.
  pose proof PI_RGT_0 as HP. intros [Hy [k Ek]] [Hz [l El]]. assert (Z : (k - l = 0)%Z).
  { assert (D : y - z = 2 * PI * IZR (k - l)) by (rewrite minus_IZR; lra). assert (A : -1 < IZR (k - l) < 1) by (split; nra). destruct A as [A1 A2]. apply lt_IZR in A1, A2. lia. }
  assert (k = l) by lia. subst. lra.
Qed.
Lemma wrap_eq x y : same_angle x y -> wrap x = y.
Proof. intros H. apply (same_unique x); [apply wrap_same|easy]. Qed.
Lemma wrap_twice t c : wrap (wrap t - c) = wrap (t - c).
Proof.
  apply wrap_eq. destruct (wrap_same t) as [_ [k Ek]]. destruct (wrap_same (t - c)) as [R [l El]]. split; [easy|]. exists (l - k)%Z. rewrite minus_IZR. rewrite El, Ek. ring.
Qed.
Lemma wrap_period t : wrap (t + 2 * PI) = wrap t.
Proof. apply wrap_eq. destruct (wrap_same t) as [R [l El]]. split; [easy|]. exists (l - 1)%Z. rewrite minus_IZR. rewrite El. ring. Qed.
Lemma wrap_cos t : cos (wrap t) = cos t.
Proof.
  destruct (wrap_same t) as [_ [k ->]]. destruct (Z.le_gt_cases 0 k) as [H|H].
  - rewrite <- (Z2Nat.id k) by easy. rewrite <- INR_IZR_INZ. replace (t + 2 * PI * INR (Z.to_nat k)) with (t + 2 * INR (Z.to_nat k) * PI) by ring. apply cos_period.
  - replace k with (- Z.of_nat (Z.to_nat (- k)))%Z by lia. rewrite opp_IZR, <- INR_IZR_INZ. set (n := Z.to_nat (- k)). rewrite <- (cos_period (t + 2 * PI * - INR n) n). f_equal. ring.
Qed.
Lemma wrap_id t : - PI <= t < PI -> wrap t = t.
Proof. intros H. apply wrap_eq. split; [easy|]. exists 0%Z. ring. Qed.
Lemma wrap_opp t : wrap (- t) = - wrap t \/ wrap (- t) = - PI /\ wrap t = - PI.
Proof.
  pose proof PI_RGT_0 as HP. destruct (wrap_same t) as [R [k Ek]]. destruct (Rtotal_order (wrap t) (- PI)) as [N|[E|G]]; [lra| |].
  - right. split; [|easy]. apply wrap_eq. split; [lra|]. exists (- k - 1)%Z. rewrite minus_IZR, opp_IZR. rewrite E in Ek. lra.
  - left. apply wrap_eq. split; [lra|]. exists (- k)%Z. rewrite opp_IZR. rewrite Ek. ring.
Qed.
Lemma shift_area (f : R -> R) (c a b l : R) : area f (a + c) (b + c) l -> area (fun t => f (t + c)) a b l.
Proof.
  intros H. pose proof (@is_RInt_comp_lin R_NormedModule f 1 c a b l) as G. rewrite !Rmult_1_l in G. specialize (G H).
  apply (is_RInt_ext (fun y => scal 1 (f (1 * y + c)))); [|exact G]. intros x _. change (@eq R (1 * f (1 * x + c)) (f (x + c))). now rewrite !Rmult_1_l.
Qed.
Lemma circle_area (f : R -> R) (c a l : R) : area f (- PI) PI l -> area (fun t => f (wrap (t - c))) a (a + 2 * PI) l.
Proof.
  pose proof PI_RGT_0 as HP. intros H. destruct (wrap_same (a - c)) as [R [k Ek]]. set (y := wrap (a - c)) in *.
  assert (X : ex_RInt f (- PI) PI) by (exists l; exact H).
  assert (X1 : ex_RInt f (- PI) y) by (apply (@ex_RInt_Chasles_1 R_CompleteNormedModule f (- PI) y PI); [lra|easy]).
  assert (X2 : ex_RInt f y PI) by (apply (@ex_RInt_Chasles_2 R_CompleteNormedModule f (- PI) y PI); [lra|easy]).
  destruct X1 as [l1 H1]. destruct X2 as [l2 H2]. assert (E : l = l2 + l1).
  { pose proof (@is_RInt_Chasles R_NormedModule _ _ _ _ _ _ H1 H2) as C. change (plus l1 l2) with (l1 + l2) in C. rewrite <- (is_RInt_unique _ _ _ _ H). rewrite (is_RInt_unique _ _ _ _ C). ring. }
  rewrite E. apply (@is_RInt_Chasles R_NormedModule _ a (a + (PI - y)) (a + 2 * PI) l2 l1).
  - apply (is_RInt_ext (fun t => f (t + (y - a)))).
    + intros t Ht. rewrite Rmin_left, Rmax_right in Ht by lra. f_equal. symmetry. apply wrap_eq. split; [lra|]. exists k. lra.
    + apply shift_area. replace (a + (y - a)) with y by ring. replace (a + (PI - y) + (y - a)) with PI by ring. exact H2.
  - apply (is_RInt_ext (fun t => f (t + (y - a - 2 * PI)))).
    + intros t Ht. rewrite Rmin_left, Rmax_right in Ht by lra. f_equal. symmetry. apply wrap_eq. split; [lra|]. exists (k - 1)%Z. rewrite minus_IZR. lra.
    + apply shift_area. replace (a + (PI - y) + (y - a - 2 * PI)) with (- PI) by ring. replace (a + 2 * PI + (y - a - 2 * PI)) with y by ring. exact H1.
Qed.

(* the densities *)
Definition even_on (f : R -> R) : Prop := forall t, f (- t) = f t.
Definition good_density (f : R -> R) : Prop := area f (- PI) PI 1 /\ (forall t, - PI <= t <= PI -> 0 <= f t <= f 0) /\ even_on f.
Lemma lift_density f m : good_density f -> circular_density (fun t => f (wrap (t - m))) m.
Proof.
  pose proof PI_RGT_0 as HP. intros (H1 & H2 & H3). split; [intros a; exact (circle_area f m a 1 H1)|]. split.
  - intros t. replace (m - m) with 0 by ring. rewrite (wrap_id 0) by lra. destruct (wrap_same (t - m)) as [R _]. apply H2. lra.
  - split.
    + intros t. f_equal. replace (t + 2 * PI - m) with (t - m + 2 * PI) by ring. apply wrap_period.
    + intros t. replace (m + t - m) with t by ring. replace (m - t - m) with (- t) by ring. destruct (wrap_opp t) as [E|[E1 E2]]; [rewrite E; symmetry; apply H3|now rewrite E1, E2].
Qed.
Lemma lift_coefficient f m r : area (fun t => f t * cos t) (- PI) PI r -> first_coefficient (fun t => f (wrap (t - m))) m r.
Proof.
  intros H a. apply (is_RInt_ext (fun t => (fun u => f u * cos u) (wrap (t - m)))); [|exact (circle_area (fun u => f u * cos u) m a r H)]. intros t _. cbv beta. rewrite wrap_cos. reflexivity.
Qed.
(* cos2s *)
Lemma cos_density_ok g ive s : log_gamma g -> 0 <= s -> good_density (density g ive Cos2s (Some s)).
Proof.
  intros Hg Hs. pose proof PI_RGT_0 as HP. assert (HS : 0 < sqrt PI) by now apply sqrt_lt_R0. set (c := exp (g (s + 1) - g (s + 1 / 2)) / (2 * sqrt PI)).
  assert (Hc : 0 < c) by (unfold c; apply Rdiv_lt_0_compat; [apply exp_pos|lra]). split; [|split].
  - pose proof (@is_RInt_scal R_NormedModule _ _ _ c _ (cosint_is s Hs)) as G. change (scal c (cosint s)) with (c * cosint s) in G.
    replace (c * cosint s) with 1 in G; [exact G|]. unfold c. pose proof (prod_const g s Hg Hs) as P. unfold gquot in P. unfold Rminus. rewrite exp_plus, exp_Ropp. unfold Rdiv in P.
    apply (Rmult_eq_reg_r (2 * sqrt PI)); [|lra]. unfold Rdiv. rewrite Rmult_1_l. rewrite <- P at 1. set (u := exp (g (s + 1))). set (v := exp (g (s + 1 * / 2))). assert (0 < v) by apply exp_pos. field. lra.
  - intros t Ht. unfold density. fold c. pose proof (pw_nonneg (cos (t / 2)) (2 * s)) as P. split; [nra|]. apply Rmult_le_compat_l; [lra|]. replace (0 / 2) with 0 by field. rewrite cos_0. rewrite (pw_pos 1) by lra. unfold Rpower. rewrite ln_1, Rmult_0_r, exp_0.
    destruct (half_cos t Ht) as [H| <-].
    + rewrite pw_pos by easy. apply Rle_trans with (exp 0); [|rewrite exp_0; lra]. apply exp_le. pose proof (COS_bound (t / 2)). assert (ln (cos (t / 2)) <= 0) by (apply ln_le1; lra). nra.
    + destruct (Req_EM_T s 0) as [->|N]; [rewrite Rmult_0_r, pw_0; lra|]. rewrite pw_neg by lra. lra.
  - intros t. unfold density. replace (- t / 2) with (- (t / 2)) by field. now rewrite cos_neg.
Qed.
Lemma cos_coefficient g ive s : log_gamma g -> 0 <= s -> area (fun t => density g ive Cos2s (Some s) t * cos t) (- PI) PI (s / (s + 1)).
Proof.
  intros Hg Hs. pose proof PI_RGT_0 as HP. set (c := exp (g (s + 1) - g (s + 1 / 2)) / (2 * sqrt PI)).
  pose proof (@is_RInt_scal R_NormedModule _ _ _ (2 * c) _ (cosint_is (s + 1) ltac:(lra))) as G1. pose proof (@is_RInt_scal R_NormedModule _ _ _ c _ (cosint_is s Hs)) as G2.
  pose proof (@is_RInt_minus R_NormedModule _ _ _ _ _ _ G1 G2) as G. change (minus (scal (2 * c) (cosint (s + 1))) (scal c (cosint s))) with (2 * c * cosint (s + 1) - c * cosint s) in G.
  destruct (cos_density_ok g ive s Hg Hs) as (N & _). change (area (fun t => c * pw (cos (t / 2)) (2 * s)) (- PI) PI 1) in N.
  assert (E1 : c * cosint s = 1). { transitivity (RInt (fun t => c * pw (cos (t / 2)) (2 * s)) (- PI) PI); [symmetry; exact (is_RInt_unique _ _ _ _ G2)|exact (is_RInt_unique _ _ _ _ N)]. }
  assert (E2 : cosint (s + 1) = (s + 1 / 2) / (s + 1) * cosint s). { pose proof (cosint_step s Hs). apply (Rmult_eq_reg_l (s + 1)); [|lra]. rewrite H. field. lra. }
  replace (2 * c * cosint (s + 1) - c * cosint s) with (s / (s + 1)) in G.
  - apply (is_RInt_ext (fun t => minus (scal (2 * c) (pw (cos (t / 2)) (2 * (s + 1)))) (scal c (pw (cos (t / 2)) (2 * s))))); [|exact G].
    intros t Ht. rewrite Rmin_left, Rmax_right in Ht by lra. change (2 * c * pw (cos (t / 2)) (2 * (s + 1)) - c * pw (cos (t / 2)) (2 * s) = c * pw (cos (t / 2)) (2 * s) * cos t).
    assert (H : 0 < cos (t / 2)) by (apply cos_gt_0; lra). rewrite !pw_pos by easy. replace (2 * (s + 1)) with (2 * s + (1 + 1)) by ring. rewrite !Rpower_plus, !Rpower_1 by easy.
    assert (C2 : cos t = 2 * cos (t / 2) * cos (t / 2) - 1) by (rewrite <- cos_2a_cos; f_equal; field). rewrite C2. ring.
  - rewrite E2. replace (2 * c * ((s + 1 / 2) / (s + 1) * cosint s) - c * cosint s) with (2 * ((s + 1 / 2) / (s + 1)) * (c * cosint s) - c * cosint s) by ring. rewrite E1. field. lra.
Qed.
