From Coq Require Import Reals Lra Lia List.
From Coquelicot Require Import Coquelicot.
From Verif Require Import Base PolyModel SpreadModel SpreadSpec SeaModel SeaSpec SeaProofs SeaProofs4 SeaCases WaveProofs2 SpreadProofs.
Import ListNotations.
Local Open Scope R_scope.

Ltac smooth := apply (ex_derive_continuous (V := R_NormedModule)); auto_derive.
Lemma const_area (a b c : R) : area (fun _ => c) a b ((b - a) * c).
Proof. exact (@is_RInt_const R_NormedModule a b c). Qed.
Lemma area_ext_in (f h : R -> R) a b l : a <= b -> (forall x, a < x < b -> f x = h x) -> area f a b l -> area h a b l.
Proof. intros Hab E H. apply (is_RInt_ext f); [|exact H]. intros x Hx. rewrite Rmin_left, Rmax_right in Hx by easy. now apply E. Qed.
Lemma area_deriv (F f : R -> R) a b : (forall x, is_derive F x (f x)) -> (forall x, continuous f x) -> area f a b (F b - F a).
Proof. intros D C. apply (@is_RInt_derive R_CompleteNormedModule F f a b); intros; [apply D|apply C]. Qed.
(* Poisson *)
Lemma poisson_den x t : 0 <= x < 1 -> 0 < 1 - (2 * cos t - x) * x.
Proof. intros Hx. pose proof (COS_bound t). nra. Qed.
Lemma poisson_area x : 0 <= x < 1 -> area (fun t => (1 - x ^ 2) / (1 - (2 * cos t - x) * x) / (2 * PI)) (- PI) PI 1.
Proof.
  intros Hx. pose proof PI_RGT_0 as HP. set (F := fun t => (t + 2 * atan (x * sin t / (1 - x * cos t))) / (2 * PI)).
  assert (E : 1 = F PI - F (- PI)). { unfold F. rewrite sin_neg, sin_PI. replace (x * 0 / (1 - x * cos PI)) with 0 by (unfold Rdiv; ring). replace (x * - 0 / (1 - x * cos (- PI))) with 0 by (unfold Rdiv; ring). rewrite atan_0. field. lra. }
  enough (G : area (fun t => (1 - x ^ 2) / (1 - (2 * cos t - x) * x) / (2 * PI)) (- PI) PI (F PI - F (- PI))) by (rewrite <- E in G; exact G). apply area_deriv.
  - intros t. assert (P : 0 < 1 - x * cos t) by (pose proof (COS_bound t); nra). pose proof (poisson_den x t Hx) as Q. unfold F. auto_derive; [lra|]. pose proof (sin2_cos2 t) as SC. unfold Rsqr in SC. set (c := cos t) in *. set (s := sin t) in *.
    assert (Es : s * s = 1 - c * c) by lra. assert (D : 0 < (1 - x * c) ^ 2 + (x * s) ^ 2) by nra.
    assert (D2 : (1 - x * c) ^ 2 + (x * s) ^ 2 = 1 - (2 * c - x) * x) by (replace ((x * s) ^ 2) with (x ^ 2 * (s * s)) by ring; rewrite Es; ring).
    transitivity ((1 + 2 * ((x * c * (1 - x * c) - x ^ 2 * (s * s)) / ((1 - x * c) ^ 2 + (x * s) ^ 2))) / (2 * PI)).
    + unfold Rsqr. field. repeat split; nra.
    + rewrite Es, D2. field. split; lra.
  - intros t. pose proof (poisson_den x t Hx) as Q. smooth. repeat split; lra.
Qed.
Lemma poisson_ok g ive x : 0 <= x < 1 -> good_density (density g ive Poisson (Some x)).
Proof.
  intros Hx. pose proof PI_RGT_0 as HP. split; [now apply poisson_area|]. split.
  - intros t _. unfold density. pose proof (poisson_den x t Hx) as Q. pose proof (poisson_den x 0 Hx) as Q0. rewrite cos_0 in *. pose proof (COS_bound t). assert (N : 0 <= 1 - x ^ 2) by nra. split.
    + apply Rmult_le_pos; [apply Rmult_le_pos; [easy|left; now apply Rinv_0_lt_compat]|left; apply Rinv_0_lt_compat; lra].
    + apply Rmult_le_compat_r; [left; apply Rinv_0_lt_compat; lra|]. apply Rmult_le_compat_l; [easy|]. apply Rinv_le_contravar; nra.
  - intros t. unfold density. now rewrite cos_neg.
Qed.
Lemma poisson_coefficient g ive x : 0 <= x < 1 -> area (fun t => density g ive Poisson (Some x) t * cos t) (- PI) PI x.
Proof.
  intros Hx. pose proof PI_RGT_0 as HP. unfold density. destruct (Req_EM_T x 0) as [->|N].
  - apply (area_ext_in (fun t => cos t / (2 * PI))); [lra|intros; field; lra|]. replace 0 with (sin PI / (2 * PI) - sin (- PI) / (2 * PI)) at 1 by (rewrite sin_neg, sin_PI; field; lra).
    apply (area_deriv (fun t => sin t / (2 * PI))); intros; [auto_derive; [lra|field; lra]|smooth; lra].
  - apply (area_ext_in (fun t => (1 + x ^ 2) / (2 * x) * ((1 - x ^ 2) / (1 - (2 * cos t - x) * x) / (2 * PI)) - (1 - x ^ 2) / (2 * x) / (2 * PI))); [lra| |].
    + intros t _. pose proof (poisson_den x t Hx). field. repeat split; lra.
    + pose proof (@is_RInt_scal R_NormedModule _ _ _ ((1 + x ^ 2) / (2 * x)) _ (poisson_area x Hx)) as G1. pose proof (@is_RInt_minus R_NormedModule _ _ _ _ _ _ G1 (const_area (- PI) PI ((1 - x ^ 2) / (2 * x) / (2 * PI)))) as G.
      change (minus (scal ((1 + x ^ 2) / (2 * x)) 1) ((PI - - PI) * ((1 - x ^ 2) / (2 * x) / (2 * PI)))) with ((1 + x ^ 2) / (2 * x) * 1 - (PI - - PI) * ((1 - x ^ 2) / (2 * x) / (2 * PI))) in G.
      replace ((1 + x ^ 2) / (2 * x) * 1 - (PI - - PI) * ((1 - x ^ 2) / (2 * x) / (2 * PI))) with x in G by (field; lra). exact G.
Qed.
(* sech2 *)
Lemma tanh_neq x : x <> 0 -> tanh x <> 0.
Proof. intros Hx. destruct (Rtotal_order x 0) as [L|[E|G]]; [|easy|pose proof (tanh_pos x G); lra]. pose proof (tanh_pos (- x) ltac:(lra)) as P. rewrite tanh_odd in P. lra. Qed.
Lemma cosh_ge1 x : 1 <= cosh x.
Proof. unfold cosh. pose proof (exp_pos x) as P. assert (E : exp x * exp (- x) = 1) by (rewrite <- exp_plus; replace (x + - x) with 0 by ring; apply exp_0). pose proof (exp_pos (- x)) as P'. pose proof (pow2_ge_0 (exp x - exp (- x))). nra. Qed.
Lemma cosh_even x : cosh (- x) = cosh x.
Proof. unfold cosh. rewrite Ropp_involutive. lra. Qed.
Lemma sech2_ok g ive b : b <> 0 -> good_density (density g ive Sech2 (Some b)).
Proof.
  intros Hb. pose proof PI_RGT_0 as HP. assert (HT : tanh (PI * b) <> 0) by (apply tanh_neq; nra). unfold good_density, density. cbv zeta. destruct (Req_EM_T (tanh (PI * b)) 0) as [E|_]; [easy|].
  assert (SG : 0 < b / tanh (PI * b)).
  { destruct (Rtotal_order b 0) as [L|[E|G]]; [|easy|].
    - pose proof (tanh_pos (- (PI * b)) ltac:(nra)) as P. rewrite tanh_odd in P. replace (b / tanh (PI * b)) with (- b / - tanh (PI * b)) by (field; easy). apply Rdiv_lt_0_compat; lra.
    - apply Rdiv_lt_0_compat; [easy|]. apply tanh_pos. nra. }
  assert (FE : forall t, 1 / 2 * b * sech (b * t) ^ 2 / tanh (PI * b) = b / tanh (PI * b) * (1 / 2 * (/ cosh (b * t)) ^ 2)). { intros t. unfold sech. pose proof (cosh_ge1 (b * t)). field. split; [lra|easy]. }
  split; [|split].
  - set (F := fun t => tanh (b * t) / (2 * tanh (PI * b))). assert (E1 : F PI - F (- PI) = 1).
    { unfold F. replace (b * - PI) with (- (PI * b)) by ring. rewrite tanh_odd. replace (b * PI) with (PI * b) by ring. field. easy. }
    enough (G : area (fun t => 1 / 2 * b * sech (b * t) ^ 2 / tanh (PI * b)) (- PI) PI (F PI - F (- PI))) by (rewrite E1 in G; exact G). apply area_deriv.
    + intros t. unfold F. pose proof (is_derive_tanh (b * t)) as D. pose proof (cosh_ge1 (b * t)). auto_derive; [exists (/ cosh (b * t) ^ 2); exact D|]. replace (Derive (fun x : R => tanh x) (b * t)) with (/ cosh (b * t) ^ 2) by (symmetry; exact (is_derive_unique _ _ _ D)). unfold sech. field. split; [lra|easy].
    + intros t. apply (continuous_ext (fun t => b / tanh (PI * b) * (1 / 2 * (/ cosh (b * t)) ^ 2))); [intros; symmetry; apply FE|]. pose proof (cosh_ge1 (b * t)). unfold cosh in *. smooth. repeat split; try easy. lra.
  - intros t _. rewrite !FE. assert (C0 : cosh (b * 0) = 1) by (rewrite Rmult_0_r; apply cosh_0). rewrite C0. pose proof (cosh_ge1 (b * t)) as C. assert (I : 0 < / cosh (b * t) <= 1). { split; [apply Rinv_0_lt_compat; lra|]. rewrite <- Rinv_1. apply Rinv_le_contravar; lra. } rewrite Rinv_1. split; [apply Rmult_le_pos; nra|]. apply Rmult_le_compat_l; nra.
  - intros t. unfold sech. replace (b * - t) with (- (b * t)) by ring. now rewrite cosh_even.
Qed.
Lemma sech2_zero g ive t : density g ive Sech2 (Some 0) t = 0.
Proof. unfold density. cbv zeta. unfold Rdiv. rewrite Rmult_0_r. ring. Qed.
(* von Mises *)
Lemma mises_cont x (n : nat) : forall t, continuous (fun t => exp (x * (cos t - 1)) * cos (INR n * t)) t.
Proof. intros t. smooth. easy. Qed.
Lemma ive0_pos ive x : bessel ive -> 0 < ive 0%nat x.
Proof.
  intros HB. pose proof PI_RGT_0 as HP. pose proof (HB 0%nat x) as A. assert (P : 0 < RInt (fun t => exp (x * (cos t - 1)) * cos (INR 0 * t)) (- PI) PI).
  { apply RInt_gt_0; [lra| |intros; apply mises_cont]. intros t _. simpl (INR 0). rewrite Rmult_0_l, cos_0, Rmult_1_r. apply exp_pos. }
  rewrite (is_RInt_unique _ _ _ _ A) in P. nra.
Qed.
Lemma mises_ok g ive x : bessel ive -> 0 <= x -> good_density (density g ive Mises (Some x)).
Proof.
  intros HB Hx. pose proof PI_RGT_0 as HP. pose proof (ive0_pos ive x HB) as P. assert (C : 0 < 2 * PI * ive 0%nat x) by (apply Rmult_lt_0_compat; lra). split; [|split].
  - pose proof (@is_RInt_scal R_NormedModule _ _ _ (/ (2 * PI * ive 0%nat x)) _ (HB 0%nat x)) as G. change (scal (/ (2 * PI * ive 0%nat x)) (2 * PI * ive 0%nat x)) with (/ (2 * PI * ive 0%nat x) * (2 * PI * ive 0%nat x)) in G. rewrite Rinv_l in G by lra.
    apply (is_RInt_ext (fun t => scal (/ (2 * PI * ive 0%nat x)) (exp (x * (cos t - 1)) * cos (INR 0 * t)))); [|exact G]. intros t _. simpl (INR 0). rewrite Rmult_0_l, cos_0.
    change (/ (2 * PI * ive 0%nat x) * (exp (x * (cos t - 1)) * 1) = exp (x * (cos t - 1)) / (2 * PI * ive 0%nat x)). unfold Rdiv. ring.
  - intros t _. unfold density. pose proof (COS_bound t). rewrite cos_0. split; [left; apply Rdiv_lt_0_compat; [apply exp_pos|easy]|]. apply Rmult_le_compat_r; [left; now apply Rinv_0_lt_compat|]. apply exp_le. nra.
  - intros t. unfold density. now rewrite cos_neg.
Qed.
Lemma mises_coefficient g ive x r : bessel ive -> ive 1%nat x = r * ive 0%nat x -> area (fun t => density g ive Mises (Some x) t * cos t) (- PI) PI r.
Proof.
  intros HB E. pose proof PI_RGT_0 as HP. pose proof (ive0_pos ive x HB) as P. assert (C : 0 < 2 * PI * ive 0%nat x) by (apply Rmult_lt_0_compat; lra).
  pose proof (@is_RInt_scal R_NormedModule _ _ _ (/ (2 * PI * ive 0%nat x)) _ (HB 1%nat x)) as G. change (scal (/ (2 * PI * ive 0%nat x)) (2 * PI * ive 1%nat x)) with (/ (2 * PI * ive 0%nat x) * (2 * PI * ive 1%nat x)) in G.
  rewrite E in G. replace (/ (2 * PI * ive 0%nat x) * (2 * PI * (r * ive 0%nat x))) with r in G by (field; lra).
  apply (is_RInt_ext (fun t => scal (/ (2 * PI * ive 0%nat x)) (exp (x * (cos t - 1)) * cos (INR 1 * t)))); [|exact G]. intros t _. simpl (INR 1). rewrite Rmult_1_l.
  change (/ (2 * PI * ive 0%nat x) * (exp (x * (cos t - 1)) * cos t) = exp (x * (cos t - 1)) / (2 * PI * ive 0%nat x) * cos t). unfold Rdiv. ring.
Qed.
(* box *)
Lemma box_area (h : R -> R) a l : 0 < a <= PI -> area h (- a) a l -> area (fun t => (if Rle_dec (- a) t then if Rle_dec t a then 1 else 0 else 0) * h t) (- PI) PI l.
Proof.
  intros Ha H. replace l with (0 + (l + 0)) by ring. apply (@is_RInt_Chasles R_NormedModule _ (- PI) (- a) PI 0 (l + 0)).
  - apply (area_ext_in (fun _ => 0)); [lra| |pose proof (const_area (- PI) (- a) 0) as Z; rewrite Rmult_0_r in Z; exact Z]. intros t Ht. destruct (Rle_dec (- a) t); [lra|]. ring.
  - apply (@is_RInt_Chasles R_NormedModule _ (- a) a PI l 0).
    + apply (area_ext_in h); [lra| |exact H]. intros t Ht. destruct (Rle_dec (- a) t); [|lra]. destruct (Rle_dec t a); [|lra]. ring.
    + apply (area_ext_in (fun _ => 0)); [lra| |pose proof (const_area a PI 0) as Z; rewrite Rmult_0_r in Z; exact Z]. intros t Ht. destruct (Rle_dec (- a) t); [|lra]. destruct (Rle_dec t a); [lra|]. ring.
Qed.
Lemma box_ok g ive a : 0 < a <= PI -> good_density (density g ive Box (Some a)).
Proof.
  intros Ha. split; [|split].
  - unfold density. apply (area_ext_in (fun t => (if Rle_dec (- a) t then if Rle_dec t a then 1 else 0 else 0) * (fun _ => / (2 * a)) t)); [lra|intros; reflexivity|]. apply box_area; [easy|].
    pose proof (const_area (- a) a (/ (2 * a))) as G. replace ((a - - a) * / (2 * a)) with 1 in G by (field; lra). exact G.
  - intros t _. unfold density. assert (I : 0 < / (2 * a)) by (apply Rinv_0_lt_compat; lra). destruct (Rle_dec (- a) 0); [|lra]. destruct (Rle_dec 0 a); [|lra]. unfold Rdiv. destruct (Rle_dec (- a) t); [destruct (Rle_dec t a)|]; lra.
  - intros t. unfold density. repeat (match goal with |- context [Rle_dec ?u ?v] => destruct (Rle_dec u v) end); try easy; lra.
Qed.
Lemma box_coefficient g ive a r : 0 < a <= PI -> sin a = r * a -> area (fun t => density g ive Box (Some a) t * cos t) (- PI) PI r.
Proof.
  intros Ha E. unfold density. apply (area_ext_in (fun t => (if Rle_dec (- a) t then if Rle_dec t a then 1 else 0 else 0) * (fun t => cos t / (2 * a)) t)); [lra|intros; unfold Rdiv; ring|]. apply box_area; [easy|].
  replace r with (sin a / (2 * a) - sin (- a) / (2 * a)) by (rewrite sin_neg, E; field; lra). apply (area_deriv (fun t => sin t / (2 * a))); intros; [auto_derive; [lra|field; lra]|smooth; lra].
Qed.
