From Coq Require Import Reals ZArith Lra Lia.
From Coquelicot Require Import Coquelicot.
From Verif Require Import Base WaveModel WaveSpec WaveProofs WaveProofs2 WaveProofs3.
Local Open Scope R_scope.

Lemma hypot_pos x y : 0 <= sqrt (x ^ 2 + y ^ 2).
Proof. apply sqrt_pos. Qed.
Lemma hypot_sq x y : sqrt (x ^ 2 + y ^ 2) ^ 2 = x ^ 2 + y ^ 2.
Proof. rewrite pow2_sqrt; [reflexivity|]. nra. Qed.
Lemma hypot_zero x y : sqrt (x ^ 2 + y ^ 2) = 0 -> x = 0 /\ y = 0.
Proof. intros E. pose proof (hypot_sq x y) as H. rewrite E in H. split; nra. Qed.
Lemma arctan2_polar y x : let r := sqrt (x ^ 2 + y ^ 2) in r * cos (arctan2 y x) = x /\ r * sin (arctan2 y x) = y /\ - PI < arctan2 y x <= PI.
Proof.
  cbv zeta. unfold arctan2. set (r := sqrt (x ^ 2 + y ^ 2)). pose proof (hypot_pos x y) as P0. pose proof (hypot_sq x y) as Q. fold r in P0, Q. pose proof PI_RGT_0.
  destruct (Req_EM_T r 0) as [Z|Z].
  - destruct (hypot_zero x y Z) as [-> ->]. rewrite Z, cos_0, sin_0. repeat split; lra.
  - assert (R0 : 0 < r) by lra. assert (B : -1 <= x / r <= 1).
    { assert (- r <= x <= r) by (split; nra). split; apply (Rmult_le_reg_r r); auto; unfold Rdiv; rewrite ?Rmult_assoc, Rinv_l by lra; lra. }
    assert (Sq : sin (acos (x / r)) = Rabs y / r).
    { rewrite sin_acos by auto. assert (E : 1 - (x / r)² = (Rabs y / r) * (Rabs y / r)).
      { replace (Rabs y / r * (Rabs y / r)) with ((Rabs y * Rabs y) / r ^ 2) by (field; lra). rewrite <- Rabs_mult, Rabs_pos_eq by nra. unfold Rsqr. apply (Rmult_eq_reg_r (r ^ 2)); [|nra]. field_simplify; [|lra..]. nra. }
      rewrite E. apply sqrt_square. apply Rdiv_le_0_compat; [apply Rabs_pos|auto]. }
    pose proof (acos_bound (x / r)) as AB.
    destruct (Rle_dec 0 y).
    + rewrite cos_acos, Sq, Rabs_pos_eq by auto. repeat split; try lra; field; lra.
    + rewrite cos_neg, sin_neg, cos_acos, Sq, Rabs_left by (auto; lra). split; [field; lra|]. split; [field; lra|].
      destruct AB as [A1 A2]. assert (acos (x / r) <> PI). { intros E. rewrite E, sin_PI in Sq. rewrite Rabs_left in Sq by lra. assert (0 < - y / r) by (apply Rdiv_lt_0_compat; lra). lra. }
      lra.
Qed.
Lemma angle_unique a b : - PI < a <= PI -> - PI < b <= PI -> cos a = cos b -> sin a = sin b -> a = b.
Proof.
  intros Ha Hb C S. pose proof PI_RGT_0.
  assert (P : forall x, - PI < x <= PI -> 0 <= sin x -> 0 <= x).
  { intros x Hx Sx. destruct (Rlt_dec x 0); [|lra]. pose proof (sin_gt_0 (- x) ltac:(lra) ltac:(lra)) as G. rewrite sin_neg in G. lra. }
  assert (P' : forall x, - PI < x <= PI -> sin x < 0 -> x < 0).
  { intros x Hx Sx. destruct (Rlt_dec x 0); auto. pose proof (sin_ge_0 x ltac:(lra) ltac:(lra)). lra. }
  destruct (Rle_dec 0 (sin a)).
  - assert (0 <= a) by (apply P; auto). assert (0 <= b) by (apply P; auto; lra).
    rewrite <- (acos_cos a), <- (acos_cos b) by lra. now rewrite C.
  - assert (a < 0) by (apply P'; auto; lra). assert (b < 0) by (apply P'; auto; lra). assert (acos (cos (- a)) = acos (cos (- b))) by (rewrite !cos_neg; now rewrite C).
    rewrite !acos_cos in H2 by lra. lra.
Qed.
Lemma arctan2_of_polar k th : 0 < k -> - PI < th <= PI -> arctan2 (k * sin th) (k * cos th) = th.
Proof.
  intros Hk Hth. destruct (arctan2_polar (k * sin th) (k * cos th)) as (C & S & B).
  assert (E : sqrt ((k * cos th) ^ 2 + (k * sin th) ^ 2) = k).
  { replace ((k * cos th) ^ 2 + (k * sin th) ^ 2) with (k * k); [apply sqrt_square; lra|]. pose proof (sin2_cos2 th). unfold Rsqr in H. nra. }
  rewrite E in C, S. apply angle_unique; auto; apply (Rmult_eq_reg_l k); lra.
Qed.
Lemma hypot_polar k th : 0 <= k -> sqrt ((k * cos th) ^ 2 + (k * sin th) ^ 2) = k.
Proof.
  intros Hk. replace ((k * cos th) ^ 2 + (k * sin th) ^ 2) with (k * k); [apply sqrt_square; lra|]. pose proof (sin2_cos2 th). unfold Rsqr in H. nra.
Qed.

(* without current *)
Lemma k2w_spec k1 k2 h g : 0 <= g -> positive_depth h ->
  exists w th, k2w [(k1, k2, h, g, 0, 0)] = Pair [w] [th] /\ 0 <= w /\
    let k := sqrt (k1 ^ 2 + k2 ^ 2) in w ^ 2 = g * (k * tanh_depth k h) /\ k * cos th = k1 /\ k * sin th = k2 /\ - PI < th <= PI.
Proof.
  intros Hg Hh. unfold k2w. cbn [map]. unfold k2w1. cbn [fst snd]. set (k := sqrt (k1 ^ 2 + k2 ^ 2)).
  destruct (arctan2_polar k2 k1) as (C & S & B). fold k in C, S. pose proof (hypot_pos k1 k2) as K0. fold k in K0.
  assert (T : 0 <= k * tanh_depth k h).
  { destruct K0 as [K0|K0]; [|rewrite <- K0; lra]. unfold tanh_depth. destruct h as [|h]; [rewrite sgn_pos by auto; lra|]. pose proof (tanh_pos (k * h) ltac:(cbn in Hh; nra)). nra. }
  assert (W0 : (if Rlt_dec 0 k then k1 * 0 + k2 * 0 + sqrt (g * k * tanh_depth k h) else 0) = sqrt (g * (k * tanh_depth k h))).
  { destruct (Rlt_dec 0 k); [rewrite <- (Rmult_assoc g); ring|]. assert (k = 0) as -> by lra. rewrite Rmult_0_l, Rmult_0_r, sqrt_0. reflexivity. }
  rewrite W0. pose proof (sqrt_pos (g * (k * tanh_depth k h))). destruct (Rle_dec 0 (sqrt (g * (k * tanh_depth k h)))); [|lra].
  do 2 eexists. split; [reflexivity|]. split; auto. split; auto. apply pow2_sqrt. nra.
Qed.
(* deep water *)
Lemma deep_roundtrip k1 k2 g limit rtol atol : 0 < g ->
  exists w th, k2w [(k1, k2, Deep, g, 0, 0)] = Pair [w] [th] /\ w2k [(w, th, Deep)] [g] limit rtol atol = Ok (Pair [k1] [k2], true).
Proof.
  intros Hg. destruct (k2w_spec k1 k2 Deep g ltac:(lra) I) as (w & th & E & W & Q & C & S & B). exists w, th. split; [exact E|].
  unfold w2k. cbn [hd last forallb snd is_deep andb map fst combine]. replace (g / g) with 1 by (field; lra).
  assert (D : deep_k g w = sqrt (k1 ^ 2 + k2 ^ 2)).
  { unfold deep_k. replace (1 * sgn w * w ^ 2 / g) with (sgn w * (w ^ 2 / g)) by (field; lra). set (k := sqrt (k1 ^ 2 + k2 ^ 2)) in *. pose proof (hypot_pos k1 k2) as K0. fold k in K0.
    destruct K0 as [K0|K0].
    - unfold tanh_depth in Q. rewrite sgn_pos in Q by auto. assert (w <> 0) by (intros ->; nra). rewrite sgn_pos by lra. rewrite Q. field. lra.
    - rewrite <- K0 in Q. assert (w = 0) as -> by nra. rewrite sgn_zero. lra. }
  rewrite D. repeat f_equal; [exact C|rewrite Rmult_1_r; exact S].
Qed.
Lemma deep_roundtrip_w w th g limit rtol atol : 0 < g -> 0 < w -> - PI < th <= PI ->
  exists k1 k2, w2k [(w, th, Deep)] [g] limit rtol atol = Ok (Pair [k1] [k2], true) /\ k2w [(k1, k2, Deep, g, 0, 0)] = Pair [w] [th].
Proof.
  intros Hg Hw Hth. unfold w2k. cbn [hd last forallb snd is_deep andb map fst combine]. replace (g / g) with 1 by (field; lra).
  assert (D : deep_k g w = w ^ 2 / g) by (unfold deep_k; rewrite sgn_pos by auto; field; lra). rewrite D. set (k := w ^ 2 / g). assert (K : 0 < k) by (apply Rdiv_lt_0_compat; [nra|auto]).
  do 2 eexists. split; [reflexivity|]. rewrite Rmult_1_r. unfold k2w. cbn [map]. unfold k2w1. rewrite hypot_polar, arctan2_of_polar by (auto; lra). cbn [fst snd].
  destruct (Rlt_dec 0 k); [|lra]. unfold tanh_depth. rewrite sgn_pos by auto. rewrite !Rmult_0_r, !Rplus_0_l, Rmult_1_r.
  replace (g * k) with (w * w) by (unfold k; field; lra). rewrite sqrt_square by lra. destruct (Rle_dec 0 w); [reflexivity|lra].
Qed.
(* finite depth: back to the frequency within the tolerance *)
Lemma finite_roundtrip w th h g limit rtol atol k1 k2 : 0 < g -> 0 <= rtol -> 0 <= atol -> 0 <= w -> 0 < h < 10 ^ 25 ->
  w2k [(w, th, Depth h)] [g] limit rtol atol = Ok (Pair [k1] [k2], true) ->
  exists w' th', k2w [(k1, k2, Depth h, g, 0, 0)] = Pair [w'] [th'] /\
    Rabs (w' ^ 2 - w ^ 2) <= 4 * g * tolerance rtol atol (sqrt (k1 ^ 2 + k2 ^ 2)) /\ (0 < w -> - PI < th <= PI -> th' = th).
Proof.
  intros Hg Hr Ha Hw Hh E. destruct (w2k_spec [(w, th, Depth h)] g limit rtol atol Hg Hr Ha ltac:(discriminate)) as (a & b & ok & E' & L1 & L2 & H).
  { intros w0 th0 h0 [Q|[]]. injection Q as <- <- <-. cbn. lra. }
  rewrite E in E'. injection E' as <- <- <-. specialize (H O ltac:(cbn; lia)). cbn [nth fst snd] in H. destruct H as (k & -> & -> & SP & S0 & SV). specialize (SV eq_refl).
  unfold solves in SV. destruct (Rle_dec (10 ^ 25) h); [lra|]. destruct SV as (_ & _ & SV).
  assert (K : 0 <= k) by (destruct Hw as [Hw| <-]; [assert (w <> 0) by lra; specialize (SP H); nra|rewrite S0; lra]).
  destruct (k2w_spec (k * cos th) (k * sin th) (Depth h) g ltac:(lra) ltac:(cbn; lra)) as (w' & th' & E' & W & Q & C & S & B). exists w', th'. split; [exact E'|].
  rewrite hypot_polar in * by auto. split.
  - rewrite Q. cbn [tanh_depth]. replace (g * (k * tanh (k * h)) - w ^ 2) with (g * (k * tanh (k * h) - w ^ 2 / g)) by (field; lra). rewrite Rabs_mult, Rabs_pos_eq by lra. nra.
  - intros W0 Hth. assert (0 < k) by (assert (w <> 0) by lra; specialize (SP H); nra). apply angle_unique; auto; apply (Rmult_eq_reg_l k); lra.
Qed.
(* and the wave number is near the true one *)
Lemma wave_number_error g h w rtol atol k kt : 0 < g -> 0 < h < 10 ^ 25 -> 0 < w -> solves g rtol atol w (Depth h) k -> 0 < kt -> dispersion_relation g h w kt ->
  Rabs (k - kt) * tanh (Rmin k kt * h) <= 4 * tolerance rtol atol k.
Proof.
  intros Hg Hh Hw SV Hkt D. unfold solves in SV. destruct (Rle_dec (10 ^ 25) h); [lra|]. destruct SV as (_ & SP & SV). specialize (SP ltac:(lra)). assert (Hk : 0 < k) by nra.
  unfold dispersion_relation in D. replace (w ^ 2 / g) with (kt * tanh (kt * h)) in SV by (rewrite D; field; lra). fold (disp h k) (disp h kt) in SV.
  eapply Rle_trans; [|exact SV]. unfold Rmin. destruct (Rle_dec k kt) as [L|L].
  - pose proof (disp_growth h k kt ltac:(lra) Hk L). rewrite (Rabs_left1 (k - kt)) by lra. rewrite (Rabs_left1 (disp h k - disp h kt)); [lra|]. pose proof (tanh_pos (k * h) ltac:(nra)). nra.
  - pose proof (disp_growth h kt k ltac:(lra) Hkt ltac:(lra)). pose proof (tanh_pos (kt * h) ltac:(nra)). rewrite (Rabs_pos_eq (k - kt)) by lra. rewrite (Rabs_pos_eq (disp h k - disp h kt)) by nra. lra.
Qed.
(* nothing in, one array out *)
Lemma dispersion_empty g limit rtol atol : w2k [] g limit rtol atol = Ok (Single [], true) /\ k2w [] = Single [].
Proof. split; reflexivity. Qed.
Lemma w2k_two_constants w th h g0 g1 limit rtol atol : h <= 10 ^ 25 -> w2k [(w, th, Depth h)] [g0; g1] limit rtol atol = Err ValueError.
Proof. intros H. unfold w2k. cbn [forallb snd is_deep andb]. destruct (Rlt_dec (10 ^ 25) h); [lra|reflexivity]. Qed.
