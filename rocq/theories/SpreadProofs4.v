From Coq Require Import Reals Lra Lia List Bool String.
From Coquelicot Require Import Coquelicot.
From Verif Require Import Base PolyModel OrthoModel DftModel DftProofs SpreadModel SpreadSpec SeaModel SeaSpec SeaProofs SeaProofs4 SeaCases WaveProofs2 SpreadProofs SpreadProofs2 SpreadProofs3.
Import ListNotations.
Local Open Scope R_scope.

(* the series for the parameter s: sigma is infinite for s = 0 *)
Definition wn_term (par : option R) (n : nat) : R :=
  match n with O => 1 / 2 / PI | _ => match par with None => 0 | Some x => exp (- INR (n ^ 2) * (x ^ 2 / 2)) end / PI end.
Lemma fst_csum_S n f : fst (csum (S n) f) = fst (csum n f) + fst (f n).
Proof. reflexivity. Qed.
Lemma wrap_norm_term N par th j n : (0 < N)%nat ->
  fst (Cmult (Cmult (RtoC (wn_term par n)) (Cconj (cis (INR n * th)))) (cis (- (2 * PI * INR (j * n) / INR N)))) = wn_term par n * cos (INR n * (th + 2 * PI * INR j / INR N)).
Proof.
  intros HN. assert (HI : INR N <> 0) by (apply not_0_INR; lia). cbn. replace (INR n * (th + 2 * PI * INR j / INR N)) with (INR n * th + 2 * PI * INR (j * n) / INR N) by (rewrite mult_INR; field; easy).
  rewrite cos_plus, cos_neg, sin_neg. ring.
Qed.
Lemma wrapped_sum M par s t : (1 <= M)%nat -> (par = Some s \/ par = None) ->
  forall N f, (0 < N)%nat -> (forall n, (n < M)%nat -> fst (f n) = wn_term par n * cos (INR n * t)) ->
  fst (csum M f) = match par with Some x => wrapped_normal M x t | None => 1 / (2 * PI) end.
Proof.
  intros HM Hp N f HN Hf. pose proof PI_RGT_0 as Hpi. induction M as [|M IH]; [lia|]. rewrite fst_csum_S, Hf by lia. destruct M as [|M].
  - assert (Z0 : fst (csum 0 f) = 0) by reflexivity. rewrite Z0. cbn [wn_term INR wrapped_normal]. rewrite Rmult_0_l, cos_0. destruct par; cbv iota; field; lra.
  - rewrite IH; [|lia|]. 2:{ intros n Hn. apply Hf. lia. } destruct par as [x|].
    + change (wrapped_normal (S (S M)) x t) with (wrapped_normal (S M) x t + exp (- (INR (S M) ^ 2 * x ^ 2 / 2)) * cos (INR (S M) * t) / PI). f_equal. unfold wn_term. rewrite pow_INR.
      replace (- INR (S M) ^ 2 * (x ^ 2 / 2)) with (- (INR (S M) ^ 2 * x ^ 2 / 2)) by field. field. lra.
    + unfold wn_term. field. lra.
Qed.
Definition wn_series (N : nat) (par : option R) (t : R) : R := match par with Some x => wrapped_normal N x t | None => 1 / (2 * PI) end.
Lemma wrap_norm_value N par th j : (0 < N)%nat -> wrap_norm N par th j = Rmax 0 (wn_series N par (th + 2 * PI * INR j / INR N)).
Proof.
  intros HN. unfold wrap_norm. cbv zeta. fold (wn_term par).
  match goal with |- context [fst (fft N ?X j)] => assert (E : fst (fft N X j) = wn_series N par (th + 2 * PI * INR j / INR N)) end.
  { unfold fft. apply (wrapped_sum N par (match par with Some x => x | None => 0 end) _ ltac:(lia) ltac:(destruct par; auto) N); [easy|]. intros n Hn. exact (wrap_norm_term N par th j n HN). }
  rewrite E. destruct (Rlt_dec _ 0) as [H|H]; [rewrite Rmax_left; lra|rewrite Rmax_right; lra].
Qed.
Lemma wrapped_normal_S N x t : (1 <= N)%nat -> wrapped_normal (S N) x t = wrapped_normal N x t + exp (- (INR N ^ 2 * x ^ 2 / 2)) * cos (INR N * t) / PI.
Proof. destruct N; [lia|reflexivity]. Qed.
Lemma cos_turn n t k : cos (INR n * (t + 2 * PI * IZR k)) = cos (INR n * t).
Proof.
  rewrite INR_IZR_INZ. replace (IZR (Z.of_nat n) * (t + 2 * PI * IZR k)) with (IZR (Z.of_nat n) * t + 2 * PI * IZR (Z.of_nat n * k)) by (rewrite mult_IZR; ring).
  generalize (Z.of_nat n * k)%Z as q. intros q. set (y := IZR (Z.of_nat n) * t). destruct (Z_le_gt_dec 0 q) as [H|H].
  - replace q with (Z.of_nat (Z.to_nat q)) by lia. rewrite <- INR_IZR_INZ. replace (2 * PI * INR (Z.to_nat q)) with (2 * INR (Z.to_nat q) * PI) by ring. apply cos_period.
  - replace q with (- Z.of_nat (Z.to_nat (- q)))%Z by lia. rewrite opp_IZR, <- INR_IZR_INZ. rewrite <- (cos_period (y + _) (Z.to_nat (- q))). f_equal. ring.
Qed.
Lemma wrapped_normal_turn N x t k : wrapped_normal N x (t + 2 * PI * IZR k) = wrapped_normal N x t.
Proof. induction N as [|N IH]; [reflexivity|]. destruct N as [|N]; [reflexivity|]. rewrite !wrapped_normal_S by lia. now rewrite IH, cos_turn. Qed.
Lemma wn_series_turn N par t k : wn_series N par (t + 2 * PI * IZR k) = wn_series N par t.
Proof. destruct par; [apply wrapped_normal_turn|reflexivity]. Qed.
Lemma wn_series_wrap N par x c : wn_series N par (wrap x + c) = wn_series N par (x + c).
Proof. destruct (wrap_same x) as [_ [k E]]. rewrite E. replace (x + 2 * PI * IZR k + c) with (x + c + 2 * PI * IZR k) by ring. apply wn_series_turn. Qed.

Lemma area_plus (f h : R -> R) a b l m : area f a b l -> area h a b m -> area (fun t => f t + h t) a b (l + m).
Proof. intros H1 H2. exact (@is_RInt_plus R_NormedModule f h a b l m H1 H2). Qed.
Lemma area_mult (f : R -> R) c a b l : area f a b l -> area (fun t => c * f t) a b (c * l).
Proof. intros H1. exact (@is_RInt_scal R_NormedModule f a b c l H1). Qed.
Lemma area_eq (f h : R -> R) a b l : (forall x, f x = h x) -> area f a b l -> area h a b l.
Proof. intros E H. apply (is_RInt_ext f); [|exact H]. intros x _. apply E. Qed.
Lemma sin_turn n a : sin (INR n * (a + 2 * PI)) = sin (INR n * a).
Proof. replace (INR n * (a + 2 * PI)) with (INR n * a + 2 * INR n * PI) by ring. apply sin_period. Qed.
Lemma cos_area n a : (1 <= n)%nat -> area (fun t => cos (INR n * t)) a (a + 2 * PI) 0.
Proof.
  intros Hn. assert (HI : INR n <> 0) by (apply not_0_INR; lia). assert (G : area (fun t => cos (INR n * t)) a (a + 2 * PI) (sin (INR n * (a + 2 * PI)) / INR n - sin (INR n * a) / INR n)).
  { apply (area_deriv (fun t => sin (INR n * t) / INR n) (fun t => cos (INR n * t))); intros x; [|smooth; easy]. auto_derive; [easy|]. field. easy. }
  rewrite sin_turn in G. rewrite Rminus_eq_0 in G. exact G.
Qed.
Lemma cos_cos_area n a : (1 <= n)%nat -> area (fun t => cos (INR n * t) * cos t) a (a + 2 * PI) (if Nat.eqb n 1 then PI else 0).
Proof.
  intros Hn. pose proof (cos_area (n + 1) a ltac:(lia)) as A1. destruct (Nat.eqb n 1) eqn:E.
  - apply Nat.eqb_eq in E. subst n. pose proof (area_mult _ (1 / 2) _ _ _ (area_plus _ _ _ _ _ _ A1 (const_area a (a + 2 * PI) 1))) as G. replace (1 / 2 * (0 + (a + 2 * PI - a) * 1)) with PI in G by field.
    apply (area_eq _ _ _ _ _) with (2 := G). intros t. cbv beta. replace (INR (1 + 1) * t) with (t + t) by (cbn; ring). replace (INR 1 * t) with t by (cbn; ring). rewrite cos_plus. pose proof (sin2_cos2 t) as S2. unfold Rsqr in S2. lra.
  - apply Nat.eqb_neq in E. pose proof (cos_area (n - 1) a ltac:(lia)) as A2. pose proof (area_mult _ (1 / 2) _ _ _ (area_plus _ _ _ _ _ _ A1 A2)) as G. replace (1 / 2 * (0 + 0)) with 0 in G by field.
    apply (area_eq _ _ _ _ _) with (2 := G). intros t. cbv beta. rewrite plus_INR, minus_INR by lia. cbn [INR]. replace ((INR n + 1) * t) with (INR n * t + t) by ring. replace ((INR n - 1) * t) with (INR n * t - t) by ring. rewrite cos_plus, cos_minus. field.
Qed.
Lemma wrapped_area N x a : (1 <= N)%nat -> area (wrapped_normal N x) a (a + 2 * PI) 1.
Proof.
  intros HN. pose proof PI_RGT_0 as HP. induction N as [|N IH]; [lia|]. destruct N as [|N].
  - pose proof (const_area a (a + 2 * PI) (1 / (2 * PI))) as G. replace ((a + 2 * PI - a) * (1 / (2 * PI))) with 1 in G by (field; lra). exact G.
  - set (M := S N) in *. pose proof (area_plus _ _ _ _ _ _ (IH ltac:(lia)) (area_mult _ (exp (- (INR M ^ 2 * x ^ 2 / 2)) / PI) _ _ _ (cos_area M a ltac:(lia)))) as G. rewrite Rmult_0_r, Rplus_0_r in G.
    apply (area_eq _ _ _ _ _) with (2 := G). intros t. rewrite wrapped_normal_S by lia. field. lra.
Qed.
Lemma wrapped_coefficient N x a : (2 <= N)%nat -> area (fun t => wrapped_normal N x t * cos t) a (a + 2 * PI) (exp (- (x ^ 2 / 2))).
Proof.
  intros HN. pose proof PI_RGT_0 as HP. assert (C0 : area (fun t => wrapped_normal 1 x t * cos t) a (a + 2 * PI) 0).
  { pose proof (area_mult _ (1 / (2 * PI)) _ _ _ (cos_area 1 a ltac:(lia))) as G. rewrite Rmult_0_r in G. apply (area_eq _ _ _ _ _) with (2 := G). intros t. cbn [wrapped_normal INR]. now rewrite Rmult_1_l. }
  assert (ST : forall M l, (1 <= M)%nat -> area (fun t => wrapped_normal M x t * cos t) a (a + 2 * PI) l -> area (fun t => wrapped_normal (S M) x t * cos t) a (a + 2 * PI) (l + exp (- (INR M ^ 2 * x ^ 2 / 2)) / PI * (if Nat.eqb M 1 then PI else 0))).
  { intros M l HM H. pose proof (area_plus _ _ _ _ _ _ H (area_mult _ (exp (- (INR M ^ 2 * x ^ 2 / 2)) / PI) _ _ _ (cos_cos_area M a HM))) as G. apply (area_eq _ _ _ _ _) with (2 := G). intros t. rewrite wrapped_normal_S by easy. field. lra. }
  induction N as [|N IH]; [lia|]. destruct (Nat.eq_dec N 1) as [E|E].
  - subst N. pose proof (ST 1%nat 0 ltac:(lia) C0) as G. cbn [Nat.eqb INR] in G. replace (exp (- (x ^ 2 / 2))) with (0 + exp (- (1 ^ 2 * x ^ 2 / 2)) / PI * PI); [exact G|]. replace (1 ^ 2 * x ^ 2 / 2) with (x ^ 2 / 2) by field. field. lra.
  - pose proof (ST N _ ltac:(lia) (IH ltac:(lia))) as G. apply Nat.eqb_neq in E. rewrite E, Rmult_0_r, Rplus_0_r in G. exact G.
Qed.
Lemma fourier2d_value s : 0 < s -> exists x, fourier2d (s / (s + 1)) = Some x /\ 0 <= x /\ exp (- (x ^ 2 / 2)) = s / (s + 1).
Proof.
  intros Hs. assert (HR : 0 < s / (s + 1) < 1). { split; [apply Rdiv_lt_0_compat; lra|]. apply (Rmult_lt_reg_r (s + 1)); [lra|]. unfold Rdiv. rewrite Rmult_assoc, Rinv_l by lra. lra. }
  set (r := s / (s + 1)) in *. unfold fourier2d. rewrite (Rmax_left r 0), (Rmin_left r 1) by lra. cbv zeta. destruct (Rle_dec r 0) as [H|H]; [lra|]. exists (sqrt (- 2 * ln r)). split; [easy|]. split; [apply sqrt_pos|].
  assert (HL : ln r < 0) by (rewrite <- ln_1; apply ln_increasing; lra). rewrite pow2_sqrt by lra. replace (- (- 2 * ln r / 2)) with (ln r) by field. apply exp_ln. lra.
Qed.
Lemma fourier2d_zero : fourier2d (0 / (0 + 1)) = None.
Proof. unfold fourier2d. replace (0 / (0 + 1)) with 0 by field. rewrite Rmax_left, Rmin_left by lra. cbv zeta. destruct (Rle_dec 0 0); [easy|lra]. Qed.
