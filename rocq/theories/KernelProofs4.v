From Coq Require Import Reals Lra Lia List Bool Psatz String.
From Coquelicot Require Import Coquelicot.
From Verif Require Import Base PolyModel KdeModel SeaModel SeaSpec SeaProofs SeaProofs2 SeaProofs3 SeaCases SpreadModel SpreadSpec CosPow GammaProofs KernelModel KernelSpec SpreadProofs SpreadProofs2 SpreadProofs4 KernelProofs KernelProofs2 KernelProofs3 Basel.
Import ListNotations.
Local Open Scope R_scope.

Lemma line_value (f : R -> R) l m : l = m -> line_integral f l -> line_integral f m.
Proof. now intros ->. Qed.
(* even functions that vanish outside of [-1, 1] *)
Lemma line_ball (h f F : R -> R) m : (forall x, h (- x) = h x) -> (forall x, 1 < x -> h x = 0) -> (forall x, 0 < x < 1 -> f x = h x) -> (forall x, is_derive F x (f x)) -> (forall x, continuous f x) -> m = 2 * (F 1 - F 0) -> line_integral h m.
Proof.
  intros HE HZ HI D C ->. assert (A1 : area h 0 1 (F 1 - F 0)). { apply (area_ext_in f); [lra|easy|]. now apply area_deriv. }
  assert (A2 : forall W, 1 <= W -> area h 1 W 0). { intros W HW. apply (area_ext_in (fun _ => 0)); [easy|intros x Hx; symmetry; apply HZ; lra|]. apply (area_value _ _ _ ((W - 1) * 0)); [ring|]. apply const_area. }
  assert (A3 : forall W, 1 <= W -> area h 0 W (F 1 - F 0)). { intros W HW. apply (area_value _ _ _ (F 1 - F 0 + 0)); [ring|]. apply (area_split h 0 1 W); [exact A1|now apply A2]. }
  apply line_even; [exact HE| |].
  - intros W HW. destruct (Rle_dec 1 W) as [H|H]; [eexists; now apply A3|]. exists (F W - F 0). apply (area_ext_in f); [easy|intros x Hx; apply HI; lra|]. now apply area_deriv.
  - apply (is_lim_ext_loc (fun _ => F 1 - F 0)); [|apply is_lim_const]. exists 1. intros W HW. symmetry. apply area_unique. apply A3. lra.
Qed.
Definition clip (p : nat) (x : R) : R := Rmax 0 (1 - x ^ 2) ^ p.
Lemma clip_multi p x : kernel (Multi p 1) [x] = clip p x.
Proof. cbn [kernel map]. unfold npsum, clip. cbn [fold_right]. f_equal. f_equal. field. Qed.
Lemma clip_product p x : kernel (Product p 1) [x] = clip p x.
Proof. cbn [kernel map]. unfold prodl, clip. cbn [fold_right]. rewrite Rmult_1_r. f_equal. f_equal. field. Qed.
Lemma clip_in p x : -1 < x < 1 -> clip p x = (1 - x ^ 2) ^ p.
Proof. intros H. unfold clip. rewrite Rmax_right; [easy|nra]. Qed.
Lemma clip_out p x : 1 < x -> clip (S p) x = 0.
Proof. intros H. unfold clip. rewrite Rmax_left by nra. cbn. ring. Qed.
Lemma clip_even p x : clip p (- x) = clip p x.
Proof. unfold clip. f_equal. f_equal. ring. Qed.
Lemma sphere_1 g : log_gamma g -> sphere_volume g 1 1 = 2.
Proof.
  intros Hg. unfold sphere_volume. change (INR 1) with 1. rewrite (gamma_half g Hg). pose proof PI_RGT_0. replace (1 / 2) with (/ 2) by field. rewrite Rpower_sqrt by easy. pose proof (sqrt_lt_R0 PI ltac:(lra)). field. lra.
Qed.
Lemma multi_factor g p n c : log_gamma g -> (norm_factor g (Multi p 1) 1 n = Ok c \/ norm_factor g (Product p 1) 1 n = Ok c) ->
  c = 2 ^ p * prodl (map (fun i => INR (S i)) (seq 0 p)) * 2 / prodl (map (fun i => INR (1 + 2 + 2 * i)) (seq 0 p)).
Proof.
  intros Hg. assert (Q : forall a b : R, Ok a = Ok b -> a = b) by (intros a b E; now injection E). cbn [norm_factor]. rewrite (sphere_1 g Hg). intros [E|E]; apply Q in E; subst c; [easy|]. now rewrite pow_1.
Qed.
Lemma factor_1 c : c = 2 ^ 1 * prodl (map (fun i => INR (S i)) (seq 0 1)) * 2 / prodl (map (fun i => INR (1 + 2 + 2 * i)) (seq 0 1)) -> c = 4 / 3.
Proof. intros ->. cbn. field. Qed.
Lemma factor_2 c : c = 2 ^ 2 * prodl (map (fun i => INR (S i)) (seq 0 2)) * 2 / prodl (map (fun i => INR (1 + 2 + 2 * i)) (seq 0 2)) -> c = 16 / 15.
Proof. intros ->. cbn. field. Qed.
Lemma factor_3 c : c = 2 ^ 3 * prodl (map (fun i => INR (S i)) (seq 0 3)) * 2 / prodl (map (fun i => INR (1 + 2 + 2 * i)) (seq 0 3)) -> c = 32 / 35.
Proof. intros ->. cbn. field. Qed.
Ltac ball := first [intros x; rewrite !clip_even; ring | intros x Hx; rewrite !clip_out by easy; unfold Rdiv; ring | intros x Hx; rewrite !clip_in by lra; field | intros x; auto_derive; [easy|field] | intros x; smooth; easy | field].
Lemma epan_2 : line_integral (fun x => x ^ 2 * (clip 1 x / (4 / 3))) (1 / 5).
Proof. apply (line_ball _ (fun x => 3 / 4 * (x ^ 2 - x ^ 4)) (fun x => 3 / 4 * (x ^ 3 / 3 - x ^ 5 / 5))); ball. Qed.
Lemma epan_R : line_integral (fun x => (clip 1 x / (4 / 3)) ^ 2) (3 / 5).
Proof. apply (line_ball _ (fun x => 9 / 16 * (1 - x ^ 2) ^ 2) (fun x => 9 / 16 * (x - 2 * x ^ 3 / 3 + x ^ 5 / 5))); ball. Qed.
Lemma biwe_2 : line_integral (fun x => x ^ 2 * (clip 2 x / (16 / 15))) (1 / 7).
Proof. apply (line_ball _ (fun x => 15 / 16 * (x ^ 2 - 2 * x ^ 4 + x ^ 6)) (fun x => 15 / 16 * (x ^ 3 / 3 - 2 * x ^ 5 / 5 + x ^ 7 / 7))); ball. Qed.
Lemma biwe_R : line_integral (fun x => (clip 2 x / (16 / 15)) ^ 2) (5 / 7).
Proof. apply (line_ball _ (fun x => 225 / 256 * (1 - x ^ 2) ^ 4) (fun x => 225 / 256 * (x - 4 * x ^ 3 / 3 + 6 * x ^ 5 / 5 - 4 * x ^ 7 / 7 + x ^ 9 / 9))); ball. Qed.
Lemma triw_2 : line_integral (fun x => x ^ 2 * (clip 3 x / (32 / 35))) (1 / 9).
Proof. apply (line_ball _ (fun x => 35 / 32 * (x ^ 2 - 3 * x ^ 4 + 3 * x ^ 6 - x ^ 8)) (fun x => 35 / 32 * (x ^ 3 / 3 - 3 * x ^ 5 / 5 + 3 * x ^ 7 / 7 - x ^ 9 / 9))); ball. Qed.
Lemma triw_R : line_integral (fun x => (clip 3 x / (32 / 35)) ^ 2) (350 / 429).
Proof. apply (line_ball _ (fun x => (35 / 32) ^ 2 * (1 - x ^ 2) ^ 6) (fun x => (35 / 32) ^ 2 * (x - 6 * x ^ 3 / 3 + 15 * x ^ 5 / 5 - 20 * x ^ 7 / 7 + 15 * x ^ 9 / 9 - 6 * x ^ 11 / 11 + x ^ 13 / 13))); ball. Qed.
(* derivatives of the radial kernels *)
Ltac realeq := match goal with |- @eq _ ?a ?b => change (@eq R a b) end.
Lemma pos_part_derive p u : is_derive (fun u => Rmax 0 u ^ S (S p)) u (INR (S (S p)) * Rmax 0 u ^ S p).
Proof.
  destruct (Rtotal_order u 0) as [H|[H|H]].
  - rewrite Rmax_left by lra. replace (INR (S (S p)) * 0 ^ S p) with 0 by (cbn [pow]; ring). apply (is_derive_ext_loc (fun _ => 0)); [|apply @is_derive_const].
    exists (mkposreal (- u) ltac:(lra)). intros y Hy. unfold ball in Hy. cbn in Hy. unfold AbsRing_ball, abs, minus, plus, opp in Hy. cbn in Hy. apply Rabs_def2 in Hy. rewrite Rmax_left by lra. symmetry. apply Rmult_0_l.
  - subst u. rewrite Rmax_left by lra. replace (INR (S (S p)) * 0 ^ S p) with 0 by (cbn [pow]; ring). apply is_derive_Reals. intros eps He. assert (HD : 0 < Rmin eps 1) by (apply Rmin_pos; lra). exists (mkposreal _ HD). cbn. intros h Hh Hd. pose proof (Rmin_l eps 1). pose proof (Rmin_r eps 1).
    rewrite Rplus_0_l, (Rmax_left 0 0) by lra. rewrite Rmult_0_l, Rminus_0_r, Rminus_0_r. set (m := Rmax 0 h). assert (M0 : 0 <= m) by apply Rmax_l. assert (M1 : m <= Rabs h) by (apply Rmax_lub; [apply Rabs_pos|apply Rle_abs]). assert (MP : 0 <= m ^ p <= 1). { split; [now apply pow_le|]. rewrite <- (pow1 p). apply pow_incr. lra. }
    unfold Rdiv. rewrite Rabs_mult, Rabs_inv. assert (A0 : 0 < Rabs h) by (now apply Rabs_pos_lt). apply Rmult_lt_reg_r with (Rabs h); [easy|]. rewrite Rmult_assoc, Rinv_l, Rmult_1_r by lra. assert (P0 : 0 <= m * (m * m ^ p)) by (apply Rmult_le_pos; [easy|apply Rmult_le_pos; lra]). rewrite Rabs_right by lra. assert (m * m ^ p <= m) by nra. nra.
  - rewrite Rmax_right by lra. apply (is_derive_ext_loc (fun u => u ^ S (S p))).
    + exists (mkposreal u H). intros y Hy. unfold ball in Hy. cbn in Hy. unfold AbsRing_ball, abs, minus, plus, opp in Hy. cbn in Hy. apply Rabs_def2 in Hy. now rewrite Rmax_right by lra.
    + pose proof (is_derive_pow (fun u : R => u) (S (S p)) u 1 (is_derive_id u)) as G. cbn [Nat.pred] in G. rewrite Rmult_1_r in G. exact G.
Qed.
Lemma clip_derive p x : is_derive (clip (S (S p))) x (INR (S (S p)) * clip (S p) x * (-2 * x)).
Proof.
  assert (G : is_derive (fun x => 1 - x ^ 2) x (-2 * x)) by (auto_derive; [easy|ring]). pose proof (is_derive_comp (fun u => Rmax 0 u ^ S (S p)) (fun x => 1 - x ^ 2) x _ _ (pos_part_derive p (1 - x ^ 2)) G) as D. unfold scal in D. cbn -[INR pow] in D. unfold mult in D. cbn -[INR pow] in D. unfold clip. rewrite Rmult_comm. exact D.
Qed.
Lemma clip_cont p x : continuous (clip (S p)) x.
Proof.
  apply (continuous_ext (fun x => (Rmax 0 (1 - x ^ 2)) * clip p x)); [intros y; reflexivity|]. apply (continuous_mult (fun x => Rmax 0 (1 - x ^ 2)) (clip p)).
  - apply (continuous_ext (fun x => ((1 - x ^ 2) + Rabs (1 - x ^ 2)) / 2)). { intros y. unfold Rmax, Rabs. destruct (Rle_dec 0 (1 - y ^ 2)), (Rcase_abs (1 - y ^ 2)); lra. }
    assert (C1 : continuous (fun x => 1 - x ^ 2) x) by (smooth; easy). apply (continuous_mult (fun x => (1 - x ^ 2) + Rabs (1 - x ^ 2)) (fun _ => / 2)); [|apply continuous_const]. apply (continuous_plus (fun x => 1 - x ^ 2) (fun x => Rabs (1 - x ^ 2))); [exact C1|]. apply continuous_comp; [exact C1|apply continuous_Rabs].
  - induction p as [|p IH]; [apply continuous_const|]. apply (continuous_ext (fun x => (Rmax 0 (1 - x ^ 2)) * clip p x)); [intros y; reflexivity|]. apply (continuous_mult (fun x => Rmax 0 (1 - x ^ 2)) (clip p)); [|exact IH].
    apply (continuous_ext (fun x => ((1 - x ^ 2) + Rabs (1 - x ^ 2)) / 2)). { intros y. unfold Rmax, Rabs. destruct (Rle_dec 0 (1 - y ^ 2)), (Rcase_abs (1 - y ^ 2)); lra. }
    assert (C1 : continuous (fun x => 1 - x ^ 2) x) by (smooth; easy). apply (continuous_mult (fun x => (1 - x ^ 2) + Rabs (1 - x ^ 2)) (fun _ => / 2)); [|apply continuous_const]. apply (continuous_plus (fun x => 1 - x ^ 2) (fun x => Rabs (1 - x ^ 2))); [exact C1|]. apply continuous_comp; [exact C1|apply continuous_Rabs].
Qed.
(* the second derivative of the biweight kernel, without the points -1 and 1 *)
Definition biwe2 (x : R) : R := if Rlt_dec (Rabs x) 1 then 15 / 16 * (-4 + 12 * x ^ 2) else 0.
Lemma biwe2_in x : -1 < x < 1 -> biwe2 x = 15 / 16 * (-4 + 12 * x ^ 2).
Proof. intros H. unfold biwe2. destruct (Rlt_dec (Rabs x) 1) as [G|G]; [easy|]. exfalso. apply G. apply Rabs_def1; lra. Qed.
Lemma biwe2_out x : 1 < Rabs x -> biwe2 x = 0.
Proof. intros H. unfold biwe2. destruct (Rlt_dec (Rabs x) 1); [lra|easy]. Qed.
Lemma bend_value (K : R -> R) K' l : (forall x, K x = K' x) -> bending K l -> bending K' l.
Proof. intros E (K1 & K2 & cuts & D & R). exists K1, K2, cuts. split; [|exact R]. intros x. apply (is_derive_ext K); [exact E|apply D]. Qed.
Lemma clip_far (y : R) : 1 < Rabs y -> clip 1 y = 0.
Proof. intros HY. unfold clip. rewrite Rmax_left; [ring|]. assert (1 < y ^ 2) by (rewrite <- (pow2_abs y); nra). lra. Qed.
Lemma far_out (x y : R) : 1 < Rabs x -> Rabs (y + - x) < Rabs x - 1 -> 1 < Rabs y.
Proof. intros H1 Hy. pose proof (Rabs_triang_inv x (x - y)) as T. replace (x - (x - y)) with y in T by ring. rewrite (Rabs_minus_sym x y) in T. unfold Rminus in *. lra. Qed.
Lemma biwe_bend : bending (fun x => clip 2 x / (16 / 15)) (45 / 2).
Proof.
  exists (fun x => 15 / 16 * (-4 * x * clip 1 x)), biwe2, [-1; 1]. split; [|split; [|split]].
  - intros x. pose proof (is_derive_scal (clip 2) x (15 / 16) _ (clip_derive 0 x)) as G. apply (is_derive_ext (fun x => 15 / 16 * clip 2 x)); [intros y; realeq; field|]. replace (15 / 16 * (-4 * x * clip 1 x)) with (15 / 16 * (INR 2 * clip 1 x * (-2 * x))); [exact G|]. change (INR 2) with 2. ring.
  - intros x. apply (continuous_mult (fun _ => 15 / 16) (fun x => -4 * x * clip 1 x)); [apply continuous_const|]. apply (continuous_mult (fun x => -4 * x) (clip 1)); [smooth; easy|apply clip_cont].
  - intros x Hx. assert (N1 : x <> -1) by (intros ->; apply Hx; now left). assert (N2 : x <> 1) by (intros ->; apply Hx; right; now left). destruct (Rlt_dec (Rabs x) 1) as [H|H].
    + apply Rabs_def2 in H. rewrite biwe2_in by lra. apply (is_derive_ext_loc (fun x => 15 / 16 * (-4 * x * (1 - x ^ 2)))).
      * assert (HM : 0 < Rmin (x + 1) (1 - x)) by (apply Rmin_pos; lra). exists (mkposreal _ HM). intros y Hy. unfold ball in Hy. cbn in Hy. unfold AbsRing_ball, abs, minus, plus, opp in Hy. cbn in Hy. apply Rabs_def2 in Hy. pose proof (Rmin_l (x + 1) (1 - x)). pose proof (Rmin_r (x + 1) (1 - x)). rewrite clip_in by lra. realeq. ring.
      * auto_derive; [easy|field].
    + assert (H1 : 1 < Rabs x). { destruct (Rle_lt_or_eq_dec 1 (Rabs x) ltac:(lra)) as [G|G]; [easy|]. exfalso. revert G. unfold Rabs. destruct (Rcase_abs x); lra. }
      rewrite biwe2_out by easy. apply (is_derive_ext_loc (fun _ => 0)); [|apply @is_derive_const]. assert (HM : 0 < Rabs x - 1) by lra. exists (mkposreal _ HM). intros y Hy. unfold ball in Hy. cbn in Hy. unfold AbsRing_ball, abs, minus, plus, opp in Hy. cbn in Hy.
      assert (HY : 1 < Rabs y). { exact (far_out x y H1 Hy). }
      rewrite (clip_far y HY). realeq. ring.
  - apply (line_ball _ (fun x => (15 / 16) ^ 2 * (16 - 96 * x ^ 2 + 144 * x ^ 4)) (fun x => (15 / 16) ^ 2 * (16 * x - 32 * x ^ 3 + 144 * x ^ 5 / 5))).
    + intros x. unfold biwe2. rewrite Rabs_Ropp. destruct (Rlt_dec (Rabs x) 1); ring.
    + intros x Hx. rewrite biwe2_out; [ring|]. rewrite Rabs_right; lra.
    + intros x Hx. rewrite biwe2_in by lra. ring.
    + intros x. auto_derive; [easy|field].
    + intros x. smooth. easy.
    + field.
Qed.
Lemma triw_bend : bending (fun x => clip 3 x / (32 / 35)) 35.
Proof.
  exists (fun x => 35 / 32 * (-6 * x * clip 2 x)), (fun x => 35 / 32 * (-6 * clip 2 x + 24 * x ^ 2 * clip 1 x)), []. split; [|split; [|split]].
  - intros x. pose proof (is_derive_scal (clip 3) x (35 / 32) _ (clip_derive 1 x)) as G. apply (is_derive_ext (fun x => 35 / 32 * clip 3 x)); [intros y; realeq; field|]. replace (35 / 32 * (-6 * x * clip 2 x)) with (35 / 32 * (INR 3 * clip 2 x * (-2 * x))); [exact G|]. replace (INR 3) with 3 by (cbn; ring). ring.
  - intros x. apply (continuous_mult (fun _ => 35 / 32) (fun x => -6 * x * clip 2 x)); [apply continuous_const|]. apply (continuous_mult (fun x => -6 * x) (clip 2)); [smooth; easy|apply clip_cont].
  - intros x _. apply (is_derive_scal (fun x => -6 * x * clip 2 x) x (35 / 32)). assert (G1 : is_derive (fun x => -6 * x) x (-6)) by (auto_derive; [easy|ring]). pose proof (is_derive_mult _ _ x _ _ G1 (clip_derive 0 x) Rmult_comm) as G. unfold plus, mult in G. cbn -[INR pow clip] in G.
    replace (-6 * clip 2 x + 24 * x ^ 2 * clip 1 x) with (-6 * clip 2 x + -6 * x * (INR 2 * clip 1 x * (-2 * x))); [exact G|]. change (INR 2) with 2. ring.
  - apply (line_ball _ (fun x => (35 / 32) ^ 2 * 36 * (1 - 6 * x ^ 2 + 5 * x ^ 4) ^ 2) (fun x => (35 / 32) ^ 2 * 36 * (x - 12 * x ^ 3 / 3 + 46 * x ^ 5 / 5 - 60 * x ^ 7 / 7 + 25 * x ^ 9 / 9))); ball.
Qed.
