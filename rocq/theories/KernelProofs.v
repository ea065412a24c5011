From Coq Require Import Reals Lra Lia List Bool Psatz.
From Coquelicot Require Import Coquelicot.
From Verif Require Import Base PolyModel KdeModel SeaModel SeaSpec SeaProofs SpreadModel SpreadSpec CosPow GammaProofs KernelModel KernelSpec SpreadProofs SpreadProofs2 SpreadProofs4.
Import ListNotations.
Local Open Scope R_scope.

Lemma line_ext f h l : (forall x, f x = h x) -> line_integral f l -> line_integral h l.
Proof.
  intros E [H1 H2]. split; [intros a b; apply (ex_RInt_ext f); [intros; apply E|apply H1]|]. apply (is_lim_ext (fun W => RInt f (- W) W)); [|exact H2]. intros W. apply RInt_ext. intros; apply E.
Qed.
Lemma line_mult c f l : line_integral f l -> line_integral (fun x => c * f x) (c * l).
Proof.
  intros [H1 H2]. split; [intros a b; destruct (H1 a b) as [m Hm]; exists (c * m); exact (area_mult f c a b m Hm)|].
  apply (is_lim_ext (fun W => c * RInt f (- W) W)).
  - intros W. symmetry. apply is_RInt_unique. apply area_mult. apply (@RInt_correct R_CompleteNormedModule). apply H1.
  - apply (is_lim_scal_l _ c p_infty l) in H2. exact H2.
Qed.
Lemma line_plus f h l m : line_integral f l -> line_integral h m -> line_integral (fun x => f x + h x) (l + m).
Proof.
  intros [H1 H2] [H3 H4]. split; [intros a b; destruct (H1 a b) as [u Hu]; destruct (H3 a b) as [v Hv]; exists (u + v); exact (area_plus f h a b u v Hu Hv)|].
  apply (is_lim_ext (fun W => RInt f (- W) W + RInt h (- W) W)).
  - intros W. symmetry. apply is_RInt_unique. apply area_plus; apply (@RInt_correct R_CompleteNormedModule); [apply H1|apply H3].
  - apply (is_lim_plus' _ _ p_infty l m H2 H4).
Qed.
(* functions that vanish outside an interval *)
Lemma line_compact (f : R -> R) r l : 0 <= r -> (forall x, r < Rabs x -> f x = 0) -> area f (- r) r l -> line_integral f l.
Proof.
  intros Hr H0 HA.
  assert (ZR : forall b, r <= b -> area f r b 0). { intros b Hb. apply (area_ext_in (fun _ => 0)); [easy| |]. { intros x Hx. symmetry. apply H0. rewrite Rabs_right; lra. } pose proof (const_area r b 0) as G. rewrite Rmult_0_r in G. exact G. }
  assert (ZL : forall a, a <= - r -> area f a (- r) 0). { intros a Ha. apply (area_ext_in (fun _ => 0)); [easy| |]. { intros x Hx. symmetry. apply H0. rewrite Rabs_left; lra. } pose proof (const_area a (- r) 0) as G. rewrite Rmult_0_r in G. exact G. }
  assert (ZW : forall a b, a <= - r -> r <= b -> area f a b l).
  { intros a b Ha Hb. pose proof (@is_RInt_Chasles R_NormedModule f _ _ _ _ _ (@is_RInt_Chasles R_NormedModule f _ _ _ _ _ (ZL a Ha) HA) (ZR b Hb)) as G. unfold plus in G. cbn in G. rewrite Rplus_0_l, Rplus_0_r in G. exact G. }
  split.
  - assert (EX : forall a b, a <= b -> ex_RInt f a b).
    { intros a b Hab. set (u := Rmin a (- r)). set (v := Rmax b r). assert (HU : u <= a) by apply Rmin_l. assert (HU' : u <= - r) by apply Rmin_r. assert (HV : b <= v) by apply Rmax_l. assert (HV' : r <= v) by apply Rmax_r.
      assert (G : ex_RInt f u v) by (exists l; now apply ZW). apply (@ex_RInt_Chasles_2 R_CompleteNormedModule f u a b); [lra|]. apply (@ex_RInt_Chasles_1 R_CompleteNormedModule f u b v); [lra|easy]. }
    intros a b. destruct (Rle_dec a b) as [H|H]; [now apply EX|]. apply ex_RInt_swap. apply EX. lra.
  - apply (is_lim_ext_loc (fun _ => l)); [|apply is_lim_const]. exists r. intros W HW. symmetry. apply is_RInt_unique. apply ZW; lra.
Qed.
(* change of scale *)
Lemma line_scale (f : R -> R) s l : 0 < s -> line_integral f l -> line_integral (fun x => f (x / s)) (s * l).
Proof.
  intros Hs [H1 H2]. assert (G : forall a b, area (fun x => f (x / s)) a b (s * RInt f (a / s) (b / s))).
  { intros a b. pose proof (@RInt_correct R_CompleteNormedModule f (a / s) (b / s) (H1 _ _)) as I. pose proof (@is_RInt_comp_lin R_NormedModule f (/ s) 0 a b (RInt f (a / s) (b / s))) as K.
    rewrite !Rplus_0_r in K. replace (/ s * a) with (a / s) in K by (unfold Rdiv; ring). replace (/ s * b) with (b / s) in K by (unfold Rdiv; ring). specialize (K I).
    apply (area_mult _ s) in K. apply (area_eq _ _ _ _ _) with (2 := K). intros x. unfold scal. cbn. unfold mult. cbn. rewrite Rplus_0_r. rewrite (Rmult_comm (/ s) x). change (x * / s) with (x / s). field. lra. }
  split; [intros a b; eexists; apply G|]. apply (is_lim_ext (fun W => s * RInt f (- (W / s)) (W / s))).
  - intros W. symmetry. apply is_RInt_unique. replace (- (W / s)) with (- W / s) by (field; lra). apply G.
  - apply (is_lim_scal_l _ s p_infty l). apply (is_lim_comp (fun W => RInt f (- W) W) (fun W => W / s) p_infty l p_infty); [exact H2| |].
    + apply (is_lim_ext (fun W => / s * W)); [intros; unfold Rdiv; ring|]. replace p_infty with (Rbar_mult (/ s) p_infty) at 2. { apply is_lim_scal_l. apply is_lim_id. }
      cbn. destruct (Rle_dec 0 (/ s)) as [K|K]; [|exfalso; apply K; left; now apply Rinv_0_lt_compat]. destruct (Rle_lt_or_eq_dec 0 (/ s) K) as [K'|K']; [reflexivity|]. exfalso. pose proof (Rinv_0_lt_compat s Hs). lra.
    + now exists 0.
Qed.
Lemma line_unique f l m : line_integral f l -> line_integral f m -> l = m.
Proof. intros [_ H1] [_ H2]. apply is_lim_unique in H1. apply is_lim_unique in H2. rewrite H1 in H2. now injection H2. Qed.
Lemma space_ext d : forall f h l, (forall v, List.length v = d -> f v = h v) -> space_integral d f l -> space_integral d h l.
Proof.
  induction d as [|d IH]; intros f h l E H; [cbn in *; rewrite <- E by easy; exact H|]. destruct H as (g & Hg & HL). exists g. split; [|easy]. intros x. apply (IH (fun v => f (x :: v))); [|apply Hg]. intros v Hv. apply E. cbn. now rewrite Hv.
Qed.
Lemma space_mult d : forall c f l, space_integral d f l -> space_integral d (fun v => c * f v) (c * l).
Proof.
  induction d as [|d IH]; intros c f l H; [cbn in *; now rewrite H|]. destruct H as (g & Hg & HL). exists (fun x => c * g x). split; [intros x; apply (IH c (fun v => f (x :: v))); apply Hg|]. now apply line_mult.
Qed.
(* products of functions of one variable *)
Lemma space_product (h : R -> R) I d : line_integral h I -> space_integral d (fun v => prodl (map h v)) (I ^ d).
Proof.
  intros H. induction d as [|d IH]; [reflexivity|]. exists (fun x => h x * I ^ d). split; [intros x; cbn [map prodl fold_right]; now apply (space_mult d (h x) (fun v => prodl (map h v)))|].
  apply (line_ext (fun x => I ^ d * h x)); [intros; ring|]. replace (I ^ S d) with (I ^ d * I) by (cbn; ring). now apply line_mult.
Qed.
(* the beta integral *)
Definition beta (q : R) : R := cosint (q + 1 / 2) / 2.
Lemma beta_area q : 0 < q -> area (fun t => pw (1 - t ^ 2) q) (- 1) 1 (beta q).
Proof.
  intros Hq. pose proof PI_RGT_0 as HP. assert (CT : forall t, continuous (fun t => pw (1 - t ^ 2) q) t).
  { intros t. apply (continuous_comp (fun t => 1 - t ^ 2) (fun x => pw x q)); [smooth; easy|]. apply pw_continuous. lra. }
  assert (EX : ex_RInt (fun t => pw (1 - t ^ 2) q) (- 1) 1) by (apply (@ex_RInt_continuous R_CompleteNormedModule); intros; apply CT). destruct EX as [l Hl]. replace (beta q) with l; [exact Hl|].
  pose proof (@is_RInt_comp R_CompleteNormedModule (fun t => pw (1 - t ^ 2) q) (fun t => sin (t / 2)) (fun t => cos (t / 2) / 2) (- PI) PI) as C.
  assert (C1 : is_RInt (fun y => scal (cos (y / 2) / 2) (pw (1 - sin (y / 2) ^ 2) q)) (- PI) PI (RInt (fun t => pw (1 - t ^ 2) q) (sin (- PI / 2)) (sin (PI / 2)))).
  { apply C; [intros; apply CT|]. intros x _. split; [auto_derive; [easy|unfold one; cbn; lra]|]. smooth. easy. }
  replace (- PI / 2) with (- (PI / 2)) in C1 by field. rewrite sin_neg, sin_PI2 in C1. replace (Ropp 1) with (-1) in C1 by lra. rewrite (area_unique _ _ _ _ Hl) in C1. clear C.
  assert (C2 : area (fun t => pw (cos (t / 2)) (2 * (q + 1 / 2))) (- PI) PI (2 * l)).
  { apply (area_ext_in (fun y => 2 * (cos (y / 2) / 2 * pw (1 - sin (y / 2) ^ 2) q))); [lra| |exact (area_mult _ 2 _ _ _ C1)]. intros x Hx. assert (HC : 0 < cos (x / 2)) by (apply cos_gt_0; lra).
    assert (E : 1 - sin (x / 2) ^ 2 = cos (x / 2) ^ 2) by (pose proof (sin2_cos2 (x / 2)) as S2; unfold Rsqr in S2; nra). rewrite E. rewrite !pw_pos by (try apply pow_lt; easy).
    rewrite <- Rpower_pow by easy. rewrite Rpower_mult. replace (2 * (cos (x / 2) / 2 * Rpower (cos (x / 2)) (INR 2 * q))) with (Rpower (cos (x / 2)) 1 * Rpower (cos (x / 2)) (INR 2 * q)) by (rewrite Rpower_1 by easy; field).
    rewrite <- Rpower_plus. apply (f_equal (Rpower (cos (x / 2)))). cbn [INR]. field. }
  unfold beta, cosint. rewrite (area_unique _ _ _ _ C2). assert (Q : forall y : R, y = 2 * y / 2) by (intros; field). exact (Q l).
Qed.
Lemma beta_gamma g q : log_gamma g -> 0 < q -> beta q * exp (g (q + 3 / 2)) = sqrt PI * exp (g (q + 1)).
Proof.
  intros Hg Hq. pose proof (prod_const g (q + 1 / 2) Hg ltac:(lra)) as P. unfold gquot in P. replace (q + 1 / 2 + 1) with (q + 3 / 2) in P by field. replace (q + 1 / 2 + 1 / 2) with (q + 1) in P by field.
  pose proof (exp_pos (g (q + 1))) as E1. unfold beta. apply (Rmult_eq_reg_r (2 / exp (g (q + 1)))); [|apply Rgt_not_eq, Rdiv_lt_0_compat; lra].
  replace (cosint (q + 1 / 2) / 2 * exp (g (q + 3 / 2)) * (2 / exp (g (q + 1)))) with (cosint (q + 1 / 2) * (exp (g (q + 3 / 2)) / exp (g (q + 1)))) by (field; lra). rewrite P. field. lra.
Qed.
Lemma line_pw q r c : 0 < q -> 0 < r -> line_integral (fun x => pw (c - x ^ 2 / r ^ 2) q) (r * beta q * pw c (q + 1 / 2)).
Proof.
  intros Hq Hr. destruct (Rle_dec c 0) as [Hc|Hc].
  - rewrite pw_neg by lra. rewrite Rmult_0_r. apply (line_ext (fun _ => 0)).
    + intros x. rewrite pw_neg; [easy|lra|]. assert (0 <= x ^ 2 / r ^ 2) by (apply Rmult_le_pos; [nra|left; apply Rinv_0_lt_compat; nra]). lra.
    + apply (line_compact _ 0); [lra|easy|]. pose proof (const_area (- 0) 0 0) as G. rewrite Rmult_0_r in G. exact G.
  - assert (Hc' : 0 < c) by lra. pose proof (sqrt_lt_R0 c Hc') as Hsc. assert (Hss : sqrt c * sqrt c = c) by (apply sqrt_sqrt; lra).
    assert (B : line_integral (fun t => pw (1 - t ^ 2) q) (beta q)).
    { apply (line_compact _ 1); [lra| |now apply beta_area]. intros x Hx. apply pw_neg; [lra|]. assert (1 < Rabs x ^ 2) by nra. rewrite <- Rsqr_pow2, <- Rsqr_abs, Rsqr_pow2 in H. lra. }
    pose proof (line_mult (pw c q) _ _ (line_scale _ (r * sqrt c) _ ltac:(apply Rmult_lt_0_compat; easy) B)) as G.
    replace (r * beta q * pw c (q + 1 / 2)) with (pw c q * (r * sqrt c * beta q)). 2:{ rewrite !pw_pos by easy. rewrite Rpower_plus, <- Rpower_sqrt by easy. replace (/ 2) with (1 / 2) by field. ring. }
    apply (line_ext _ _ _) with (2 := G). intros x. replace (c - x ^ 2 / r ^ 2) with (c * (1 - (x / (r * sqrt c)) ^ 2)).
    2:{ unfold Rdiv. rewrite Rpow_mult_distr, Rinv_mult_distr by lra. rewrite Rpow_mult_distr. replace ((/ sqrt c) ^ 2) with (/ c). { field. lra. } rewrite <- Hss at 1. field. lra. }
    destruct (Rlt_dec 0 (1 - (x / (r * sqrt c)) ^ 2)) as [H|H].
    + rewrite !pw_pos by (try apply Rmult_lt_0_compat; easy). now rewrite Rpower_mult_distr.
    + apply Rnot_lt_le in H. rewrite (pw_neg (1 - (x / (r * sqrt c)) ^ 2) q) by lra. rewrite (pw_neg (c * (1 - (x / (r * sqrt c)) ^ 2)) q); [ring|lra|]. rewrite <- (Rmult_0_r c). apply Rmult_le_compat_l; lra.
Qed.
