From Coq Require Import Reals Lra Lia Psatz.
From Coquelicot Require Import Coquelicot.
From Verif Require Import Base PolyModel TransModel TransSpec TransProofs.
Local Open Scope R_scope.

Lemma mean_equation_fails : forall brentq s p, finds_root brentq (skew s) -> skew s <> 0 -> par_from_stats brentq s = Ok p -> ~ ochi_mean_equation (gam_b p / 3) (sigma2 p) (mean2 p).
Proof.
  intros brentq s p Hf Hs E. destruct (par_cases brentq s (or_introl Hf)) as [C1 C2].
  destruct (Rle_lt_dec (Rabs (skew s)) 2.82842712474619) as [L|L]; [|rewrite C1 in E by auto; discriminate].
  destruct (C2 L) as (p' & Ep & _ & _ & a & Ga & Gb & S1 & S2 & _ & Ap & Ev & _ & Em). rewrite E in Ep. injection Ep as <-.
  rewrite Gb. replace (3 * a / 3) with a by field. intros Q.
  destruct (Em Hs) as (m & Em1 & Em2 & Emin). specialize (Emin _ Q). specialize (Ap Hs). rewrite Em2 in Emin. unfold ochi_variance_equation in Ev. unfold ochi_mean_equation in Em1.
  assert (A0 : a <> 0) by (intros Z; rewrite Z in Ap; lra).
  assert (M0 : m <> 0). { intros Z. rewrite Z in Em1. assert (a * sigma2 p ^ 2 = 0) by lra. apply Rmult_integral in H. destruct H as [H|H]; [contradiction|]. nra. }
  rewrite Rabs_mult in Emin. assert (0 < Rabs m) by (apply Rabs_pos_lt; auto). assert (1 <= Rabs (a / 2)) by nra.
  assert (Ha : 2 <= Rabs a) by (unfold Rdiv in H0; rewrite Rabs_mult, (Rabs_pos_eq (/ 2)) in H0 by lra; lra).
  assert (A2 : Rabs a * Rabs a = a ^ 2) by (rewrite <- Rabs_mult, Rabs_pos_eq; [ring|nra]).
  assert (B : a ^ 2 * sigma2 p ^ 4 <= 1 / 2) by lra.
  assert (sigma2 p ^ 4 >= 1) by (assert (sigma2 p ^ 2 >= 1) by nra; replace (sigma2 p ^ 4) with (sigma2 p ^ 2 * sigma2 p ^ 2) by ring; nra).
  nra.
Qed.

(* ---- the element-wise transformation ---- *)
Definition bend (ga gb x : R) : R := let g := if Rle_dec 0 x then ga else gb in if Req_EM_T g 0 then x else (1 - exp (- g * x)) / g.
Definition good (ga gb : R) : Prop := (ga = 0 /\ gb = 0) \/ 0 < ga * gb.

Lemma map2_map_l : forall (A : Type) (f : A -> R -> A) (g : R -> A) l, map2 f (map g l) l = map (fun v => f (g v) v) l.
Proof. induction l as [|a l IH]; auto. cbn. rewrite IH. reflexivity. Qed.

Lemma forward_map : forall p xn, ochi_forward p xn = map (fun v => Some ((bend (gam_a p) (gam_b p) v - mean2 p) / sigma2 p)) xn.
Proof.
  intros p xn. unfold ochi_forward, ochi_transform, bend.
  destruct (Req_EM_T (gam_a p) 0) as [A|A], (Req_EM_T (gam_b p) 0) as [B|B].
  - rewrite map_map. apply map_ext. intros v. cbn [on_finite]. destruct (Rle_dec 0 v); [destruct (Req_EM_T (gam_a p) 0); [reflexivity|contradiction]|destruct (Req_EM_T (gam_b p) 0); [reflexivity|contradiction]].
  - rewrite map2_map_l, map_map. apply map_ext. intros v. unfold neg. destruct (Rlt_dec v 0) as [L|L], (Rle_dec 0 v) as [M|M]; try lra.
    + destruct (Req_EM_T (gam_b p) 0); [contradiction|]. cbn [expm1 neg_div on_finite]. f_equal. f_equal. f_equal. unfold Rdiv. ring.
    + destruct (Req_EM_T (gam_a p) 0); [|contradiction]. reflexivity.
  - rewrite map2_map_l, map_map. apply map_ext. intros v. unfold nonneg. destruct (Rle_dec 0 v) as [M|M].
    + destruct (Req_EM_T (gam_a p) 0); [contradiction|]. cbn [expm1 neg_div on_finite]. f_equal. f_equal. f_equal. unfold Rdiv. ring.
    + destruct (Req_EM_T (gam_b p) 0); [|contradiction]. reflexivity.
  - rewrite map2_map_l, map2_map_l, map_map. apply map_ext. intros v. unfold neg, nonneg. destruct (Rlt_dec v 0) as [L|L], (Rle_dec 0 v) as [M|M]; try lra.
    + destruct (Req_EM_T (gam_b p) 0); [contradiction|]. cbn [expm1 neg_div on_finite]. f_equal. f_equal. f_equal. unfold Rdiv. ring.
    + destruct (Req_EM_T (gam_a p) 0); [contradiction|]. cbn [expm1 neg_div on_finite]. f_equal. f_equal. f_equal. unfold Rdiv. ring.
Qed.

Definition unbend (ga gb y : R) : option R := let g := if Rle_dec 0 y then ga else gb in if Req_EM_T g 0 then Some y else neg_div (log1p (- g * y)) g.
Lemma backward_map : forall p yn, ochi_backward p yn = map (fun v => unbend (gam_a p) (gam_b p) (sigma2 p * v + mean2 p)) yn.
Proof.
  intros p yn. unfold ochi_backward. rewrite <- (map_map (fun v => sigma2 p * v + mean2 p) (unbend (gam_a p) (gam_b p))). generalize (map (fun v => sigma2 p * v + mean2 p) yn). intros y2.
  unfold ochi_transform, unbend. cbv zeta.
  destruct (Req_EM_T (gam_a p) 0) as [A|A], (Req_EM_T (gam_b p) 0) as [B|B].
  - apply map_ext. intros v. destruct (Rle_dec 0 v); [destruct (Req_EM_T (gam_a p) 0); [reflexivity|contradiction]|destruct (Req_EM_T (gam_b p) 0); [reflexivity|contradiction]].
  - rewrite map2_map_l. apply map_ext. intros v. unfold neg. destruct (Rlt_dec v 0) as [L|L], (Rle_dec 0 v) as [M|M]; try lra.
    + destruct (Req_EM_T (gam_b p) 0); [contradiction|reflexivity].
    + destruct (Req_EM_T (gam_a p) 0); [reflexivity|contradiction].
  - rewrite map2_map_l. apply map_ext. intros v. unfold nonneg. destruct (Rle_dec 0 v) as [M|M].
    + destruct (Req_EM_T (gam_a p) 0); [contradiction|reflexivity].
    + destruct (Req_EM_T (gam_b p) 0); [reflexivity|contradiction].
  - rewrite map2_map_l, map2_map_l. apply map_ext. intros v. unfold neg, nonneg. destruct (Rlt_dec v 0) as [L|L], (Rle_dec 0 v) as [M|M]; try lra.
    + destruct (Req_EM_T (gam_b p) 0); [contradiction|reflexivity].
    + destruct (Req_EM_T (gam_a p) 0); [contradiction|reflexivity].
Qed.

Lemma expbend_incr : forall g a b, g <> 0 -> a < b -> (1 - exp (- g * a)) / g < (1 - exp (- g * b)) / g.
Proof.
  intros g a b G H. destruct (Rlt_dec 0 g) as [P|P].
  - apply Rmult_lt_compat_r; [apply Rinv_0_lt_compat; auto|]. assert (exp (- g * b) < exp (- g * a)) by (apply exp_increasing; nra). lra.
  - assert (N : g < 0) by lra. apply Ropp_lt_cancel. unfold Rdiv. rewrite !Ropp_mult_distr_r, <- !Rinv_opp. apply Rmult_lt_compat_r; [apply Rinv_0_lt_compat; lra|].
    assert (exp (- g * a) < exp (- g * b)) by (apply exp_increasing; nra). lra.
Qed.
Lemma expbend_0 : forall g, (1 - exp (- g * 0)) / g = 0.
Proof. intros g. rewrite Rmult_0_r, exp_0. unfold Rdiv. ring. Qed.
Lemma bend_sign : forall ga gb x, (0 <= x -> 0 <= bend ga gb x) /\ (x < 0 -> bend ga gb x < 0).
Proof.
  intros ga gb x. unfold bend. split; intros H.
  - destruct (Rle_dec 0 x); [|lra]. destruct (Req_EM_T ga 0); auto. destruct H as [H|H]; [|rewrite <- H, expbend_0; lra]. rewrite <- (expbend_0 ga). left. apply expbend_incr; auto.
  - destruct (Rle_dec 0 x); [lra|]. destruct (Req_EM_T gb 0); auto. rewrite <- (expbend_0 gb). apply expbend_incr; auto.
Qed.
Lemma bend_incr : forall ga gb, strictly_increasing (bend ga gb).
Proof.
  intros ga gb a b H. destruct (bend_sign ga gb a) as [A1 A2]. destruct (bend_sign ga gb b) as [B1 B2].
  destruct (Rle_lt_dec 0 a) as [Pa|Na]; [|destruct (Rle_lt_dec 0 b) as [Pb|Nb]; [specialize (A2 Na); specialize (B1 Pb); lra|]]; unfold bend in *.
  - destruct (Rle_dec 0 a); [|lra]. destruct (Rle_dec 0 b); [|lra]. destruct (Req_EM_T ga 0); auto. apply expbend_incr; auto.
  - destruct (Rle_dec 0 a); [lra|]. destruct (Rle_dec 0 b); [lra|]. destruct (Req_EM_T gb 0); auto. apply expbend_incr; auto.
Qed.

Lemma expbend_inv : forall g x y, g <> 0 -> ((1 - exp (- g * x)) / g = y <-> neg_div (log1p (- g * y)) g = Some x).
Proof.
  intros g x y G. unfold log1p. split.
  - intros E. assert (E' : exp (- g * x) = 1 + - g * y) by (rewrite <- E; field; auto). pose proof (exp_pos (- g * x)).
    destruct (Rlt_dec (-1) (- g * y)) as [L|L]; [|lra]. cbn [neg_div]. rewrite <- E', ln_exp. f_equal. field. auto.
  - destruct (Rlt_dec (-1) (- g * y)) as [L|L]; cbn [neg_div]; [|discriminate]. intros E. injection E as E.
    replace (- g * x) with (ln (1 + - g * y)) by (rewrite <- E; field; auto). rewrite exp_ln by lra. field. auto.
Qed.
Lemma unbend_iff : forall ga gb x y, bend ga gb x = y <-> unbend ga gb y = Some x.
Proof.
  intros ga gb x y. split.
  - intros E. destruct (bend_sign ga gb x) as [A1 A2]. unfold unbend. destruct (Rle_dec 0 y) as [P|P].
    + assert (Hx : 0 <= x) by (destruct (Rle_lt_dec 0 x); auto; specialize (A2 r); lra). unfold bend in E. destruct (Rle_dec 0 x); [|lra]. destruct (Req_EM_T ga 0); [congruence|]. apply expbend_inv; auto.
    + assert (Hx : x < 0) by (destruct (Rle_lt_dec 0 x); auto; specialize (A1 r); lra). unfold bend in E. destruct (Rle_dec 0 x); [lra|]. destruct (Req_EM_T gb 0); [congruence|]. apply expbend_inv; auto.
  - unfold unbend. intros E. destruct (Rle_dec 0 y) as [P|P].
    + destruct (Req_EM_T ga 0) as [Z|Z]; [injection E as E; subst y; unfold bend; destruct (Rle_dec 0 x); [|lra]; destruct (Req_EM_T ga 0); [reflexivity|contradiction]|].
      apply expbend_inv in E; auto. unfold bend. destruct (Rle_dec 0 x) as [Px|Px]; [destruct (Req_EM_T ga 0); [contradiction|exact E]|].
      exfalso. assert (x < 0) by lra. pose proof (expbend_incr ga x 0 Z H). rewrite expbend_0 in H0. lra.
    + destruct (Req_EM_T gb 0) as [Z|Z]; [injection E as E; subst y; unfold bend; destruct (Rle_dec 0 x); [lra|]; destruct (Req_EM_T gb 0); [reflexivity|contradiction]|].
      apply expbend_inv in E; auto. unfold bend. destruct (Rle_dec 0 x) as [Px|Px]; [|destruct (Req_EM_T gb 0); [contradiction|exact E]].
      exfalso. destruct Px as [Px|Px]; [pose proof (expbend_incr gb 0 x Z Px); rewrite expbend_0 in H; lra|]. rewrite <- Px, expbend_0 in E. lra.
Qed.

Lemma bend_continuous : forall ga gb x, continuous (bend ga gb) x.
Proof.
  intros ga gb x.
  assert (Cb : forall g, forall x, continuous (fun x => if Req_EM_T g 0 then x else (1 - exp (- g * x)) / g) x).
  { intros g z. destruct (Req_EM_T g 0); [apply continuous_id|]. apply (ex_derive_continuous (fun x : R => (1 - exp (- g * x)) / g)). auto_derive; auto. }
  assert (C0 : forall g, (if Req_EM_T g 0 then 0 else (1 - exp (- g * 0)) / g) = 0) by (intros g; destruct (Req_EM_T g 0); auto; apply expbend_0).
  destruct (Rtotal_order x 0) as [L|[E|G]].
  - apply (continuous_ext_loc _ (fun x : R => if Req_EM_T gb 0 then x else (1 - exp (- gb * x)) / gb)); [|apply Cb].
    exists (mkposreal (- x) ltac:(lra)). intros y Hy. apply Rabs_def2 in Hy. unfold minus, plus, opp in Hy; cbn in Hy. unfold bend. destruct (Rle_dec 0 y); [lra|reflexivity].
  - subst x. intros P HP. assert (B0 : bend ga gb 0 = 0) by (unfold bend; destruct (Rle_dec 0 0); [apply C0|lra]). rewrite B0 in HP.
    pose proof (Cb ga 0 P) as Ca. cbv beta in Ca. rewrite C0 in Ca. specialize (Ca HP). pose proof (Cb gb 0 P) as Cg. cbv beta in Cg. rewrite C0 in Cg. specialize (Cg HP).
    unfold filtermap in *. generalize (filter_and _ _ Ca Cg). apply filter_imp. intros y [Y1 Y2]. unfold bend. destruct (Rle_dec 0 y); auto.
  - apply (continuous_ext_loc _ (fun x : R => if Req_EM_T ga 0 then x else (1 - exp (- ga * x)) / ga)); [|apply Cb].
    exists (mkposreal x ltac:(lra)). intros y Hy. apply Rabs_def2 in Hy. unfold minus, plus, opp in Hy; cbn in Hy. unfold bend. destruct (Rle_dec 0 y); [reflexivity|lra].
Qed.

(* ---- whole calls ---- *)
Definition ochi_map (s : stats) (p : phat) (x : R) : R := (bend (gam_a p) (gam_b p) ((x - mean s) / sigma s) - mean2 p) / sigma2 p * ysigma s + ymean s.

Lemma ochi_dat2gauss_map : forall brentq o p x, get_par brentq o = Ok p -> ochi_dat2gauss brentq o x [] = Ok (map (fun v => Some (ochi_map (base o) p v)) x).
Proof. intros brentq o p x E. unfold ochi_dat2gauss. rewrite E. cbn [bind transformgauss]. rewrite forward_map, !map_map. reflexivity. Qed.
Lemma ochi_gauss2dat_map : forall brentq o p y, get_par brentq o = Ok p ->
  ochi_gauss2dat brentq o y [] = Ok (map (fun v => on_finite (fun w => w * sigma (base o) + mean (base o)) (unbend (gam_a p) (gam_b p) (sigma2 p * ((v - ymean (base o)) / ysigma (base o)) + mean2 p))) y).
Proof. intros brentq o p y E. unfold ochi_gauss2dat. rewrite E. cbn [bind transformgauss]. rewrite backward_map, !map_map. reflexivity. Qed.

Lemma ochi_inverse_element : forall s p x y, sigma s <> 0 -> ysigma s <> 0 -> sigma2 p <> 0 ->
  (on_finite (fun w => w * sigma s + mean s) (unbend (gam_a p) (gam_b p) (sigma2 p * ((y - ymean s) / ysigma s) + mean2 p)) = Some x <-> ochi_map s p x = y).
Proof.
  intros s p x y H1 H2 H3. unfold ochi_map. split.
  - destruct (unbend _ _ _) as [w|] eqn:E; cbn [on_finite]; [|discriminate]. intros Q. injection Q as Q. apply unbend_iff in E.
    replace ((x - mean s) / sigma s) with w by (rewrite <- Q; field; auto). rewrite E. field. auto.
  - intros E. assert (E' : unbend (gam_a p) (gam_b p) (sigma2 p * ((y - ymean s) / ysigma s) + mean2 p) = Some ((x - mean s) / sigma s)).
    { apply unbend_iff. rewrite <- E. field. auto. }
    rewrite E'. cbn [on_finite]. f_equal. field. auto.
Qed.
Lemma ochi_map_incr : forall s p, 0 < sigma s -> 0 < ysigma s -> 0 < sigma2 p -> strictly_increasing (ochi_map s p).
Proof.
  intros s p H1 H2 H3 a b H. unfold ochi_map. assert (0 < / sigma s) by (apply Rinv_0_lt_compat; auto). assert (0 < / sigma2 p) by (apply Rinv_0_lt_compat; auto).
  assert (B : bend (gam_a p) (gam_b p) ((a - mean s) / sigma s) < bend (gam_a p) (gam_b p) ((b - mean s) / sigma s)) by (apply bend_incr; unfold Rdiv; nra).
  set (u := bend (gam_a p) (gam_b p) ((a - mean s) / sigma s)) in *. set (v := bend (gam_a p) (gam_b p) ((b - mean s) / sigma s)) in *.
  apply Rplus_lt_compat_r, Rmult_lt_compat_r; auto. apply Rmult_lt_compat_r; auto. lra.
Qed.
Lemma ochi_map_continuous : forall s p x, continuous (ochi_map s p) x.
Proof.
  intros s p x. unfold ochi_map.
  apply (continuous_plus (fun x => (bend (gam_a p) (gam_b p) ((x - mean s) / sigma s) - mean2 p) / sigma2 p * ysigma s) (fun _ => ymean s)); [|apply continuous_const].
  apply (continuous_mult (fun x => (bend (gam_a p) (gam_b p) ((x - mean s) / sigma s) - mean2 p) / sigma2 p) (fun _ => ysigma s)); [|apply continuous_const].
  apply (continuous_mult (fun x => bend (gam_a p) (gam_b p) ((x - mean s) / sigma s) - mean2 p) (fun _ => / sigma2 p)); [|apply continuous_const].
  apply (continuous_minus (fun x => bend (gam_a p) (gam_b p) ((x - mean s) / sigma s)) (fun _ => mean2 p)); [|apply continuous_const].
  apply (continuous_comp (fun x => (x - mean s) / sigma s) (bend (gam_a p) (gam_b p))); [|apply bend_continuous].
  apply (continuous_mult (fun x => x - mean s) (fun _ => / sigma s)); [|apply continuous_const].
  apply (continuous_minus (fun x => x) (fun _ => mean s)); [apply continuous_id|apply continuous_const].
Qed.

(* an object made by the constructor *)
Lemma init_par : forall brentq s o, ochi_init brentq s = Ok o -> exists p, par_from_stats brentq s = Ok p /\ get_par brentq o = Ok p /\ base o = s.
Proof.
  intros brentq s o E. unfold ochi_init in E. destruct (par_from_stats brentq s) as [p|] eqn:P; cbn [bind] in E; [|discriminate]. injection E as <-.
  exists p. split; auto. split; auto. unfold get_par. cbn [cache base].
  assert (p_sigma p = sigma s /\ p_mean p = mean s) as [-> ->].
  { unfold par_from_stats in P. destruct (Rlt_dec _ _); [discriminate|]. destruct (Req_EM_T (skew s) 0); [injection P as <-; auto|]. destruct (Rlt_dec _ _); [discriminate|]. injection P as <-. auto. }
  destruct (Req_EM_T (sigma s) (sigma s)); [|congruence]. destruct (Req_EM_T (mean s) (mean s)); [reflexivity|congruence].
Qed.

Lemma par_ok : forall brentq s p, finds_root brentq (skew s) \/ skew s = 0 -> par_from_stats brentq s = Ok p ->
  Rabs (skew s) <= 2.82842712474619 /\ exists a, gam_a p = 1.28 * a /\ gam_b p = 3 * a /\ 1 <= sigma2 p /\ (skew s = 0 -> a = 0 /\ sigma2 p = 1 /\ mean2 p = 0) /\ (skew s <> 0 -> 0 < a * skew s) /\
       ochi_variance_equation a (sigma2 p) /\ ochi_skewness_equation a (sigma2 p) (skew s) /\
       (skew s <> 0 -> exists m, ochi_mean_equation a (sigma2 p) m /\ mean2 p = a / 2 * m /\ (forall m', ochi_mean_equation a (sigma2 p) m' -> Rabs m <= Rabs m')).
Proof.
  intros brentq s p Hf E. destruct (par_cases brentq s Hf) as [C1 C2]. destruct (Rle_lt_dec (Rabs (skew s)) 2.82842712474619) as [L|L]; [|rewrite C1 in E by auto; discriminate].
  split; auto. destruct (C2 L) as (p' & E' & _ & _ & a & Ga & Gb & S1 & _ & H1 & H2 & H3 & H4 & H5). rewrite E in E'. injection E' as <-. exists a. do 7 (split; [auto|]). auto.
Qed.

(* the transformation is the documented formula, strictly increasing and continuous, and gauss2dat inverts it exactly where it can *)
Lemma ochi_spec : forall brentq s o, finds_root brentq (skew s) \/ skew s = 0 -> sigma s <> 0 -> ysigma s <> 0 -> ochi_init brentq s = Ok o ->
  exists f a sigma2 mean2, (forall x, ochi_dat2gauss brentq o x [] = Ok (map (fun v => Some (f v)) x)) /\
    (forall x, f x = ymean s + ysigma s * ochi_g a sigma2 mean2 ((x - mean s) / sigma s)) /\
    (0 < sigma s -> 0 < ysigma s -> strictly_increasing f) /\ (forall x, continuous f x) /\
    (exists g, (forall y, ochi_gauss2dat brentq o y [] = Ok (map g y)) /\ forall x y, g y = Some x <-> f x = y) /\
    1 <= sigma2 /\ ochi_variance_equation a sigma2 /\ ochi_skewness_equation a sigma2 (skew s).
Proof.
  intros brentq s o Hf H1 H2 E. destruct (init_par brentq s o E) as (p & P & G & B).
  destruct (par_ok brentq s p Hf P) as (_ & a & Ga & Gb & S1 & _ & _ & V & K & _).
  exists (ochi_map s p), a, (sigma2 p), (mean2 p). split; [intros x; rewrite <- B; apply ochi_dat2gauss_map; auto|].
  split. { intros x. unfold ochi_map, ochi_g, bend. rewrite Ga, Gb. unfold Rdiv. ring. }
  split; [intros; apply ochi_map_incr; auto; lra|]. split; [apply ochi_map_continuous|].
  split. { eexists. split; [intros y; apply ochi_gauss2dat_map; eauto|]. intros x y. rewrite B. apply ochi_inverse_element; auto; lra. }
  auto.
Qed.
Lemma ochi_roundtrip : forall brentq s o x, finds_root brentq (skew s) \/ skew s = 0 -> sigma s <> 0 -> ysigma s <> 0 -> ochi_init brentq s = Ok o ->
  exists y, ochi_dat2gauss brentq o x [] = Ok (map Some y) /\ ochi_gauss2dat brentq o y [] = Ok (map Some x).
Proof.
  intros brentq s o x Hf H1 H2 E. destruct (ochi_spec brentq s o Hf H1 H2 E) as (f & a & s2 & m2 & D & _ & _ & _ & (g & Dg & Ig) & _).
  exists (map f x). split; [rewrite map_map; apply D|]. rewrite Dg, map_map. f_equal. apply map_ext. intros v. apply Ig. reflexivity.
Qed.
Lemma ochi_derivatives : forall brentq o x x1 xi, (exists p, get_par brentq o = Ok p) -> ochi_dat2gauss brentq o x (x1 :: xi) = Err ValueError /\ ochi_gauss2dat brentq o x (x1 :: xi) = Err ValueError.
Proof. intros brentq o x x1 xi [p E]. unfold ochi_dat2gauss, ochi_gauss2dat. rewrite E. auto. Qed.
Lemma ochi_init_iff : forall brentq s, finds_root brentq (skew s) \/ skew s = 0 -> (Rabs (skew s) <= 2.82842712474619 -> exists o, ochi_init brentq s = Ok o) /\ (2.82842712474619 < Rabs (skew s) -> ochi_init brentq s = Err ValueError).
Proof.
  intros brentq s Hf. destruct (par_cases brentq s Hf) as [C1 C2]. unfold ochi_init. split; intros H.
  - destruct (C2 H) as (p & -> & _). eexists. reflexivity.
  - rewrite C1; auto.
Qed.

(* a later change of the skewness is ignored until mean or sigma change *)
Lemma ochi_stale : forall brentq s o k x, ochi_init brentq s = Ok o ->
  let o' := set_stats o (Stats (mean s) (sigma s) k (kurt s) (ymean s) (ysigma s)) in
  skew (base o') = k /\ ochi_dat2gauss brentq o' x [] = ochi_dat2gauss brentq o x [] /\ ochi_gauss2dat brentq o' x [] = ochi_gauss2dat brentq o x [].
Proof.
  intros brentq s o k x E o'. destruct (init_par brentq s o E) as (p & P & G & B). split; [reflexivity|].
  assert (G' : get_par brentq o' = Ok p).
  { unfold get_par, o', set_stats in *. cbn [cache base sigma mean]. unfold ochi_init in E. rewrite P in E. cbn [bind] in E. injection E as <-. cbn [cache base] in *. 
    destruct (Req_EM_T (sigma s) (p_sigma p)) as [Q|Q].
    - destruct (Req_EM_T (mean s) (p_mean p)) as [Q2|Q2]; [reflexivity|].
      exfalso. apply Q2. unfold par_from_stats in P. destruct (Rlt_dec _ _); [discriminate|]. destruct (Req_EM_T (skew s) 0); [injection P as <-; auto|]. destruct (Rlt_dec _ _); [discriminate|]. injection P as <-. auto.
    - exfalso. apply Q. unfold par_from_stats in P. destruct (Rlt_dec _ _); [discriminate|]. destruct (Req_EM_T (skew s) 0); [injection P as <-; auto|]. destruct (Rlt_dec _ _); [discriminate|]. injection P as <-. auto. }
  unfold ochi_dat2gauss, ochi_gauss2dat. rewrite G, G'. unfold o'. cbn [bind base set_stats ymean ysigma mean sigma]. rewrite B. auto.
Qed.
(* whereas a new object with that skewness transforms differently *)
Lemma ochi_skew_matters : forall brentq s o o' k, finds_root brentq (skew s) \/ skew s = 0 -> finds_root brentq k \/ k = 0 -> sigma s <> 0 -> ysigma s <> 0 -> skew s <> k ->
  ochi_init brentq s = Ok o -> ochi_init brentq (Stats (mean s) (sigma s) k (kurt s) (ymean s) (ysigma s)) = Ok o' ->
  exists x, ochi_dat2gauss brentq o' x [] <> ochi_dat2gauss brentq o x [].
Proof.
  intros brentq s o o' k Hf Hf' H1 H2 Hk E E'. set (s' := Stats (mean s) (sigma s) k (kurt s) (ymean s) (ysigma s)) in *.
  destruct (init_par _ _ _ E) as (p & P & G & B). destruct (init_par _ _ _ E') as (p' & P' & G' & B').
  destruct (par_ok brentq s p Hf P) as (_ & a & Ga & Gb & S1 & Z & N & V & K & M). destruct (par_ok brentq s' p' Hf' P') as (_ & a' & Ga' & Gb' & S1' & Z' & N' & V' & K' & M').
  (* suppose the functions agree everywhere; compare x -> infinity through three points *)
  destruct (Req_EM_T a a') as [Ea|Ea].
  { exfalso. subst a'. cbn [skew s'] in K'. unfold ochi_variance_equation, ochi_skewness_equation in *. 
    (* same a: sigma2 differs or skew agrees *)
    destruct (Req_EM_T (sigma2 p) (sigma2 p')) as [Es|Es]; [rewrite Es in K; apply Hk; rewrite <- K, <- K'; reflexivity|].
    (* u - 2 a^2 u^2 = 1 for u = sigma2^2, both in [1,2] *)
    assert (B1 : sigma2 p ^ 2 <= 2 /\ sigma2 p' ^ 2 <= 2).
    { destruct (par_cases brentq s Hf) as [_ C]. destruct (par_cases brentq s' Hf') as [_ C']. destruct (par_ok brentq s p Hf P) as [L _]. destruct (par_ok brentq s' p' Hf' P') as [L' _].
      destruct (C L) as (q & Q & _ & _ & _ & _ & _ & _ & Q2 & _). destruct (C' L') as (q' & Q' & _ & _ & _ & _ & _ & _ & Q2' & _). rewrite P in Q. injection Q as <-. rewrite P' in Q'. injection Q' as <-. auto. }
    assert (sigma2 p ^ 2 = sigma2 p' ^ 2 -> False) as D by (intros; apply Es; nra).
    set (u := sigma2 p ^ 2) in *. set (v := sigma2 p' ^ 2) in *.
    assert (Eu : u - 2 * a ^ 2 * u ^ 2 = 1) by (transitivity (sigma2 p ^ 2 - 2 * a ^ 2 * sigma2 p ^ 4); [unfold u; ring|exact V]). assert (Ev : v - 2 * a ^ 2 * v ^ 2 = 1) by (transitivity (sigma2 p' ^ 2 - 2 * a ^ 2 * sigma2 p' ^ 4); [unfold v; ring|exact V']).
    assert (F : (u - v) * (1 - 2 * a ^ 2 * (u + v)) = 0) by (replace ((u - v) * (1 - 2 * a ^ 2 * (u + v))) with ((u - 2 * a ^ 2 * u ^ 2) - (v - 2 * a ^ 2 * v ^ 2)) by ring; lra).
    apply Rmult_integral in F. destruct F as [F|F]; [apply D; lra|].
    assert (Wa : 2 * a ^ 2 * u ^ 2 = u - 1) by lra. assert (Wb : 2 * a ^ 2 * v ^ 2 = v - 1) by lra.
    assert (U1 : 1 <= u) by (unfold u; nra). assert (V1 : 1 <= v) by (unfold v; nra).
    (* 2a^2 = 1/(u+v), so u^2 = (u-1)(u+v), i.e. u + v = u v; with both in [1,2] this forces u = v = 2 *)
    assert (X : u ^ 2 = (u - 1) * (u + v)). { replace (u ^ 2) with ((2 * a ^ 2 * (u + v)) * u ^ 2) by (replace (2 * a ^ 2 * (u + v)) with 1 by lra; ring). replace (2 * a ^ 2 * (u + v) * u ^ 2) with ((2 * a ^ 2 * u ^ 2) * (u + v)) by ring. rewrite Wa. ring. }
    assert (Y : u + v = u * v) by lra. apply D. destruct B1. nra. }
  (* different a: the second difference quotient of the formula on x >= mean differs *)
  set (f := ochi_map s p). set (f' := ochi_map s' p').
  set (X t := mean s + sigma s * t).
  assert (Ff : forall t, 0 <= t -> f (X t) = ymean s + ysigma s * (((if Req_EM_T (1.28 * a) 0 then t else (1 - exp (- (1.28 * a) * t)) / (1.28 * a)) - mean2 p) / sigma2 p)).
  { intros t Ht. unfold f, ochi_map, bend, X. replace ((mean s + sigma s * t - mean s) / sigma s) with t by (field; auto). destruct (Rle_dec 0 t); [|lra]. rewrite Ga. match goal with |- context [if ?c then ?u else ?w] => generalize (if c then u else w); intros z end. field. lra. }
  assert (Ff' : forall t, 0 <= t -> f' (X t) = ymean s + ysigma s * (((if Req_EM_T (1.28 * a') 0 then t else (1 - exp (- (1.28 * a') * t)) / (1.28 * a')) - mean2 p') / sigma2 p')).
  { intros t Ht. unfold f', ochi_map, bend, X. cbn [mean sigma ysigma ymean s']. replace ((mean s + sigma s * t - mean s) / sigma s) with t by (field; auto). destruct (Rle_dec 0 t); [|lra]. rewrite Ga'. match goal with |- context [if ?c then ?u else ?w] => generalize (if c then u else w); intros z end. field. lra. }
  exists [X 0; X 1; X 2]. rewrite (ochi_dat2gauss_map brentq o p), (ochi_dat2gauss_map brentq o' p') by auto. rewrite B, B'. fold f f'. cbn [map]. intros Q. injection Q as Q0 Q1 Q2.
  rewrite Ff, Ff' in Q0 by lra. rewrite Ff, Ff' in Q1 by lra. rewrite Ff, Ff' in Q2 by lra.
  (* ratio (f2 - f1)/(f1 - f0) = exp(-1.28 a) *)
  set (e b t := if Req_EM_T (1.28 * b) 0 then t else (1 - exp (- (1.28 * b) * t)) / (1.28 * b)) in *.
  change ((if Req_EM_T (1.28 * a) 0 then 0 else (1 - exp (- (1.28 * a) * 0)) / (1.28 * a))) with (e a 0) in Q0.
  change ((if Req_EM_T (1.28 * a') 0 then 0 else (1 - exp (- (1.28 * a') * 0)) / (1.28 * a'))) with (e a' 0) in Q0.
  change ((if Req_EM_T (1.28 * a) 0 then 1 else (1 - exp (- (1.28 * a) * 1)) / (1.28 * a))) with (e a 1) in Q1.
  change ((if Req_EM_T (1.28 * a') 0 then 1 else (1 - exp (- (1.28 * a') * 1)) / (1.28 * a'))) with (e a' 1) in Q1.
  change ((if Req_EM_T (1.28 * a) 0 then 2 else (1 - exp (- (1.28 * a) * 2)) / (1.28 * a))) with (e a 2) in Q2.
  change ((if Req_EM_T (1.28 * a') 0 then 2 else (1 - exp (- (1.28 * a') * 2)) / (1.28 * a'))) with (e a' 2) in Q2.
  assert (L : forall b, e b 2 - e b 1 = exp (- (1.28 * b)) * (e b 1 - e b 0) /\ e b 1 - e b 0 <> 0).
  { intros b. unfold e. destruct (Req_EM_T (1.28 * b) 0) as [W|W]; [rewrite W, Ropp_0, exp_0; split; lra|].
    replace (- (1.28 * b) * 2) with (- (1.28 * b) + - (1.28 * b)) by ring. rewrite exp_plus. rewrite expbend_0, Rmult_1_r. split; [field; lra|].
    pose proof (expbend_incr (1.28 * b) 0 1 W ltac:(lra)) as I. rewrite expbend_0 in I. rewrite Rmult_1_r in I. lra. }
  destruct (L a) as [L1 L2]. destruct (L a') as [L1' L2'].
  assert (D1 : (e a 1 - e a 0) / sigma2 p = (e a' 1 - e a' 0) / sigma2 p').
  { apply (Rmult_eq_reg_l (ysigma s)); auto. unfold Rdiv in *. lra. }
  assert (D2 : (e a 2 - e a 1) / sigma2 p = (e a' 2 - e a' 1) / sigma2 p').
  { apply (Rmult_eq_reg_l (ysigma s)); auto. unfold Rdiv in *. lra. }
  rewrite L1, L1' in D2. unfold Rdiv in D1, D2. rewrite !Rmult_assoc in D2. rewrite D1 in D2. apply Rmult_eq_reg_r in D2.
  - apply exp_inv in D2. apply Ea. lra.
  - apply Rmult_integral_contrapositive. split; auto. apply Rinv_neq_0_compat. lra.
Qed.
Lemma ochi_stale_differs : forall brentq s o o' k, finds_root brentq (skew s) \/ skew s = 0 -> finds_root brentq k \/ k = 0 -> sigma s <> 0 -> ysigma s <> 0 -> skew s <> k ->
  ochi_init brentq s = Ok o -> ochi_init brentq (Stats (mean s) (sigma s) k (kurt s) (ymean s) (ysigma s)) = Ok o' ->
  exists x, ochi_dat2gauss brentq o' x [] <> ochi_dat2gauss brentq (set_stats o (Stats (mean s) (sigma s) k (kurt s) (ymean s) (ysigma s))) x [].
Proof.
  intros b s o o' k H1 H2 H3 H4 H5 H6 H7. destruct (ochi_skew_matters b s o o' k H1 H2 H3 H4 H5 H6 H7) as [x Hx]. exists x.
  destruct (ochi_stale b s o k x H6) as (_ & E & _). rewrite E. exact Hx.
Qed.
