From Coq Require Import Reals Lra Lia Psatz.
From Coquelicot Require Import Coquelicot.
From Verif Require Import Base PolyModel TransModel TransSpec TransProofs TransProofs3.
Local Open Scope R_scope.

Definition raw (s : stats) (c3 c4 : R) : list R :=
  if Rle_dec (kurt s) 3 then [- c4; - c3; 1 + 3 * c4; c3] else map (fun c => c / sqrt (1 + 2 * c3 ^ 2 + 6 * c4 ^ 2)) [c4; c3; 1 - 3 * c4; - c3].

Lemma init_unfold : forall eps pardef s, hermite_init eps pardef s =
  let* (c3, c4) := parameters eps pardef s in let p := poly1d (raw s c3 c4) in let* l := check_monotonicity eps s p in
  Ok (Hermite s (if Rle_dec (kurt s) 3 then true else false) p l).
Proof.
  intros eps pardef s. unfold hermite_init, parameters, raw, set_hardening_model, set_softening_model. destruct (Rle_dec (kurt s) 3).
  - destruct (hardening_parameters _ _ _) as [[c3 c4]|]; reflexivity.
  - destruct ((if Z.eqb pardef 2 then winterstein1988 else winterstein1994) eps (skew s) (kurt s - 3)) as [[c3 c4]|]; reflexivity.
Qed.
Lemma km1_pos : forall c3 c4, 1 <= sqrt (1 + 2 * c3 ^ 2 + 6 * c4 ^ 2).
Proof. intros. rewrite <- sqrt_1 at 1. apply sqrt_le_1_alt. nra. Qed.
Lemma params_sign : forall eps pardef s c3 c4, 0 < eps -> parameters eps pardef s = Ok (c3, c4) -> (kurt s <= 3 -> c4 <= 0) /\ (3 < kurt s -> 0 <= c4).
Proof.
  intros eps pardef s c3 c4 He E. unfold parameters in E. destruct (Rle_dec (kurt s) 3).
  - split; [|lra]. intros _. destruct (hardening_c4 eps (skew s) (kurt s - 3) c3 c4 He ltac:(lra) E). auto.
  - split; [lra|]. intros _. eapply softening_c4; [exact He| |exact E]. lra.
Qed.

Lemma drop_val : forall p x, polyval (drop_zeros p) x = polyval p x.
Proof.
  induction p as [|c p IH]; intros x; [reflexivity|]. cbn [drop_zeros]. destruct (nonzero c) eqn:E; [reflexivity|].
  rewrite IH. unfold polyval. cbn [fold_left]. assert (c = 0) by (destruct (Req_EM_T c 0); auto; apply nonzero_iff in n; congruence). subst c. f_equal. ring.
Qed.
Lemma poly1d_val : forall p x, polyval (poly1d p) x = polyval p x.
Proof. intros p x. rewrite <- (drop_val p x). unfold poly1d. destruct (drop_zeros p); [unfold polyval; cbn [fold_left]; ring|reflexivity]. Qed.
Lemma raw_val : forall s c3 c4 x, polyval (raw s c3 c4) x = formula s c3 c4 x.
Proof.
  intros s c3 c4 x. unfold raw, formula, hardening, softening. destruct (Rle_dec (kurt s) 3).
  - rewrite cubic_val. ring.
  - cbn [map]. rewrite cubic_val. pose proof (km1_pos c3 c4). field. lra.
Qed.

(* the three possible outcomes of a successful construction *)
Inductive shape (s : stats) (c3 c4 : R) (h : hermite) : Prop :=
| Cubic : forall A B C D, c4 <> 0 -> h_poly h = [A; B; C; D] -> 0 < A -> B ^ 2 < 3 * A * C -> x_limit h = None -> shape s c3 c4 h
| Quadratic : forall A B C, c4 = 0 -> c3 <> 0 -> h_poly h = [A; B; C] -> A <> 0 -> 0 < B -> x_limit h = Some [if Rle_dec (kurt s) 3 then - B / (2 * A) else sigma s * polyval [A; B; C] (- B / (2 * A)) + mean s] -> shape s c3 c4 h
| Linear : c4 = 0 -> c3 = 0 -> h_poly h = [1; 0] -> x_limit h = None -> shape s c3 c4 h.

Lemma init_ok : forall eps pardef s h, 0 < eps -> hermite_init eps pardef s = Ok h ->
  exists c3 c4, parameters eps pardef s = Ok (c3, c4) /\ h_base h = s /\ h_forward h = (if Rle_dec (kurt s) 3 then true else false) /\
    (forall x, polyval (h_poly h) x = formula s c3 c4 x) /\ shape s c3 c4 h.
Proof.
  intros eps pardef s h He E. rewrite init_unfold in E. destruct (parameters eps pardef s) as [[c3 c4]|] eqn:P; cbn [bind] in E; [|discriminate].
  exists c3, c4. split; auto. destruct (check_monotonicity eps s (poly1d (raw s c3 c4))) as [l|] eqn:M; cbn [bind] in E; [|discriminate]. injection E as <-.
  cbn [h_base h_forward h_poly]. split; auto. split; auto. split; [intros x; rewrite poly1d_val; apply raw_val|].
  destruct (params_sign eps pardef s c3 c4 He P) as [S1 S2]. pose proof (km1_pos c3 c4) as K. set (k := sqrt (1 + 2 * c3 ^ 2 + 6 * c4 ^ 2)) in *.
  assert (Ik : 0 < / k) by (apply Rinv_0_lt_compat; lra).
  destruct (Req_EM_T c4 0) as [Z|Z].
  - subst c4. destruct (Req_EM_T c3 0) as [Z3|Z3].
    + subst c3. assert (Ep : poly1d (raw s 0 0) = [1; 0]).
      { unfold raw. fold k. assert (Ek : k = 1) by (unfold k; replace (1 + 2 * 0 ^ 2 + 6 * 0 ^ 2) with 1 by ring; apply sqrt_1). destruct (Rle_dec (kurt s) 3).
        - replace (- 0) with 0 by ring. rewrite !poly1d_zero. replace (1 + 3 * 0) with 1 by ring. apply poly1d_lead; lra.
        - cbn [map]. rewrite Ek. replace (0 / 1) with 0 by field. rewrite !poly1d_zero. replace ((1 - 3 * 0) / 1) with 1 by field. replace (- 0 / 1) with 0 by field. apply poly1d_lead; lra. }
      apply Linear; auto; cbn [h_poly x_limit]; auto. rewrite Ep, mono_linear in M. congruence.
    + unfold raw in M |- *. fold k in M |- *. destruct (Rle_dec (kurt s) 3) as [L|L].
      * replace (- 0) with 0 in * by ring. rewrite poly1d_zero, poly1d_lead, mono_quadratic in M by lra. injection M as <-.
        apply (Quadratic _ _ _ _ (- c3) (1 + 3 * 0) c3); auto; cbn [h_poly x_limit]; try lra.
        rewrite poly1d_zero, poly1d_lead by lra. reflexivity.
      * cbn [map] in M |- *. replace (0 / k) with 0 in * by (field; lra). assert (c3 / k <> 0) by (apply Rmult_integral_contrapositive; split; lra).
        rewrite poly1d_zero, poly1d_lead, mono_quadratic in M by auto. injection M as <-.
        apply (Quadratic _ _ _ _ (c3 / k) ((1 - 3 * 0) / k) (- c3 / k)); auto; cbn [h_poly x_limit].
        -- rewrite poly1d_zero, poly1d_lead by auto. reflexivity.
        -- apply Rdiv_lt_0_compat; lra.
  - unfold raw in M |- *. fold k in M |- *. destruct (Rle_dec (kurt s) 3) as [L|L].
    + specialize (S1 L). rewrite poly1d_lead in M |- * by lra. destruct (mono_cubic eps s (- c4) (- c3) (1 + 3 * c4) c3 ltac:(lra)) as [[M1 M2]|M1]; rewrite M1 in M; [|discriminate]. injection M as <-.
      apply (Cubic _ _ _ _ (- c4) (- c3) (1 + 3 * c4) c3); [exact Z|reflexivity|lra|exact M2|reflexivity].
    + specialize (S2 ltac:(lra)). cbn [map] in M |- *. assert (0 < c4 / k) by (apply Rdiv_lt_0_compat; lra). rewrite poly1d_lead in M |- * by lra. destruct (mono_cubic eps s (c4 / k) (c3 / k) ((1 - 3 * c4) / k) (- c3 / k) H) as [[M1 M2]|M1]; rewrite M1 in M; [|discriminate]. injection M as <-.
      apply (Cubic _ _ _ _ (c4 / k) (c3 / k) ((1 - 3 * c4) / k) (- c3 / k)); [exact Z|reflexivity|exact H|exact M2|reflexivity].
Qed.

(* a model without a limit: both directions are total, strictly increasing inverse functions of each other *)
Lemma inverse_exists : forall s c3 c4 h, shape s c3 c4 h -> x_limit h = None ->
  strictly_increasing (polyval (h_poly h)) /\ exists g, (forall x, poly_inv (x_limit h) (h_poly h) x = Ok (map (fun v => Some (g v)) x)) /\ (forall x, polyval (h_poly h) (g x) = x).
Proof.
  intros s c3 c4 h [A B C D _ Ep HA HB Hl|A B C _ _ _ _ _ Hl|_ _ Ep Hl] Hn.
  - rewrite Ep, Hl. split; [apply cubic_increasing; auto|].
    exists (fun x => match solve_third_order [A; B; C; D] x with Some y => y | None => 0 end). split.
    + intros x. unfold poly_inv. cbn [List.length]. f_equal. apply map_ext. intros v. destruct (cardano A B C D v ltac:(lra) HB) as (y & -> & _). reflexivity.
    + intros x. destruct (cardano A B C D x ltac:(lra) HB) as (y & E & V). rewrite E. exact V.
  - rewrite Hl in Hn. discriminate.
  - rewrite Ep. split; [intros a b L; rewrite !linear_val; lra|]. exists (fun x => x). split; [intros x; reflexivity|]. intros x. rewrite linear_val. ring.
Qed.
Lemma incr_inj : forall f a b, strictly_increasing f -> f a = f b -> a = b.
Proof. intros f a b I E. destruct (Rtotal_order a b) as [L|[Q|L]]; auto; specialize (I _ _ L); lra. Qed.
Lemma inverse_increasing : forall f g, strictly_increasing f -> (forall x, f (g x) = x) -> strictly_increasing g /\ forall x, g (f x) = x.
Proof.
  intros f g I H. split; [|intros x; apply (incr_inj f); auto]. intros a b L. destruct (Rlt_dec (g a) (g b)) as [|N]; auto. exfalso.
  assert (N' : g b <= g a) by lra. destruct N' as [N'|N']; [apply I in N'; rewrite !H in N'; lra|]. assert (a = b) by (rewrite <- (H a), <- (H b), N'; reflexivity). lra.
Qed.

Lemma affine_incr : forall f a b c d, strictly_increasing f -> 0 < b -> 0 < d -> strictly_increasing (fun x => c + d * f ((x - a) / b)).
Proof. intros f a b c d I Hb Hd u v L. assert (f ((u - a) / b) < f ((v - a) / b)) by (apply I; apply Rmult_lt_compat_r; [apply Rinv_0_lt_compat; auto|lra]). nra. Qed.

Lemma hermite_spec : forall eps pardef s h, 0 < eps -> sigma s <> 0 -> ysigma s <> 0 -> hermite_init eps pardef s = Ok h -> x_limit h = None ->
  exists f g, (forall x, hermite_dat2gauss h x [] = Ok (map (fun v => Some (f v)) x)) /\ (forall y, hermite_gauss2dat h y [] = Ok (map (fun v => Some (g v)) y)) /\
    (forall x, g (f x) = x) /\ (forall y, f (g y) = y) /\ (0 < sigma s -> 0 < ysigma s -> strictly_increasing f /\ strictly_increasing g) /\
    exists c3 c4, parameters eps pardef s = Ok (c3, c4) /\
      (kurt s <= 3 -> forall x, f x = ymean s + ysigma s * hardening c3 c4 ((x - mean s) / sigma s)) /\
      (3 < kurt s -> forall y, g y = mean s + sigma s * softening c3 c4 ((y - ymean s) / ysigma s)).
Proof.
  intros eps pardef s h He Hs Hy E Hl. destruct (init_ok eps pardef s h He E) as (c3 & c4 & P & Hb & Hf & Hv & Sh).
  destruct (inverse_exists s c3 c4 h Sh Hl) as (I & g & G1 & G2). destruct (inverse_increasing _ g I G2) as [Ig G3].
  assert (CF : forall x, check_forward h x = Ok tt) by (intros x; unfold check_forward; rewrite Hl; reflexivity).
  unfold hermite_dat2gauss, hermite_gauss2dat. rewrite Hf, Hb.
  destruct (Rle_dec (kurt s) 3) as [L|L].
  - exists (fun x => ymean s + ysigma s * polyval (h_poly h) ((x - mean s) / sigma s)), (fun y => mean s + sigma s * g ((y - ymean s) / ysigma s)).
    split; [intros x; rewrite CF; cbn [bind direct]; f_equal; rewrite !map_map; apply map_ext; intros v; cbn [on_finite]; f_equal; ring|].
    split; [intros y; rewrite G1; cbn [bind]; f_equal; rewrite !map_map; apply map_ext; intros v; cbn [on_finite]; f_equal; ring|].
    split; [intros x; replace ((ymean s + ysigma s * polyval (h_poly h) ((x - mean s) / sigma s) - ymean s) / ysigma s) with (polyval (h_poly h) ((x - mean s) / sigma s)) by (field; auto); rewrite G3; field; auto|].
    split; [intros y; replace ((mean s + sigma s * g ((y - ymean s) / ysigma s) - mean s) / sigma s) with (g ((y - ymean s) / ysigma s)) by (field; auto); rewrite G2; field; auto|].
    split; [intros H1 H2; split; apply affine_incr; auto|].
    exists c3, c4. split; auto. split; [|lra]. intros _ x. rewrite Hv. unfold formula. destruct (Rle_dec (kurt s) 3); [reflexivity|lra].
  - exists (fun x => ymean s + ysigma s * g ((x - mean s) / sigma s)), (fun y => mean s + sigma s * polyval (h_poly h) ((y - ymean s) / ysigma s)).
    split; [intros x; rewrite CF; cbn [bind]; rewrite G1; cbn [bind]; f_equal; rewrite !map_map; apply map_ext; intros v; cbn [on_finite]; f_equal; ring|].
    split; [intros y; cbn [bind direct]; f_equal; rewrite !map_map; apply map_ext; intros v; cbn [on_finite]; f_equal; ring|].
    split; [intros x; replace ((ymean s + ysigma s * g ((x - mean s) / sigma s) - ymean s) / ysigma s) with (g ((x - mean s) / sigma s)) by (field; auto); rewrite G2; field; auto|].
    split; [intros y; replace ((mean s + sigma s * polyval (h_poly h) ((y - ymean s) / ysigma s) - mean s) / sigma s) with (polyval (h_poly h) ((y - ymean s) / ysigma s)) by (field; auto); rewrite G3; field; auto|].
    split; [intros H1 H2; split; apply affine_incr; auto|].
    exists c3, c4. split; auto. split; [lra|]. intros _ y. rewrite Hv. unfold formula. destruct (Rle_dec (kurt s) 3); [lra|reflexivity].
Qed.

(* mean and variance of the softening model *)
Lemma softening_moments : forall eps pardef s h, 0 < eps -> 3 < kurt s -> hermite_init eps pardef s = Ok h -> expect (rev (h_poly h)) 0 = 0 /\ expect_square (rev (h_poly h)) (rev (h_poly h)) 0 = 1.
Proof.
  intros eps pardef s h He Hk E. rewrite init_unfold in E. destruct (parameters eps pardef s) as [[c3 c4]|] eqn:P; cbn [bind] in E; [|discriminate].
  destruct (check_monotonicity eps s (poly1d (raw s c3 c4))) as [l|] eqn:M; cbn [bind] in E; [|discriminate]. injection E as <-. cbn [h_poly].
  clear l M P. unfold raw. destruct (Rle_dec (kurt s) 3); [lra|]. pose proof (km1_pos c3 c4) as K.
  assert (K2 : sqrt (1 + 2 * c3 ^ 2 + 6 * c4 ^ 2) ^ 2 = 1 + 2 * c3 ^ 2 + 6 * c4 ^ 2) by (rewrite <- Rsqr_pow2; apply Rsqr_sqrt; nra).
  set (k := sqrt (1 + 2 * c3 ^ 2 + 6 * c4 ^ 2)) in *. cbn [map].
  assert (G : forall A B C D, expect (rev (poly1d [A; B; C; D])) 0 = B + D /\ expect_square (rev (poly1d [A; B; C; D])) (rev (poly1d [A; B; C; D])) 0 = 15 * A ^ 2 + 6 * A * C + 3 * B ^ 2 + C ^ 2 + 2 * B * D + D ^ 2).
  { intros A B C D. unfold poly1d. cbn [drop_zeros]. unfold nonzero.
    repeat match goal with |- context [Req_EM_T ?a 0] => destruct (Req_EM_T a 0); [subst a|] end; cbn [rev app expect expect_square normal_moment INR]; split; ring. }
  destruct (G (c4 / k) (c3 / k) ((1 - 3 * c4) / k) (- c3 / k)) as [-> ->]. split; [field; lra|].
  replace (15 * (c4 / k) ^ 2 + 6 * (c4 / k) * ((1 - 3 * c4) / k) + 3 * (c3 / k) ^ 2 + ((1 - 3 * c4) / k) ^ 2 + 2 * (c3 / k) * (- c3 / k) + (- c3 / k) ^ 2) with ((1 + 2 * c3 ^ 2 + 6 * c4 ^ 2) / k ^ 2) by (field; lra).
  rewrite K2. field. nra.
Qed.

(* when the construction succeeds *)
Lemma init_cubic : forall eps pardef s c3 c4, 0 < eps -> parameters eps pardef s = Ok (c3, c4) -> c4 <> 0 ->
  (forall h, hermite_init eps pardef s = Ok h -> x_limit h = None /\ strictly_increasing (formula s c3 c4)) /\
  (~ strictly_increasing (formula s c3 c4) -> hermite_init eps pardef s = Err TypeError) /\
  ((exists h, hermite_init eps pardef s = Ok h) \/ hermite_init eps pardef s = Err TypeError).
Proof.
  intros eps pardef s c3 c4 He P H4.
  assert (O : forall h, hermite_init eps pardef s = Ok h -> x_limit h = None /\ strictly_increasing (formula s c3 c4)).
  { intros h E. destruct (init_ok eps pardef s h He E) as (c3' & c4' & P' & _ & _ & Hv & Sh). rewrite P in P'. injection P' as <- <-.
    destruct Sh as [A B C D _ Ep HA HB Hl|A B C Z|Z]; try contradiction. split; auto. intros a b L. rewrite <- !Hv, Ep. apply cubic_increasing; auto. }
  assert (T : (exists h, hermite_init eps pardef s = Ok h) \/ hermite_init eps pardef s = Err TypeError).
  { rewrite init_unfold, P. cbn [bind]. destruct (params_sign eps pardef s c3 c4 He P) as [S1 S2]. unfold raw. destruct (Rle_dec (kurt s) 3) as [L|L].
    - specialize (S1 L). rewrite poly1d_lead by lra. destruct (mono_cubic eps s (- c4) (- c3) (1 + 3 * c4) c3 ltac:(lra)) as [[-> _]| ->]; cbn [bind]; eauto.
    - specialize (S2 ltac:(lra)). cbn [map]. pose proof (km1_pos c3 c4). assert (0 < c4 / sqrt (1 + 2 * c3 ^ 2 + 6 * c4 ^ 2)) by (apply Rdiv_lt_0_compat; lra).
      rewrite poly1d_lead by lra. destruct (mono_cubic eps s _ (c3 / sqrt (1 + 2 * c3 ^ 2 + 6 * c4 ^ 2)) ((1 - 3 * c4) / sqrt (1 + 2 * c3 ^ 2 + 6 * c4 ^ 2)) (- c3 / sqrt (1 + 2 * c3 ^ 2 + 6 * c4 ^ 2)) H0) as [[-> _]| ->]; cbn [bind]; eauto. }
  split; [exact O|]. split; [|exact T]. intros N. destruct T as [[h E]|T]; auto. exfalso. apply N. apply (O h E).
Qed.

(* the default values are accepted by the hardening model whenever c3^2 < 3 (-c4) (1 + 3 c4) with a margin *)
Lemma hardening_accepted : forall eps pardef s, 0 < eps <= 1 / 10 -> kurt s <= 3 -> let c3 := skew s / 6 in let c4 := (kurt s - 3) / 24 in
  sqrt eps <= - c4 -> (3 * c4 * eps) ^ 2 <= - 3 * c4 * (1 + 3 * c4) - c3 ^ 2 -> exists h, hermite_init eps pardef s = Ok h /\ x_limit h = None.
Proof.
  intros eps pardef s He Hk c3 c4 Hc H. assert (Hs : 0 < sqrt eps) by (apply sqrt_lt_R0; lra).
  assert (P : parameters eps pardef s = Ok (c3, c4)).
  { unfold parameters. destruct (Rle_dec (kurt s) 3); [|lra]. unfold hardening_parameters, check_c3_c4. fold c3 c4. destruct (Rlt_dec (Rabs c4) (sqrt eps)) as [Q|]; [|reflexivity]. rewrite Rabs_left in Q by lra. lra. }
  rewrite init_unfold, P. cbn [bind]. unfold raw. destruct (Rle_dec (kurt s) 3); [|lra]. rewrite poly1d_lead by lra. rewrite mono_cubic_ok; [|lra| |lra].
  - eexists. split; reflexivity.
  - replace ((3 * - c4 * eps) ^ 2) with ((3 * c4 * eps) ^ 2) by ring. lra.
Qed.

(* ---- the quadratic case ---- *)
Lemma parameters_quadratic : forall eps pardef s h, 0 < eps -> hermite_init eps pardef s = Ok h -> x_limit h <> None ->
  exists A B C l, h_poly h = [A; B; C] /\ A <> 0 /\ 0 < B /\ x_limit h = Some [l] /\ (kurt s <= 3 -> l = - B / (2 * A)) /\ (3 < kurt s -> l = sigma s * polyval [A; B; C] (- B / (2 * A)) + mean s).
Proof.
  intros eps pardef s h He E Hl. destruct (init_ok eps pardef s h He E) as (c3 & c4 & _ & _ & _ & _ & Sh). destruct Sh as [A B C D _ _ _ _ N|A B C Z4 Z3 Ep HA HB L|_ _ _ N]; try contradiction.
  exists A, B, C, (if Rle_dec (kurt s) 3 then - B / (2 * A) else sigma s * polyval [A; B; C] (- B / (2 * A)) + mean s). do 4 (split; [auto|]). destruct (Rle_dec (kurt s) 3); split; intros; auto; lra.
Qed.
(* softening: the entries are the solutions on the increasing branch; where there is none the entry is nan *)
Lemma hermite_quadratic : forall eps pardef s h x y, 0 < eps -> 3 < kurt s -> sigma s <> 0 -> ysigma s <> 0 -> hermite_init eps pardef s = Ok h -> x_limit h <> None -> hermite_dat2gauss h x [] = Ok y ->
  length y = length x /\ forall i, (i < length x)%nat -> forall v, nth i y None = Some v <->
    hermite_gauss2dat h [v] [] = Ok [Some (nth i x 0)] /\ (forall A B C, h_poly h = [A; B; C] -> 0 <= 2 * A * ((v - ymean s) / ysigma s) + B).
Proof.
  intros eps pardef s h x y He Hk Hs Hy E Hl D. destruct (init_ok eps pardef s h He E) as (c3 & c4 & P & Hb & Hf & Hv & Sh).
  destruct Sh as [A B C D' _ _ _ _ N|A B C Z4 Z3 Ep HA HB L|_ _ _ N]; try contradiction.
  unfold hermite_dat2gauss in D. rewrite Hf, Hb in D. destruct (Rle_dec (kurt s) 3); [lra|]. destruct (check_forward h x) as [[]|]; cbn [bind] in D; [|discriminate].
  unfold poly_inv in D. rewrite Ep in D. cbn [List.length bind] in D. injection D as <-. rewrite !map_map, map_length. split; auto. intros i Hi v.
  rewrite (nth_indep _ None (on_finite (fun v => v * ysigma s + ymean s) (solve_quadratic [A; B; C] ((0 - mean s) / sigma s)))) by (rewrite map_length; auto).
  rewrite (map_nth (fun x => on_finite (fun v => v * ysigma s + ymean s) (solve_quadratic [A; B; C] ((x - mean s) / sigma s)))).
  unfold hermite_gauss2dat. rewrite Hf, Hb, Ep. cbn [map bind direct on_finite]. destruct (Rle_dec (kurt s) 3); [lra|]. cbn [bind map on_finite].
  set (xi := nth i x 0). split.
  - destruct (solve_quadratic [A; B; C] ((xi - mean s) / sigma s)) as [w|] eqn:Q; cbn [on_finite]; [|discriminate]. intros W. injection W as W. apply quadratic_inverse in Q; auto. destruct Q as [Q1 Q2].
    replace ((v - ymean s) / ysigma s) with w by (rewrite <- W; field; auto). split; [rewrite Q1; do 3 f_equal; field; auto|]. intros A' B' C' EE. injection EE as <- <- <-. exact Q2.
  - intros [Q1 Q2]. injection Q1 as Q1. specialize (Q2 A B C eq_refl). assert (Q : solve_quadratic [A; B; C] ((xi - mean s) / sigma s) = Some ((v - ymean s) / ysigma s)).
    { apply quadratic_inverse; auto. split; auto. rewrite <- Q1. field. auto. }
    rewrite Q. cbn [on_finite]. f_equal. field. auto.
Qed.

(* only the first and the last value are compared with the limit: values beyond it in between pass and are folded back *)
Lemma hermite_folds : forall eps pardef s h x0, 0 < eps -> kurt s = 3 -> skew s <> 0 -> sigma s <> 0 -> hermite_init eps pardef s = Ok h -> x_limit h <> Some [x0] ->
  exists a b, a <> b /\ hermite_dat2gauss h [x0; a; x0] [] = hermite_dat2gauss h [x0; b; x0] [] /\ exists y, hermite_dat2gauss h [x0; a; x0] [] = Ok y.
Proof.
  intros eps pardef s h x0 He Hk Hw Hs E Hx. destruct (init_ok eps pardef s h He E) as (c3 & c4 & P & Hb & Hf & Hv & Sh).
  assert (C4 : c4 = 0 /\ c3 = skew s / 6).
  { unfold parameters in P. destruct (Rle_dec (kurt s) 3); [|lra]. unfold hardening_parameters, check_c3_c4 in P. rewrite Hk in P. replace ((3 - 3) / 24) with 0 in P by field. rewrite Rabs_R0 in P. pose proof (sqrt_lt_R0 eps He). destruct (Rlt_dec 0 (sqrt eps)); [|lra]. injection P as <- <-. auto. }
  destruct C4 as [Z4 C3]. destruct Sh as [A B C D Z|A B C _ Z3 Ep HA HB L|_ Z]; [contradiction| |exfalso; lra].
  destruct (Rle_dec (kurt s) 3) as [Lk|]; [|lra]. set (l := - B / (2 * A)) in *.
  exists (mean s + sigma s * (l - 1)), (mean s + sigma s * (l + 1)). split; [intros Q; nra|].
  assert (CF : forall a, check_forward h [x0; a; x0] = Ok tt).
  { intros a. unfold check_forward. rewrite L. cbn [last existsb]. assert (l <> x0) by (intros Q; apply Hx; rewrite L, Q; reflexivity).
    unfold leb. destruct (Rle_dec x0 l), (Rle_dec l x0); try lra; cbn [andb orb filter xorb List.length Nat.odd Nat.even negb]; cbn; try reflexivity; destruct (Rle_dec l x0); try lra; reflexivity. }
  unfold hermite_dat2gauss. rewrite !CF, Hf, Hb. cbn [bind direct map on_finite].
  replace ((mean s + sigma s * (l - 1) - mean s) / sigma s) with (l - 1) by (field; auto). replace ((mean s + sigma s * (l + 1) - mean s) / sigma s) with (l + 1) by (field; auto).
  split; [|eexists; reflexivity]. rewrite Ep, !quadratic_val. replace (A * (l - 1) ^ 2 + B * (l - 1) + C) with (A * (l + 1) ^ 2 + B * (l + 1) + C); [reflexivity|]. unfold l. field. auto.
Qed.
(* the limit of the hardening model is not scaled: a record in the increasing range is refused *)
Lemma hermite_refuses : forall eps pardef, 0 < eps -> let s := Stats 3 1 1 3 0 1 in exists h, hermite_init eps pardef s = Ok h /\ hermite_dat2gauss h [3; 3.5] [] = Err ValueError /\
  (forall a b, a < b <= 3 -> polyval (h_poly h) a < polyval (h_poly h) b) /\ (3.5 - mean s) / sigma s < 3.
Proof.
  intros eps pardef He s. assert (P : parameters eps pardef s = Ok (1 / 6, 0)).
  { unfold parameters. cbn [kurt skew s]. destruct (Rle_dec 3 3); [|lra]. unfold hardening_parameters, check_c3_c4. replace ((3 - 3) / 24) with 0 by field. rewrite Rabs_R0. pose proof (sqrt_lt_R0 eps He). destruct (Rlt_dec 0 (sqrt eps)); [reflexivity|lra]. }
  rewrite init_unfold, P. cbn [bind]. unfold raw. cbn [kurt s]. destruct (Rle_dec 3 3); [|lra]. replace (- 0) with 0 by ring. rewrite poly1d_zero, poly1d_lead, mono_quadratic by lra. cbn [bind kurt s].
  destruct (Rle_dec 3 3); [|lra]. eexists. split; [reflexivity|]. cbn [h_poly]. split; [|split].
  - unfold hermite_dat2gauss, check_forward. cbn [x_limit last existsb]. unfold leb. replace (- (1 + 3 * 0) / (2 * - (1 / 6))) with 3 by field. destruct (Rle_dec 3 3); [|lra]. destruct (Rle_dec 3 3.5); [|lra]. reflexivity.
  - intros a b L. rewrite !quadratic_val. nra.
  - cbn [mean sigma s]. lra.
Qed.
