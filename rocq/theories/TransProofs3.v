From Coq Require Import Reals Lra Lia Psatz.
From Coquelicot Require Import Coquelicot.
From Verif Require Import Base PolyModel TransModel TransSpec TransProofs.
Local Open Scope R_scope.

Lemma Rpower_third : forall x, 0 < x -> Rpower x (1 / 3) ^ 3 = x.
Proof.
  intros x H. assert (0 < Rpower x (1 / 3)) by (unfold Rpower; apply exp_pos). rewrite <- (Rpower_pow 3) by auto. rewrite Rpower_mult.
  replace (1 / 3 * INR 3) with 1 by (cbn; field). apply Rpower_1. auto.
Qed.
Lemma cube_inj : forall a b, 0 < a -> 0 < b -> a ^ 3 = b ^ 3 -> a = b.
Proof. intros a b Ha Hb H. destruct (Rtotal_order a b) as [L|[E|L]]; auto; exfalso; assert (a ^ 2 + a * b + b ^ 2 > 0) by nra; assert ((a - b) * (a ^ 2 + a * b + b ^ 2) = 0) by (replace ((a - b) * (a ^ 2 + a * b + b ^ 2)) with (a ^ 3 - b ^ 3) by ring; lra); apply Rmult_integral in H1; lra. Qed.

Lemma cubic_val : forall A B C D x, polyval [A; B; C; D] x = A * x ^ 3 + B * x ^ 2 + C * x + D.
Proof. intros. unfold polyval. cbn [fold_left]. ring. Qed.
Lemma quadratic_val : forall A B C x, polyval [A; B; C] x = A * x ^ 2 + B * x + C.
Proof. intros. unfold polyval. cbn [fold_left]. ring. Qed.
Lemma linear_val : forall A B x, polyval [A; B] x = A * x + B.
Proof. intros. unfold polyval. cbn [fold_left]. ring. Qed.

(* Cardano's formula *)
Lemma cardano : forall A B C D x, A <> 0 -> B ^ 2 < 3 * A * C -> exists y, solve_third_order [A; B; C; D] x = Some y /\ polyval [A; B; C; D] y = x.
Proof.
  intros A B C D x HA H. unfold solve_third_order. cbn [nth].
  set (a := B / A). set (b := C / A). set (c := D / A - x / A). set (x0 := a / 3). set (p1 := b / 3 - x0 ^ 2). set (q0 := x0 * (x0 ^ 2 - b / 2) + c / 2).
  assert (P : 0 < p1). { unfold p1, x0, a, b. replace (C / A / 3 - (B / A / 3) ^ 2) with ((3 * A * C - B ^ 2) / (9 * A ^ 2)) by (field; auto). apply Rdiv_lt_0_compat; [lra|]. assert (0 < A ^ 2) by (apply pow2_gt_0; auto). lra. }
  assert (P3 : 0 < p1 ^ 3) by (apply pow_lt; auto).
  unfold sqrt_. destruct (Rlt_dec (q0 ^ 2 + p1 ^ 3) 0) as [L|_]; [exfalso; pose proof (pow2_ge_0 q0); lra|].
  set (q1 := sqrt (q0 ^ 2 + p1 ^ 3)).
  assert (Q : q1 * q1 = q0 ^ 2 + p1 ^ 3) by (apply sqrt_sqrt; pose proof (pow2_ge_0 q0); lra). assert (Q0 : 0 <= q1) by apply sqrt_pos.
  assert (Qm : 0 < q1 - q0) by nra. assert (Qp : 0 < q1 + q0) by nra.
  unfold power. destruct (Req_EM_T (1 / 3) 0) as [Z|_]; [lra|]. destruct (Rlt_dec 0 (q1 - q0)); [|lra]. destruct (Rlt_dec 0 (q1 + q0)); [|lra].
  set (U := Rpower (q1 - q0) (1 / 3)). set (V := Rpower (q1 + q0) (1 / 3)).
  assert (U3 : U ^ 3 = q1 - q0) by (apply Rpower_third; auto). assert (V3 : V ^ 3 = q1 + q0) by (apply Rpower_third; auto).
  assert (U0 : 0 < U) by (unfold U, Rpower; apply exp_pos). assert (V0 : 0 < V) by (unfold V, Rpower; apply exp_pos).
  assert (UV : U * V = p1). { apply cube_inj; auto; [nra|]. replace ((U * V) ^ 3) with (U ^ 3 * V ^ 3) by ring. rewrite U3, V3. lra. }
  eexists. split; [reflexivity|]. rewrite cubic_val.
  assert (E : (U - V) ^ 3 + 3 * p1 * (U - V) + 2 * q0 = 0). { rewrite <- UV. replace ((U - V) ^ 3 + 3 * (U * V) * (U - V) + 2 * q0) with (U ^ 3 - V ^ 3 + 2 * q0) by ring. rewrite U3, V3. ring. }
  set (z := U - V) in *. 
  replace (A * (z - x0) ^ 3 + B * (z - x0) ^ 2 + C * (z - x0) + D) with (A * ((z - x0) ^ 3 + a * (z - x0) ^ 2 + b * (z - x0) + c) + x) by (unfold a, b, c; field; auto).
  replace ((z - x0) ^ 3 + a * (z - x0) ^ 2 + b * (z - x0) + c) with (z ^ 3 + 3 * p1 * z + 2 * q0) by (unfold p1, q0; replace a with (3 * x0) by (unfold x0; field); field).
  rewrite E. ring.
Qed.

Lemma cubic_increasing : forall A B C D, 0 < A -> B ^ 2 < 3 * A * C -> strictly_increasing (polyval [A; B; C; D]).
Proof.
  intros A B C D HA H u v L. rewrite !cubic_val. assert (0 < (v - u) * (3 * A) * (A * (u ^ 2 + u * v + v ^ 2) + B * (u + v) + C)).
  { apply Rmult_lt_0_compat; [apply Rmult_lt_0_compat; lra|].
    assert (0 < 4 * A * (A * (u ^ 2 + u * v + v ^ 2) + B * (u + v) + C)); [|nra].
    (* 4A(...) = 3 (A(u+v) + 2B/3)^2 + A^2 (u-v)^2 + 4AC - 4B^2/3 *)
    replace (4 * A * (A * (u ^ 2 + u * v + v ^ 2) + B * (u + v) + C)) with (3 * (A * (u + v) + 2 * B / 3) ^ 2 + (A * (u - v)) ^ 2 + 4 / 3 * (3 * A * C - B ^ 2)) by field.
    pose proof (pow2_ge_0 (A * (u + v) + 2 * B / 3)). pose proof (pow2_ge_0 (A * (u - v))). lra. }
  assert (Z : 0 < 3 * A * (A * v ^ 3 + B * v ^ 2 + C * v + D - (A * u ^ 3 + B * u ^ 2 + C * u + D))) by (replace (3 * A * (A * v ^ 3 + B * v ^ 2 + C * v + D - (A * u ^ 3 + B * u ^ 2 + C * u + D))) with ((v - u) * (3 * A) * (A * (u ^ 2 + u * v + v ^ 2) + B * (u + v) + C)) by ring; exact H0).
  nra.
Qed.
(* conversely a cubic that is strictly increasing has B^2 <= 3 A C *)
Lemma cubic_not_increasing : forall A B C D, 0 < A -> 3 * A * C < B ^ 2 -> ~ strictly_increasing (polyval [A; B; C; D]).
Proof.
  intros A B C D HA H I. set (r := sqrt (B ^ 2 - 3 * A * C)). assert (R2 : r * r = B ^ 2 - 3 * A * C) by (apply sqrt_sqrt; lra). assert (R0 : 0 < r) by (apply sqrt_lt_R0; lra).
  specialize (I ((- B - r) / (3 * A)) ((- B + r) / (3 * A))). rewrite !cubic_val in I.
  assert (L : (- B - r) / (3 * A) < (- B + r) / (3 * A)) by (apply Rmult_lt_compat_r; [apply Rinv_0_lt_compat; lra|lra]). specialize (I L).
  set (u := (- B - r) / (3 * A)) in *. set (v := (- B + r) / (3 * A)) in *.
  assert (S1 : 3 * A * (u + v) = - 2 * B) by (unfold u, v; field; lra). assert (P1 : 9 * A ^ 2 * (u * v) = B ^ 2 - r * r) by (unfold u, v; field; lra).
  assert (U : 3 * A * u = - B - r) by (unfold u; field; lra). assert (V : 3 * A * v = - B + r) by (unfold v; field; lra).
  assert (Z : 9 * A * (A * (u ^ 2 + u * v + v ^ 2) + B * (u + v) + C) = - 2 * (r * r)).
  { replace (9 * A * (A * (u ^ 2 + u * v + v ^ 2) + B * (u + v) + C)) with ((3 * A * u) ^ 2 + (3 * A * u) * (3 * A * v) + (3 * A * v) ^ 2 + 3 * B * (3 * A * u + 3 * A * v) + 9 * A * C) by ring. rewrite U, V. replace (9 * A * C) with (3 * (B ^ 2 - r * r)) by (rewrite R2; ring). ring. }
  assert (W : A * v ^ 3 + B * v ^ 2 + C * v + D - (A * u ^ 3 + B * u ^ 2 + C * u + D) = (v - u) * (A * (u ^ 2 + u * v + v ^ 2) + B * (u + v) + C)) by ring.
  assert (A * (u ^ 2 + u * v + v ^ 2) + B * (u + v) + C < 0) by nra. nra.
Qed.

Lemma quadratic_inverse : forall A B C x y, A <> 0 -> 0 < B -> solve_quadratic [A; B; C] x = Some y <-> polyval [A; B; C] y = x /\ 0 <= 2 * A * y + B.
Proof.
  intros A B C x y HA HB. rewrite quadratic_val. unfold solve_quadratic. cbn [nth]. unfold sign. destruct (Rlt_dec B 0); [lra|]. destruct (Rlt_dec 0 B); [|lra].
  unfold sqrt_. set (d := B ^ 2 - 4 * A * (C - x)). destruct (Rlt_dec d 0) as [N|P].
  - split; [discriminate|]. intros [E S1]. exfalso. assert (d = (2 * A * y + B) ^ 2) by (unfold d; rewrite <- E; ring). pose proof (pow2_ge_0 (2 * A * y + B)). lra.
  - assert (D2 : sqrt d * sqrt d = d) by (apply sqrt_sqrt; lra). pose proof (sqrt_pos d) as D0. set (q := sqrt d) in *.
    replace 0.5 with (/ 2) by lra. destruct (Req_EM_T (/ 2 * (B + 1 * q)) 0) as [Z|Z]; [exfalso; lra|].
    split.
    + intros E. injection E as E. assert (F : y * (B + q) = - 2 * (C - x)) by (rewrite <- E; field; lra).
      assert (G : 2 * A * y + B = q). { apply (Rmult_eq_reg_r (B + q)); [|lra]. replace ((2 * A * y + B) * (B + q)) with (2 * A * (y * (B + q)) + B * (B + q)) by ring. rewrite F. replace (q * (B + q)) with (q * B + d) by (rewrite <- D2; ring). unfold d. ring. }
      split; [|lra]. apply (Rmult_eq_reg_l (4 * A)); [|lra]. replace (4 * A * (A * y ^ 2 + B * y + C)) with ((2 * A * y + B) ^ 2 - B ^ 2 + 4 * A * C) by ring. rewrite G. replace (q ^ 2) with d by (rewrite <- D2; ring). unfold d. ring.
    + intros [E S1]. f_equal. assert (G : q = 2 * A * y + B). { apply Rsqr_inj; auto. unfold Rsqr. rewrite D2. unfold d. rewrite <- E. ring. }
      rewrite G, <- E. field. rewrite G in Z. lra.
Qed.

(* ---- the parameters ---- *)
Lemma check_ok : forall eps c3 c4 a b, 0 < eps -> check_c3_c4 eps (Some c3) c4 = Ok (a, b) -> a = c3 /\ exists d, c4 = Some d /\ (b = d \/ b = 0) /\ (b = 0 -> Rabs d < sqrt eps) /\ (sqrt eps <= Rabs d -> b = d).
Proof.
  intros eps c3 [d|] a b He E; cbn in E; [|discriminate]. injection E as <- E. split; auto. exists d. split; auto.
  pose proof (sqrt_lt_R0 eps He). destruct (Rlt_dec (Rabs d) (sqrt eps)); subst b; split; auto; split; intros; try lra. subst d. rewrite Rabs_R0. auto.
Qed.
Lemma power_nonneg : forall b e v, power b e = Some v -> 0 <= v.
Proof. intros b e v. unfold power. destruct (Req_EM_T e 0); [intros E; injection E as <-; lra|]. destruct (Rlt_dec 0 b); [intros E; injection E as <-; left; unfold Rpower; apply exp_pos|]. destruct (Req_EM_T b 0); [|discriminate]. destruct (Rlt_dec 0 e); [|discriminate]. intros E. injection E as <-. lra. Qed.
Lemma Rpower_gt_1 : forall x e, 1 < x -> 0 < e -> 1 < Rpower x e.
Proof. intros x e Hx He. unfold Rpower. rewrite <- exp_0. apply exp_increasing. apply Rmult_lt_0_compat; auto. rewrite <- ln_1. apply ln_increasing; lra. Qed.

Lemma softening_c4 : forall eps pardef sk ek c3 c4, 0 < eps -> 0 < ek -> (if Z.eqb pardef 2 then winterstein1988 else winterstein1994) eps sk ek = Ok (c3, c4) -> 0 <= c4.
Proof.
  intros eps pardef sk ek c3 c4 He Hk E. destruct (Z.eqb pardef 2).
  - unfold winterstein1988 in E. unfold sqrt_ in E. destruct (Rlt_dec (1 + 1.5 * ek) 0); [lra|].
    apply check_ok in E; auto. destruct E as (_ & d & Ed & Hc & _). injection Ed as <-. assert (1 < sqrt (1 + 1.5 * ek)) by (rewrite <- sqrt_1 at 1; apply sqrt_lt_1_alt; lra). destruct Hc; lra.
  - unfold winterstein1994 in E. apply check_ok in E; auto. destruct E as (_ & d & Ed & Hc & _). destruct (Req_EM_T ek 0); [lra|].
    destruct (power (ek + 3) 0.8) as [k|]; cbn [obind] in Ed; [|discriminate].
    destruct (power (1 - 1.43 * sk ^ 2 / ek) (1 - 0.1 * k)) as [c|] eqn:Ec; cbn [obind] in Ed; [|discriminate].
    destruct (power (1 + 1.25 * ek) (1 / 3)) as [r|] eqn:Er; cbn [obind] in Ed; [|discriminate]. injection Ed as <-.
    apply power_nonneg in Ec. unfold power in Er. destruct (Req_EM_T (1 / 3) 0); [lra|]. destruct (Rlt_dec 0 (1 + 1.25 * ek)); [|lra]. injection Er as <-.
    pose proof (Rpower_gt_1 (1 + 1.25 * ek) (1 / 3) ltac:(lra) ltac:(lra)). assert (0 <= 0.1 * (Rpower (1 + 1.25 * ek) (1 / 3) - 1) * c) by (apply Rmult_le_pos; lra). destruct Hc; lra.
Qed.
Lemma hardening_c4 : forall eps sk ek c3 c4, 0 < eps -> ek <= 0 -> hardening_parameters eps sk ek = Ok (c3, c4) -> c4 <= 0 /\ c3 = sk / 6 /\ (sqrt eps <= Rabs (ek / 24) -> c4 = ek / 24).
Proof. intros eps sk ek c3 c4 He Hk E. unfold hardening_parameters in E. apply check_ok in E; auto. destruct E as (-> & d & Ed & Hc & _ & Hd). injection Ed as <-. split; [destruct Hc; lra|]. auto. Qed.

(* ---- monotonicity check ---- *)
Lemma nonzero_iff : forall c, nonzero c = true <-> c <> 0.
Proof. intros c. unfold nonzero. destruct (Req_EM_T c 0); split; auto; try discriminate; intros; contradiction. Qed.
Lemma poly1d_lead : forall c p, c <> 0 -> poly1d (c :: p) = c :: p.
Proof. intros c p H. unfold poly1d. cbn [drop_zeros]. replace (nonzero c) with true by (symmetry; apply nonzero_iff; auto). reflexivity. Qed.
Lemma poly1d_zero : forall p, poly1d (0 :: p) = poly1d p.
Proof. intros p. unfold poly1d. cbn [drop_zeros]. unfold nonzero. destruct (Req_EM_T 0 0); [reflexivity|lra]. Qed.

Lemma der_cubic : forall A B C D, polyder1 [A; B; C; D] = [3 * A; 2 * B; 1 * C].
Proof. intros. unfold polyder1. cbn [List.length Nat.sub countdown removelast map2]. cbn [INR]. repeat f_equal; ring. Qed.
Lemma der_quadratic : forall A B C, polyder1 [A; B; C] = [2 * A; 1 * B].
Proof. intros. unfold polyder1. cbn [List.length Nat.sub countdown removelast map2]. cbn [INR]. repeat f_equal; ring. Qed.

Lemma mono_cubic : forall eps s A B C D, 0 < A ->
  (check_monotonicity eps s [A; B; C; D] = Ok None /\ B ^ 2 < 3 * A * C) \/ check_monotonicity eps s [A; B; C; D] = Err TypeError.
Proof.
  intros eps s A B C D HA. unfold check_monotonicity. rewrite der_cubic, poly1d_lead by lra. cbn [real_roots].
  destruct (Rle_dec 0 ((2 * B) ^ 2 - 4 * (3 * A) * (1 * C))) as [P|N].
  - right. unfold set_x_limit. destruct (Rle_dec (kurt s) 3); reflexivity.
  - destruct (Rlt_dec _ eps); [right; unfold set_x_limit; destruct (Rle_dec (kurt s) 3); reflexivity|]. left. split; [reflexivity|]. nra.
Qed.
(* a strictly increasing cubic whose critical points are at least eps away from the real line passes *)
Lemma mono_cubic_ok : forall eps s A B C D, 0 < A -> (3 * A * eps) ^ 2 <= 3 * A * C - B ^ 2 -> 0 < eps -> check_monotonicity eps s [A; B; C; D] = Ok None.
Proof.
  intros eps s A B C D HA H He. unfold check_monotonicity. rewrite der_cubic, poly1d_lead by lra. cbn [real_roots].
  assert (0 < (3 * A * eps) ^ 2) by (apply pow_lt; nra).
  destruct (Rle_dec 0 ((2 * B) ^ 2 - 4 * (3 * A) * (1 * C))) as [P|N]; [exfalso; nra|].
  destruct (Rlt_dec _ eps) as [L|]; [exfalso|reflexivity]. rewrite Rabs_pos_eq in L by lra.
  assert (E : 2 * (3 * A) * eps <= sqrt (- ((2 * B) ^ 2 - 4 * (3 * A) * (1 * C)))). { apply Rsqr_incr_0_var; [|apply sqrt_pos]. rewrite Rsqr_sqrt by lra. unfold Rsqr. nra. }
  assert (sqrt (- ((2 * B) ^ 2 - 4 * (3 * A) * (1 * C))) < eps * (2 * (3 * A))). { apply (Rmult_lt_reg_r (/ (2 * (3 * A)))); [apply Rinv_0_lt_compat; lra|]. replace (eps * (2 * (3 * A)) * / (2 * (3 * A))) with eps by (field; lra). exact L. }
  lra.
Qed.
Lemma mono_quadratic : forall eps s A B C, A <> 0 -> check_monotonicity eps s [A; B; C] = Ok (Some [if Rle_dec (kurt s) 3 then - B / (2 * A) else sigma s * polyval [A; B; C] (- B / (2 * A)) + mean s]).
Proof.
  intros eps s A B C HA. unfold check_monotonicity. rewrite der_quadratic, poly1d_lead by lra. cbn [real_roots]. unfold set_x_limit. replace (- (1 * B) / (2 * A)) with (- B / (2 * A)) by (field; auto).
  destruct (Rle_dec (kurt s) 3); reflexivity.
Qed.
Lemma mono_linear : forall eps s B, check_monotonicity eps s [1; B] = Ok None.
Proof. intros eps s B. unfold check_monotonicity, polyder1. cbn [List.length Nat.sub countdown removelast map2 INR]. rewrite poly1d_lead by lra. reflexivity. Qed.
