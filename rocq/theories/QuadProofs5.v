From Coq Require Import Reals Lra Lia.
From Coquelicot Require Import RInt RInt_analysis Hierarchy Continuity Derive AutoDerive Rbar.
From Verif Require Import Base PolyModel PolySpec PolyProofs PolyProofs2 OrthoModel OrthoProofs
  ChebModel ChebSpec ChebProofs ChebProofs2 ChebProofs3 QuadModel QuadSpec QuadProofs QuadProofs2 QuadProofs3 QuadProofs4.
Local Open Scope R_scope.

Local Notation is_int := (@is_RInt R_NormedModule).

(* ---- Clenshaw-Curtis ------------------------------------------------------------------------- *)
(* the trapezoidal sum of cos(m t) over [0, pi] with N panels *)
Definition E (N m : nat) : R := D N (PI * INR m / INR N) + (-1) ^ m / 2.
Lemma E_0 N : (0 < N)%nat -> E N 0 = INR N.
Proof. intros H. unfold E. change (INR 0) with 0. replace (PI * 0 / INR N) with 0 by (unfold Rdiv; ring). rewrite D_0 by exact H. cbn [pow]. field. Qed.
Lemma E_mid N m : (0 < m)%nat -> (m < 2 * N)%nat -> E N m = 0.
Proof. intros H1 H2. unfold E. rewrite D_node by assumption. field. Qed.
Lemma D_period N t : D N (t + 2 * PI) = D N t.
Proof. apply vsum_ext. intros k _. f_equal. replace (INR k * (t + 2 * PI)) with (INR k * t + 2 * INR k * PI) by ring. apply cos_period. Qed.
Lemma E_period N m : (0 < N)%nat -> E N (m + 2 * N) = E N m.
Proof.
  intros H. unfold E. pose proof (INR_pos N H). rewrite plus_INR, mult_INR. change (INR 2) with 2.
  replace (PI * (INR m + 2 * INR N) / INR N) with (PI * INR m / INR N + 2 * PI) by (field; lra). rewrite D_period.
  f_equal. rewrite pow_add, pow_1_even. field.
Qed.
Lemma cos_prod a b : cos a * cos b = (cos (a + b) + cos (a - b)) / 2.
Proof. rewrite cos_plus, cos_minus. field. Qed.
Lemma S_E N j k : (0 < N)%nat ->
  vsum N (fun s => w s * (cos (INR j * (PI * INR s / INR N)) * cos (2 * PI * INR k * INR s / INR N))) + (-1) ^ j / 2
  = (E N (j + 2 * k) + E N (if (j <=? 2 * k)%nat then 2 * k - j else j - 2 * k)) / 2.
Proof.
  intros H. pose proof (INR_pos N H) as P.
  rewrite (vsum_ext N _ (fun s => 1/2 * (w s * cos (INR s * (PI * INR (j + 2 * k) / INR N))) +
     1/2 * (w s * cos (INR s * (PI * INR (if (j <=? 2 * k)%nat then 2 * k - j else j - 2 * k) / INR N))))).
  - rewrite vsum_add, !vsum_scal. unfold E, D. rewrite pow_add, pow_1_even.
    replace ((-1) ^ (if (j <=? 2 * k)%nat then 2 * k - j else j - 2 * k)) with ((-1) ^ j).
    + field.
    + destruct (Nat.leb_spec j (2 * k)).
      * assert (X : (-1) ^ (2 * k - j) * (-1) ^ j = 1). { rewrite <- pow_add. replace (2 * k - j + j)%nat with (2 * k)%nat by lia. apply pow_1_even. }
        assert (Y : (-1) ^ j * (-1) ^ j = 1). { rewrite <- Rpow_mult_distr. replace (-1 * -1) with 1 by ring. apply pow1. }
        transitivity ((-1) ^ j * ((-1) ^ (2 * k - j) * (-1) ^ j)); [rewrite X; ring|].
        transitivity ((-1) ^ (2 * k - j) * ((-1) ^ j * (-1) ^ j)); [ring|]. rewrite Y. ring.
      * replace j with (j - 2 * k + 2 * k)%nat at 1 by lia. rewrite pow_add, pow_1_even. ring.
  - intros s _. rewrite cos_prod.
    replace (INR j * (PI * INR s / INR N) + 2 * PI * INR k * INR s / INR N) with (INR s * (PI * INR (j + 2 * k) / INR N)).
    2:{ rewrite plus_INR, mult_INR. change (INR 2) with 2. field. lra. }
    replace (cos (INR j * (PI * INR s / INR N) - 2 * PI * INR k * INR s / INR N))
      with (cos (INR s * (PI * INR (if (j <=? 2 * k)%nat then 2 * k - j else j - 2 * k) / INR N))); [field|].
    destruct (Nat.leb_spec j (2 * k)).
    + rewrite <- cos_neg. f_equal. rewrite minus_INR, mult_INR by lia. change (INR 2) with 2. field. lra.
    + f_equal. rewrite minus_INR, mult_INR by lia. change (INR 2) with 2. field. lra.
Qed.
Lemma cc_f_T n j s : (1 <= n)%nat -> (s < 2 * n)%nat -> clencurt_f (fun v => v) (chebT j) (-1) 1 (2 * n) s = w s * cos (INR j * (PI * INR s / INR (2 * n))).
Proof.
  intros Hn Hs. unfold clencurt_f, clencurt_x.
  replace (cos (PI * INR s / INR (2 * n)) * (1 - -1) / 2 + (1 + -1) / 2) with (cos (PI * INR s / INR (2 * n))) by field.
  rewrite T_cos. destruct (Nat.eqb_spec s (2 * n)); [lia|]. destruct s; cbn [Nat.eqb orb w]; [field|ring].
Qed.
Lemma cc_f_T_last n j : (1 <= n)%nat -> clencurt_f (fun v => v) (chebT j) (-1) 1 (2 * n) (2 * n) = (-1) ^ j / 2.
Proof.
  intros Hn. unfold clencurt_f, clencurt_x. assert (P : 0 < INR (2 * n)) by (apply lt_0_INR; lia).
  replace (cos (PI * INR (2 * n) / INR (2 * n)) * (1 - -1) / 2 + (1 + -1) / 2) with (cos PI).
  2:{ replace (PI * INR (2 * n) / INR (2 * n)) with PI by (field; lra). field. }
  rewrite T_cos, cos_int, Nat.eqb_refl, Bool.orb_true_r. reflexivity.
Qed.
Lemma cc_c_T n j k : (1 <= n)%nat -> (j <= 2 * n + 1)%nat -> (k <= n)%nat ->
  clencurt_c (fun v => v) (chebT j) (-1) 1 n k = if Nat.eq_dec j (2 * k) then 1 / ((INR (2 * k) - 1) * (INR (2 * k) + 1)) else 0.
Proof.
  intros Hn Hj Hk. unfold clencurt_c. cbv zeta. rewrite cc_f_T_last by exact Hn.
  assert (P : 0 < INR (2 * n)) by (apply lt_0_INR; lia).
  assert (DN : (INR (2 * k) - 1) * (INR (2 * k) + 1) <> 0).
  { rewrite mult_INR. change (INR 2) with 2. destruct k as [|k]; [change (INR 0) with 0; lra|]. rewrite S_INR. pose proof (pos_INR k). nra. }
  set (DD := (INR (2 * k) - 1) * (INR (2 * k) + 1)) in *. clearbody DD.
  rewrite (Rmult_comm PI), cos_int, pow_1_even, Rmult_1_l.
  rewrite (vsum_ext (2 * n) _ (fun s => w s * (cos (INR j * (PI * INR s / INR (2 * n))) * cos (2 * PI * INR k * INR s / INR (2 * n))))).
  2:{ intros s Hs. rewrite cc_f_T by assumption. ring. }
  rewrite S_E by lia.
  assert (Z : j <> (2 * k)%nat -> E (2 * n) (j + 2 * k) + E (2 * n) (if (j <=? 2 * k)%nat then 2 * k - j else j - 2 * k) = 0).
  { intros Hne. rewrite (E_mid (2 * n) (if (j <=? 2 * k)%nat then 2 * k - j else j - 2 * k)) by (destruct (Nat.leb_spec j (2 * k)); lia).
    rewrite Rplus_0_r. destruct (Nat.le_gt_cases (j + 2 * k) (4 * n)) as [L|L].
    - apply E_mid; lia.
    - replace (j + 2 * k)%nat with (1 + 2 * (2 * n))%nat by lia. rewrite E_period by lia. apply E_mid; lia. }
  destruct (Nat.eq_dec j (2 * k)) as [->|Hne].
  - rewrite Nat.leb_refl, Nat.sub_diag, E_0 by lia.
    destruct (Nat.eqb_spec k 0) as [->|K0]; cbn [orb].
    + replace (2 * 0 + 2 * 0)%nat with 0%nat by lia. rewrite E_0 by lia. field. split; [exact DN|lra].
    + destruct (Nat.eqb_spec k n) as [->|Kn].
      * replace (2 * n + 2 * n)%nat with (0 + 2 * (2 * n))%nat by lia. rewrite E_period, E_0 by lia. field. split; [exact DN|lra].
      * rewrite E_mid by lia. field. split; [exact DN|lra].
  - rewrite (Z Hne). destruct ((k =? 0)%nat || (k =? n)%nat); field; split; try exact DN; lra.
Qed.
Lemma cc_T n j : (1 <= n)%nat -> (j <= 2 * n + 1)%nat ->
  fst (clencurt (fun v => v) (chebT j) (-1) 1 n) = if Nat.even j then 2 / (1 - INR j ^ 2) else 0.
Proof.
  intros Hn Hj. unfold clencurt. cbn [fst].
  rewrite (vsum_ext (S n) _ (fun k => if Nat.eq_dec j (2 * k) then 1 / ((INR (2 * k) - 1) * (INR (2 * k) + 1)) else 0)).
  2:{ intros k Hk. apply cc_c_T; lia. }
  destruct (Nat.even j) eqn:Ev.
  - apply Nat.even_spec in Ev. destruct Ev as [i ->].
    rewrite (vsum_ext (S n) _ (fun k => if Nat.eq_dec i k then 1 / ((INR (2 * k) - 1) * (INR (2 * k) + 1)) else 0)).
    2:{ intros k _. destruct (Nat.eq_dec (2 * i) (2 * k)), (Nat.eq_dec i k); try lia; reflexivity. }
    rewrite (vsum_pick (S n) i (fun k => 1 / ((INR (2 * k) - 1) * (INR (2 * k) + 1)))) by lia.
    assert (DN : (INR (2 * i) - 1) * (INR (2 * i) + 1) <> 0).
    { rewrite mult_INR. change (INR 2) with 2. destruct i as [|i]; [change (INR 0) with 0; lra|]. rewrite S_INR. pose proof (pos_INR i). nra. }
    set (y := INR (2 * i)) in *. assert (N1 : y - 1 <> 0) by (intros C; apply DN; rewrite C; ring). assert (N2 : y + 1 <> 0) by (intros C; apply DN; rewrite C; ring).
    field. repeat split; try assumption. intros C. apply DN. lra.
  - rewrite vsum_0; [ring|]. intros k Hk. destruct (Nat.eq_dec j (2 * k)) as [->|]; [|reflexivity].
    rewrite Nat.even_mul in Ev. discriminate Ev.
Qed.
Lemma cc_linear n : linear (fun f => fst (clencurt (fun v => v) f (-1) 1 n)).
Proof.
  assert (C1 : forall f g k, (forall x, f x = g x) -> clencurt_c (fun v => v) f (-1) 1 n k = clencurt_c (fun v => v) g (-1) 1 n k).
  { intros f g k H. unfold clencurt_c, clencurt_f. cbv zeta.
    rewrite (vsum_ext _ _ (fun s => (if (s =? 0)%nat || (s =? 2 * n)%nat then g (clencurt_x (-1) 1 (2 * n) s) / 2 else g (clencurt_x (-1) 1 (2 * n) s)) * cos (2 * PI * INR k * INR s / INR (2 * n)))).
    - now rewrite H.
    - intros s _. now rewrite H. }
  set (L := fun (f : R -> R) k => 2 / INR (2 * n) * (vsum (2 * n) (fun s => (if (s =? 0)%nat || (s =? 2 * n)%nat then f (clencurt_x (-1) 1 (2 * n) s) / 2 else f (clencurt_x (-1) 1 (2 * n) s)) * cos (2 * PI * INR k * INR s / INR (2 * n)))
     + cos (PI * INR (2 * k)) * (f (clencurt_x (-1) 1 (2 * n) (2 * n)) / 2)) * ((if (k =? 0)%nat || (k =? n)%nat then 1/2 else 1) * / ((INR (2 * k) - 1) * (INR (2 * k) + 1)))).
  assert (C2 : forall f k, clencurt_c (fun v => v) f (-1) 1 n k = L f k).
  { intros f k. unfold clencurt_c, clencurt_f, L. cbv zeta. rewrite Nat.eqb_refl, Bool.orb_true_r.
    destruct ((k =? 0)%nat || (k =? n)%nat); unfold Rdiv; ring. }
  assert (LA : forall f g k, L (fun x => f x + g x) k = L f k + L g k).
  { intros f g k. unfold L. rewrite (vsum_ext _ _ (fun s => (if (s =? 0)%nat || (s =? 2 * n)%nat then f (clencurt_x (-1) 1 (2 * n) s) / 2 else f (clencurt_x (-1) 1 (2 * n) s)) * cos (2 * PI * INR k * INR s / INR (2 * n))
      + (if (s =? 0)%nat || (s =? 2 * n)%nat then g (clencurt_x (-1) 1 (2 * n) s) / 2 else g (clencurt_x (-1) 1 (2 * n) s)) * cos (2 * PI * INR k * INR s / INR (2 * n)))).
    - rewrite vsum_add. unfold Rdiv. ring.
    - intros s _. destruct ((s =? 0)%nat || (s =? 2 * n)%nat); unfold Rdiv; ring. }
  assert (LS : forall c f k, L (fun x => c * f x) k = c * L f k).
  { intros c f k. unfold L. rewrite (vsum_ext _ _ (fun s => c * ((if (s =? 0)%nat || (s =? 2 * n)%nat then f (clencurt_x (-1) 1 (2 * n) s) / 2 else f (clencurt_x (-1) 1 (2 * n) s)) * cos (2 * PI * INR k * INR s / INR (2 * n))))).
    - rewrite vsum_scal. unfold Rdiv. ring.
    - intros s _. destruct ((s =? 0)%nat || (s =? 2 * n)%nat); unfold Rdiv; ring. }
  unfold clencurt. cbn [fst]. split; [|split].
  - intros f g H. f_equal. apply vsum_ext. intros k _. now apply C1.
  - intros f g. rewrite <- Rmult_plus_distr_l, <- vsum_add. f_equal. apply vsum_ext. intros k _. now rewrite !C2, LA.
  - intros c f. rewrite (vsum_ext _ _ (fun k => c * clencurt_c (fun v => v) f (-1) 1 n k)).
    + rewrite vsum_scal. ring.
    + intros k _. now rewrite !C2, LS.
Qed.
Lemma cc_affine (f : R -> R) a b n : fst (clencurt (fun v => v) f a b n) = (b - a) / 2 * fst (clencurt (fun v => v) (fun y => f (map_to_interval y a b)) (-1) 1 n).
Proof.
  unfold clencurt. cbn [fst].
  rewrite (vsum_ext (S n) (clencurt_c (fun v => v) f a b n) (clencurt_c (fun v => v) (fun y => f (map_to_interval y a b)) (-1) 1 n)); [field|].
  intros k _. unfold clencurt_c, clencurt_f. cbv zeta.
  assert (X : forall s, clencurt_x a b (2 * n) s = map_to_interval (clencurt_x (-1) 1 (2 * n) s) a b).
  { intros s. unfold clencurt_x, map_to_interval. set (c := cos _). field. }
  rewrite (vsum_ext _ _ (fun s => (if (s =? 0)%nat || (s =? 2 * n)%nat then f (map_to_interval (clencurt_x (-1) 1 (2 * n) s) a b) / 2 else f (map_to_interval (clencurt_x (-1) 1 (2 * n) s) a b)) * cos (2 * PI * INR k * INR s / INR (2 * n)))).
  - now rewrite X.
  - intros s _. now rewrite X.
Qed.
Lemma clencurt_exact n p a b : (1 <= n)%nat -> (List.length p <= 2 * n + 2)%nat ->
  integral (peval p) a b (fst (clencurt (fun v => v) (peval p) a b n)).
Proof.
  intros Hn Hp. destruct (compose_affine p a b) as [q [L Eq]]. rewrite cc_affine.
  destruct (cc_linear n) as [CE _]. rewrite <- (CE (peval q) _ Eq).
  apply (int_affine p q a b); [exact Eq|].
  apply (is_int_ext (fun t => 1 * peval q t)); [intros; ring|].
  apply (exact_cheb (2 * n + 2) (fun _ => 1) (fun t => t) (-1) 1 (fun f => fst (clencurt (fun v => v) f (-1) 1 n))); [lia|apply cc_linear| |lia].
  intros j Hj. rewrite cc_T by lia. apply (is_int_ext (chebT j)); [intros; ring|]. apply int_T.
Qed.

(* ---- Boole -------------------------------------------------------------------------------------- *)
Lemma sum_filter (y : list R) (c : nat -> bool) m : sumR (map (at_R y) (filter c (seq 0 m))) = vsum m (fun i => if c i then at_R y i else 0).
Proof.
  assert (A : forall a b, sumR (a ++ b) = sumR a + sumR b). { induction a as [|x a IH]; intros b; cbn [app sumR fold_right]; [unfold sumR; ring|]. unfold sumR in *. cbn [fold_right]. rewrite IH. ring. }
  induction m as [|m IH]; [reflexivity|]. rewrite seq_S, filter_app, map_app, A, IH. cbn [vsum Nat.add filter]. destruct (c m); cbn; ring.
Qed.
Lemma vsum_4 k f : vsum (4 * k) f = vsum k (fun i => f (4 * i)%nat + f (4 * i + 1)%nat + f (4 * i + 2)%nat + f (4 * i + 3)%nat).
Proof.
  induction k as [|k IH]; [reflexivity|]. replace (4 * S k)%nat with (S (S (S (S (4 * k))))) by lia. cbn [vsum]. rewrite IH.
  replace (4 * k + 1)%nat with (S (4 * k)) by lia. replace (4 * k + 2)%nat with (S (S (4 * k))) by lia. replace (4 * k + 3)%nat with (S (S (S (4 * k)))) by lia. ring.
Qed.
Lemma mod4 i r : (r < 4)%nat -> ((4 * i + r) mod 4 = r)%nat.
Proof. intros H. rewrite Nat.add_comm, Nat.mul_comm, Nat.mod_add by lia. now apply Nat.mod_small. Qed.
Lemma strided_sum y a s st : sumR (strided y a s st) = vsum (Nat.min s (List.length y)) (fun i => if (a <=? i)%nat && ((i - a) mod st =? 0)%nat then at_R y i else 0).
Proof. apply sum_filter. Qed.
Lemma strided_2 y k : (4 * k + 1 <= List.length y)%nat -> sumR (strided y 2 (4 * k) 4) = vsum k (fun i => at_R y (4 * i + 2)).
Proof.
  intros H. rewrite strided_sum, Nat.min_l by lia. rewrite vsum_4. apply vsum_ext. intros i _.
  destruct (Nat.leb_spec 2 (4 * i)) as [L|L].
  - replace (4 * i - 2)%nat with (4 * (i - 1) + 2)%nat by lia. rewrite mod4 by lia. cbn [Nat.eqb andb].
    destruct (Nat.leb_spec 2 (4 * i + 1)); [|lia]. replace (4 * i + 1 - 2)%nat with (4 * (i - 1) + 3)%nat by lia. rewrite mod4 by lia. cbn [Nat.eqb andb].
    destruct (Nat.leb_spec 2 (4 * i + 2)); [|lia]. replace (4 * i + 2 - 2)%nat with (4 * i + 0)%nat by lia. rewrite mod4 by lia. cbn [Nat.eqb andb].
    destruct (Nat.leb_spec 2 (4 * i + 3)); [|lia]. replace (4 * i + 3 - 2)%nat with (4 * i + 1)%nat by lia. rewrite mod4 by lia. cbn [Nat.eqb andb]. ring.
  - assert (i = 0)%nat by lia. subst i. cbn. ring.
Qed.
Lemma strided_1 y k : (4 * k + 1 <= List.length y)%nat -> sumR (strided y 1 (4 * k) 2) = vsum k (fun i => at_R y (4 * i + 1) + at_R y (4 * i + 3)).
Proof.
  intros H. rewrite strided_sum, Nat.min_l by lia. rewrite vsum_4. apply vsum_ext. intros i _.
  assert (M : forall a r, (r < 2)%nat -> ((2 * a + r) mod 2 = r)%nat).
  { intros a r Hr. rewrite Nat.add_comm, Nat.mul_comm, Nat.mod_add by lia. now apply Nat.mod_small. }
  destruct (Nat.leb_spec 1 (4 * i)) as [L|L].
  - replace (4 * i - 1)%nat with (2 * (2 * i - 1) + 1)%nat by lia. rewrite M by lia. cbn [Nat.eqb andb].
    destruct (Nat.leb_spec 1 (4 * i + 1)); [|lia]. replace (4 * i + 1 - 1)%nat with (2 * (2 * i) + 0)%nat by lia. rewrite M by lia. cbn [Nat.eqb andb].
    destruct (Nat.leb_spec 1 (4 * i + 2)); [|lia]. replace (4 * i + 2 - 1)%nat with (2 * (2 * i) + 1)%nat by lia. rewrite M by lia. cbn [Nat.eqb andb].
    destruct (Nat.leb_spec 1 (4 * i + 3)); [|lia]. replace (4 * i + 3 - 1)%nat with (2 * (2 * i + 1) + 0)%nat by lia. rewrite M by lia. cbn [Nat.eqb andb]. ring.
  - assert (i = 0)%nat by lia. subst i. cbn. ring.
Qed.
Lemma strided_4 y k : (1 <= k)%nat -> (4 * k + 1 <= List.length y)%nat -> sumR (strided y 4 (4 * k - 2) 4) = vsum (k - 1) (fun i => at_R y (4 * S i)).
Proof.
  intros Hk H. rewrite strided_sum, Nat.min_l by lia. destruct k as [|k]; [lia|]. clear Hk.
  replace (4 * S k - 2)%nat with (4 * k + 2)%nat by lia. rewrite vsum_app, vsum_4. cbn [Nat.sub vsum]. rewrite Nat.sub_0_r.
  replace (4 * k + 0)%nat with (4 * k)%nat by lia.
  assert (Q : forall i, ((if (4 <=? 4 * i)%nat && ((4 * i - 4) mod 4 =? 0)%nat then at_R y (4 * i) else 0) = if (i =? 0)%nat then 0 else at_R y (4 * i))
    /\ ((4 <=? 4 * i + 1)%nat && ((4 * i + 1 - 4) mod 4 =? 0)%nat = false) /\ ((4 <=? 4 * i + 2)%nat && ((4 * i + 2 - 4) mod 4 =? 0)%nat = false)
    /\ ((4 <=? 4 * i + 3)%nat && ((4 * i + 3 - 4) mod 4 =? 0)%nat = false)).
  { intros [|i]; [repeat split|].
    replace (4 * S i - 4)%nat with (4 * i + 0)%nat by lia. replace (4 * S i + 1 - 4)%nat with (4 * i + 1)%nat by lia.
    replace (4 * S i + 2 - 4)%nat with (4 * i + 2)%nat by lia. replace (4 * S i + 3 - 4)%nat with (4 * i + 3)%nat by lia. rewrite !mod4 by lia.
    rewrite !Bool.andb_false_r. destruct (Nat.leb_spec 4 (4 * S i)); [|lia]. repeat split. }
  destruct (Q k) as [-> [-> _]].
  rewrite (vsum_ext k _ (fun i => if (i =? 0)%nat then 0 else at_R y (4 * i))).
  2:{ intros i _. destruct (Q i) as [-> [-> [-> ->]]]. ring. }
  destruct k as [|k]; [cbn; ring|]. rewrite vsum_first. cbn [Nat.eqb vsum]. ring.
Qed.
Lemma panel p x0 h : (List.length p <= 6)%nat ->
  is_int (peval p) x0 (x0 + 4 * h) (2 * h / 45 * (7 * peval p x0 + 32 * peval p (x0 + h) + 12 * peval p (x0 + 2 * h) + 32 * peval p (x0 + 3 * h) + 7 * peval p (x0 + 4 * h))).
Proof.
  intros H.
  assert (EX : exists c0 c1 c2 c3 c4 c5, forall t, peval p t = c5 * t ^ 5 + c4 * t ^ 4 + c3 * t ^ 3 + c2 * t ^ 2 + c1 * t + c0).
  { destruct p as [|a p]; [exists 0, 0, 0, 0, 0, 0; intros; cbn [peval]; ring|].
    destruct p as [|b p]; [exists a, 0, 0, 0, 0, 0; intros; cbn [peval List.length]; ring|].
    destruct p as [|c p]; [exists b, a, 0, 0, 0, 0; intros; cbn [peval List.length]; ring|].
    destruct p as [|d p]; [exists c, b, a, 0, 0, 0; intros; cbn [peval List.length]; ring|].
    destruct p as [|e p]; [exists d, c, b, a, 0, 0; intros; cbn [peval List.length]; ring|].
    destruct p as [|f p]; [exists e, d, c, b, a, 0; intros; cbn [peval List.length]; ring|].
    destruct p as [|g p]; [exists f, e, d, c, b, a; intros; cbn [peval List.length]; ring|]. cbn [List.length] in H. lia. }
  destruct EX as [c0 [c1 [c2 [c3 [c4 [c5 EQ]]]]]].
  set (F := fun t => c5 * t ^ 6 / 6 + c4 * t ^ 5 / 5 + c3 * t ^ 4 / 4 + c2 * t ^ 3 / 3 + c1 * t ^ 2 / 2 + c0 * t).
  eapply is_int_val; [apply (is_RInt_derive (V := R_CompleteNormedModule) F (peval p))|].
  - intros t _. rewrite EQ. unfold F. auto_derive; [exact Logic.I|]. field.
  - intros t _. apply cont_of, peval_cont.
  - change (F (x0 + 4 * h) - F x0 = 2 * h / 45 * (7 * peval p x0 + 32 * peval p (x0 + h) + 12 * peval p (x0 + 2 * h) + 32 * peval p (x0 + 3 * h) + 7 * peval p (x0 + 4 * h))).
    rewrite !EQ. unfold F. field.
Qed.
Lemma panels p a h k : (List.length p <= 6)%nat -> is_int (peval p) a (a + INR (4 * k) * h)
  (2 * h / 45 * vsum k (fun i => let x j := a + INR (4 * i + j) * h in 7 * peval p (x 0%nat) + 32 * peval p (x 1%nat) + 12 * peval p (x 2%nat) + 32 * peval p (x 3%nat) + 7 * peval p (x 4%nat))).
Proof.
  intros H. induction k as [|k IH].
  - eapply is_int_val.
    + replace (a + INR (4 * 0) * h) with a by (change (INR (4 * 0)) with 0; ring). apply (is_RInt_point (V := R_NormedModule)).
    + change (0 = 2 * h / 45 * 0). ring.
  - set (x0 := a + INR (4 * k) * h) in *. pose proof (panel p x0 h H) as G.
    replace (x0 + 4 * h) with (a + INR (4 * S k) * h) in G.
    2:{ unfold x0. rewrite !mult_INR, (S_INR k). change (INR 4) with (1 + 1 + 1 + 1). ring. }
    eapply is_int_val; [exact (is_RInt_Chasles (V := R_NormedModule) _ _ _ _ _ _ IH G)|].
    cbn [vsum]. cbv zeta.
    assert (X : forall j, a + INR (4 * k + j) * h = x0 + INR j * h) by (intros j; unfold x0; rewrite plus_INR; ring).
    rewrite !X. change (INR 0) with 0. change (INR 1) with 1. change (INR 2) with (1 + 1). change (INR 3) with (1 + 1 + 1). change (INR 4) with (1 + 1 + 1 + 1).
    replace (a + INR (4 * S k) * h) with (x0 + (1 + 1 + 1 + 1) * h). 
    2:{ unfold x0. rewrite !mult_INR, (S_INR k). change (INR 4) with (1 + 1 + 1 + 1). ring. }
    match goal with |- plus ?u ?v = _ => change (plus u v) with (u + v) end.
    replace (x0 + 0 * h) with x0 by ring. replace (x0 + 1 * h) with (x0 + h) by ring. replace (x0 + (1 + 1) * h) with (x0 + 2 * h) by ring.
    replace (x0 + (1 + 1 + 1) * h) with (x0 + 3 * h) by ring. ring.
Qed.
Lemma tel7 (y : nat -> R) k : vsum k (fun i => 7 * y i + 7 * y (S i)) = 7 * y 0%nat + 7 * y k + 14 * vsum (k - 1) (fun i => y (S i)) - (if (k =? 0)%nat then 14 * y 0%nat else 0).
Proof.
  destruct k as [|k]; [cbn; ring|]. cbn [Nat.sub Nat.eqb]. rewrite Nat.sub_0_r. induction k as [|k IH]; [cbn; ring|].
  cbn [vsum] in *. rewrite IH. ring.
Qed.
Lemma grid_len a b n : List.length (grid a b n) = n.
Proof. unfold grid. now rewrite map_length, seq_length. Qed.
Lemma boole_exact p a b k : (1 <= k)%nat -> (List.length p <= 6)%nat ->
  integral (peval p) a b (boole (map (peval p) (grid a b (4 * k + 1))) (grid a b (4 * k + 1))).
Proof.
  intros Hk Hp. set (n := (4 * k + 1)%nat). unfold boole. rewrite grid_len.
  assert (P : 0 < INR (4 * k)) by (apply lt_0_INR; lia).
  assert (AT : forall i, (i <= 4 * k)%nat -> nth i (grid a b n) 0 = a + INR i * ((b - a) / INR (4 * k))).
  { intros i Hi. transitivity (a + INR i * ((b - a) / INR (n - 1))); [apply (at_map (fun i => a + INR i * ((b - a) / INR (n - 1))) n i); unfold n; lia|].
    replace (n - 1)%nat with (4 * k)%nat by (unfold n; lia). reflexivity. }
  assert (HD : forall l : list R, hd 0 l = nth 0 l 0) by (now intros []).
  assert (LS : forall l : list R, last l 0 = nth (List.length l - 1) l 0).
  { induction l as [|x [|y l] IH]; try reflexivity. change (last (x :: y :: l) 0) with (last (y :: l) 0). rewrite IH. cbn [List.length Nat.sub]. rewrite !Nat.sub_0_r. reflexivity. }
  assert (ATY : forall i, (i <= 4 * k)%nat -> nth i (map (peval p) (grid a b n)) 0 = peval p (a + INR i * ((b - a) / INR (4 * k)))).
  { intros i Hi. rewrite (nth_indep _ 0 (peval p 0)) by (rewrite map_length, grid_len; unfold n; lia). rewrite map_nth, AT by exact Hi. reflexivity. }
  rewrite !HD, !LS, map_length, grid_len. replace (n - 1)%nat with (4 * k)%nat by (unfold n; lia).
  replace (n - 3)%nat with (4 * k - 2)%nat by (unfold n; lia).
  rewrite !AT, !ATY by lia. change (INR 0) with 0.
  rewrite strided_2, strided_1, strided_4; try (rewrite map_length, grid_len; unfold n; lia); [|exact Hk].
  set (h := (b - a) / INR (4 * k)).
  pose proof (panels p a h k Hp) as G. replace (a + INR (4 * k) * h) with b in G by (unfold h; field; lra).
  eapply is_int_val; [exact G|]. cbv zeta.
  replace (a + INR (4 * k) * h - (a + 0 * h)) with (INR (4 * k) * h) by ring. replace (INR (4 * k) * h / INR (4 * k)) with h by (field; lra).
  f_equal.
  rewrite (vsum_ext k (fun i => at_R _ (4 * i + 2)) (fun i => peval p (a + INR (4 * i + 2) * h))) by (intros; apply ATY; lia).
  rewrite (vsum_ext k (fun i => at_R _ (4 * i + 1) + _) (fun i => peval p (a + INR (4 * i + 1) * h) + peval p (a + INR (4 * i + 3) * h))) by (intros; unfold at_R; rewrite !ATY by lia; reflexivity).
  rewrite (vsum_ext (k - 1) _ (fun i => peval p (a + INR (4 * S i) * h))) by (intros; apply ATY; lia).
  pose proof (tel7 (fun i => peval p (a + INR (4 * i) * h)) k) as T. cbv beta in T. destruct (Nat.eqb_spec k 0); [lia|].
  rewrite <- !vsum_scal.
  rewrite (vsum_ext k _ (fun i => (12 * peval p (a + INR (4 * i + 2) * h) + 32 * (peval p (a + INR (4 * i + 1) * h) + peval p (a + INR (4 * i + 3) * h))) +
     (7 * peval p (a + INR (4 * i) * h) + 7 * peval p (a + INR (4 * S i) * h)))).
  - rewrite vsum_add, T, vsum_add. replace (INR (4 * 0)) with 0 by reflexivity. rewrite !vsum_scal. ring.
  - intros i _. replace (4 * i + 0)%nat with (4 * i)%nat by lia. replace (4 * i + 4)%nat with (4 * S i)%nat by lia. ring.
Qed.
