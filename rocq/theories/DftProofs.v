From Coq Require Import Reals Lra Lia.
From Coquelicot Require Import Complex.
From Verif Require Import Base PolyModel DftModel.
Local Open Scope R_scope.

Lemma cis_add a b : cis (a + b) = Cmult (cis a) (cis b).
Proof. unfold cis, Cmult. cbn [fst snd]. rewrite cos_plus, sin_plus. f_equal; ring. Qed.
Lemma cis_0 : cis 0 = RtoC 1.
Proof. unfold cis, RtoC. now rewrite cos_0, sin_0. Qed.
Lemma cis_2pi_nat n : cis (2 * PI * INR n) = RtoC 1.
Proof.
  induction n as [|n IH]; [cbn [INR]; now rewrite Rmult_0_r, cis_0|].
  rewrite S_INR. replace (2 * PI * (INR n + 1)) with (2 * PI * INR n + 2 * PI) by ring.
  rewrite cis_add, IH. unfold cis. rewrite cos_2PI, sin_2PI. unfold RtoC, Cmult; cbn [fst snd]. f_equal; ring.
Qed.
Lemma cis_neg t : Cmult (cis t) (cis (- t)) = RtoC 1.
Proof. rewrite <- cis_add. replace (t + - t) with 0 by ring. apply cis_0. Qed.

(* roots of unity with integer exponents *)
Definition zeta (N : nat) (m : Z) : C := cis (2 * PI * IZR m / INR N).
Lemma zeta_add N a b : (0 < N)%nat -> zeta N (a + b) = Cmult (zeta N a) (zeta N b).
Proof.
  intros HN. apply lt_0_INR in HN. unfold zeta. rewrite <- cis_add. f_equal. rewrite plus_IZR. field. lra.
Qed.
Lemma zeta_0 N : zeta N 0 = RtoC 1.
Proof. unfold zeta. replace (2 * PI * 0 / INR N) with 0 by (unfold Rdiv; ring). apply cis_0. Qed.
Lemma zeta_multiple_nat N q : (0 < N)%nat -> zeta N (Z.of_nat N * Z.of_nat q) = RtoC 1.
Proof.
  intros HN. apply lt_0_INR in HN. unfold zeta. rewrite mult_IZR, <- !INR_IZR_INZ.
  replace (2 * PI * (INR N * INR q) / INR N) with (2 * PI * INR q) by (field; lra). apply cis_2pi_nat.
Qed.
Lemma zeta_opp N m : (0 < N)%nat -> Cmult (zeta N m) (zeta N (- m)) = RtoC 1.
Proof. intros HN. rewrite <- zeta_add by easy. rewrite Z.add_opp_diag_r. apply zeta_0. Qed.
Lemma zeta_multiple N q : (0 < N)%nat -> zeta N (Z.of_nat N * q) = RtoC 1.
Proof.
  intros HN. destruct (Z_le_gt_dec 0 q) as [Hq|Hq].
  - rewrite <- (Z2Nat.id q Hq). now apply zeta_multiple_nat.
  - pose proof (zeta_opp N (Z.of_nat N * q) HN) as H. rewrite <- (Z.mul_opp_r (Z.of_nat N) q) in H.
    rewrite <- (Z2Nat.id (- q)) in H at 1 by lia. rewrite zeta_multiple_nat in H by easy. now rewrite Cmult_1_r in H.
Qed.
Lemma zeta_mod N m : (0 < N)%nat -> zeta N m = zeta N (m mod Z.of_nat N).
Proof.
  intros HN. rewrite (Z.div_mod m (Z.of_nat N)) at 1 by lia. rewrite zeta_add, zeta_multiple by easy. apply Cmult_1_l.
Qed.
Lemma zeta_not_1 N m : (0 < m < Z.of_nat N)%Z -> zeta N m <> RtoC 1.
Proof.
  intros Hm H. unfold zeta, cis, RtoC in H. injection H as H1 H2.
  assert (HN : 0 < INR N) by (apply lt_0_INR; lia). set (t := PI * IZR m / INR N).
  assert (Et : 2 * PI * IZR m / INR N = 2 * t) by (unfold t; field; lra). rewrite Et in H1. rewrite cos_2a_sin in H1.
  assert (Hm1 : 0 < IZR m) by (apply (IZR_lt 0); lia).
  assert (Hm2 : IZR m < INR N) by (rewrite INR_IZR_INZ; apply IZR_lt; lia). pose proof PI_RGT_0 as Hpi.
  assert (Ht : 0 < t) by (unfold t; apply Rdiv_lt_0_compat; nra).
  assert (Ht2 : t < PI). { unfold t. apply Rmult_lt_reg_r with (INR N); [lra|]. unfold Rdiv. rewrite Rmult_assoc, Rinv_l by lra. nra. }
  pose proof (sin_gt_0 t Ht Ht2). nra.
Qed.

(* ---- sums ---- *)
Lemma csum_ext n f g : (forall i, (i < n)%nat -> f i = g i) -> csum n f = csum n g.
Proof. induction n as [|n IH]; intros H; cbn; [easy|]. rewrite IH, H by (auto || lia). reflexivity. Qed.
Lemma csum_0 n : csum n (fun _ => RtoC 0) = RtoC 0.
Proof. induction n as [|n IH]; cbn; [easy|]. rewrite IH. apply Cplus_0_r. Qed.
Lemma csum_mul n f a : csum n (fun i => Cmult a (f i)) = Cmult a (csum n f).
Proof. induction n as [|n IH]; cbn; [now rewrite Cmult_0_r|]. rewrite IH. now rewrite Cmult_plus_distr_l. Qed.
Lemma csum_mul_r n f a : csum n (fun i => Cmult (f i) a) = Cmult (csum n f) a.
Proof. induction n as [|n IH]; cbn; [now rewrite Cmult_0_l|]. rewrite IH. now rewrite Cmult_plus_distr_r. Qed.
Lemma csum_add n f g : csum n (fun i => Cplus (f i) (g i)) = Cplus (csum n f) (csum n g).
Proof. induction n as [|n IH]; cbn; [now rewrite Cplus_0_r|]. rewrite IH. ring. Qed.
Lemma csum_swap n m (f : nat -> nat -> C) : csum n (fun i => csum m (f i)) = csum m (fun j => csum n (fun i => f i j)).
Proof. induction n as [|n IH]; cbn; [now rewrite csum_0|]. now rewrite IH, <- csum_add. Qed.
Lemma csum_const n a : csum n (fun _ => a) = Cmult (RtoC (INR n)) a.
Proof. induction n as [|n IH]; cbn [csum]; [now rewrite Cmult_0_l|]. rewrite IH, S_INR, RtoC_plus. ring. Qed.
Lemma csum_pick n f k : (k < n)%nat -> (forall i, (i < n)%nat -> i <> k -> f i = RtoC 0) -> csum n f = f k.
Proof.
  induction n as [|n IH]; intros Hk H; [lia|]. cbn. destruct (Nat.eq_dec k n) as [->|Hne].
  - rewrite (csum_ext n f (fun _ => RtoC 0)), csum_0 by (intros; apply H; lia). apply Cplus_0_l.
  - rewrite IH by (try lia; intros; apply H; lia). rewrite (H n) by lia. apply Cplus_0_r.
Qed.
Lemma csum_real n (f : nat -> C) (g : nat -> R) : (forall i, (i < n)%nat -> f i = RtoC (g i)) -> csum n f = RtoC (fold_right Rplus 0 (map g (seq 0 n))).
Proof.
  induction n as [|n IH]; intros H; cbn [csum]; [reflexivity|]. rewrite IH, H by (auto || lia).
  rewrite seq_S, map_app, fold_right_app. cbn. rewrite <- RtoC_plus. f_equal.
  generalize (map g (seq 0 n)). intros l. rewrite Rplus_0_r. induction l as [|a l IHl]; cbn; [ring|]. rewrite <- IHl. ring.
Qed.

(* ---- orthogonality ---- *)
Lemma zeta_S N m k : (0 < N)%nat -> zeta N (Z.of_nat (S k) * m) = Cmult (zeta N (Z.of_nat k * m)) (zeta N m).
Proof. intros HN. rewrite <- zeta_add by easy. f_equal. lia. Qed.
Lemma geometric N m n : (0 < N)%nat -> Cmult (csum n (fun k => zeta N (Z.of_nat k * m))) (Cminus (zeta N m) (RtoC 1)) = Cminus (zeta N (Z.of_nat n * m)) (RtoC 1).
Proof.
  intros HN. induction n as [|n IH]; cbn [csum]; [rewrite zeta_0; ring|].
  rewrite Cmult_plus_distr_r, IH, zeta_S by easy. ring.
Qed.
Lemma orthogonal N m : (0 < N)%nat -> csum N (fun k => zeta N (Z.of_nat k * m)) = if (m mod Z.of_nat N =? 0)%Z then RtoC (INR N) else RtoC 0.
Proof.
  intros HN. destruct (m mod Z.of_nat N =? 0)%Z eqn:E.
  - apply Z.eqb_eq, Z.mod_divide in E as [q ->]; [|lia]. rewrite (csum_ext N _ (fun _ => RtoC 1)).
    + rewrite csum_const. apply Cmult_1_r.
    + intros k _. replace (Z.of_nat k * (q * Z.of_nat N))%Z with (Z.of_nat N * (Z.of_nat k * q))%Z by ring. now apply zeta_multiple.
  - apply Z.eqb_neq in E. pose proof (geometric N m N HN) as H. rewrite zeta_multiple in H by easy.
    assert (Hne : Cminus (zeta N m) (RtoC 1) <> RtoC 0).
    { intros H0. apply (zeta_not_1 N (m mod Z.of_nat N)).
      - pose proof (Z.mod_pos_bound m (Z.of_nat N)). lia.
      - rewrite <- zeta_mod by easy. replace (zeta N m) with (Cplus (Cminus (zeta N m) (RtoC 1)) (RtoC 1)) by ring. rewrite H0. ring. }
    replace (Cminus (RtoC 1) (RtoC 1)) with (RtoC 0) in H by ring.
    replace (csum N (fun k => zeta N (Z.of_nat k * m))) with (Cmult (Cmult (csum N (fun k => zeta N (Z.of_nat k * m))) (Cminus (zeta N m) (RtoC 1))) (Cinv (Cminus (zeta N m) (RtoC 1)))).
    + rewrite H. ring.
    + field. exact Hne.
Qed.
Lemma cis_zeta N k j : cis (2 * PI * INR (k * j) / INR N) = zeta N (Z.of_nat k * Z.of_nat j).
Proof. unfold zeta. now rewrite INR_IZR_INZ, Nat2Z.inj_mul. Qed.
Lemma cis_zeta_neg N k j : cis (- (2 * PI * INR (k * j) / INR N)) = zeta N (Z.of_nat k * - Z.of_nat j).
Proof. unfold zeta. rewrite INR_IZR_INZ, Nat2Z.inj_mul, Z.mul_opp_r, opp_IZR. f_equal. unfold Rdiv. ring. Qed.

(* ---- convolution ---- *)
Lemma INR_C_neq N : (0 < N)%nat -> RtoC (INR N) <> RtoC 0.
Proof. intros HN H. apply lt_0_INR in HN. apply RtoC_inj in H. lra. Qed.
Lemma convolution N x y j : (j < N)%nat ->
  ifft N (fun k => Cmult (fft N x k) (fft N y k)) j = csum N (fun m => Cmult (x m) (y ((j + N - m) mod N)%nat)).
Proof.
  intros Hj. assert (HN : (0 < N)%nat) by lia. unfold ifft, fft.
  replace (csum N (fun m => Cmult (x m) (y ((j + N - m) mod N)%nat)))
    with (Cdiv (csum N (fun m => Cmult (x m) (csum N (fun b => Cmult (y b) (csum N (fun k => zeta N (Z.of_nat k * (Z.of_nat j - Z.of_nat m - Z.of_nat b)))))))) (RtoC (INR N))).
  - f_equal. rewrite (csum_ext N _ (fun k => csum N (fun m => csum N (fun b => Cmult (x m) (Cmult (y b) (zeta N (Z.of_nat k * (Z.of_nat j - Z.of_nat m - Z.of_nat b)))))))).
    + rewrite csum_swap. apply csum_ext. intros m Hm. rewrite csum_swap. rewrite <- csum_mul. apply csum_ext. intros b Hb.
      rewrite <- !csum_mul. apply csum_ext. intros k Hk. reflexivity.
    + intros k Hk. rewrite <- csum_mul_r. rewrite <- csum_mul_r. apply csum_ext. intros m Hm. rewrite <- csum_mul, <- csum_mul_r. apply csum_ext. intros b Hb.
      rewrite cis_zeta, !cis_zeta_neg.
      replace (Z.of_nat k * (Z.of_nat j - Z.of_nat m - Z.of_nat b))%Z with (Z.of_nat k * Z.of_nat j + (Z.of_nat k * - Z.of_nat m + Z.of_nat k * - Z.of_nat b))%Z by ring.
      rewrite !zeta_add by easy. ring.
  - rewrite (csum_ext N _ (fun m => Cmult (RtoC (INR N)) (Cmult (x m) (y ((j + N - m) mod N)%nat)))).
    + rewrite csum_mul. field. now apply INR_C_neq.
    + intros m Hm. assert (Hb : ((j + N - m) mod N < N)%nat) by (apply Nat.mod_upper_bound; lia).
      rewrite (csum_pick N _ ((j + N - m) mod N)%nat); [|easy|].
      * rewrite orthogonal by easy. replace (_ mod Z.of_nat N =? 0)%Z with true; [ring|]. symmetry. apply Z.eqb_eq.
        rewrite Nat2Z.inj_mod. rewrite Nat2Z.inj_sub, Nat2Z.inj_add by lia.
        rewrite Zminus_mod_idemp_r. replace (Z.of_nat j - Z.of_nat m - (Z.of_nat j + Z.of_nat N - Z.of_nat m))%Z with (- 1 * Z.of_nat N)%Z by ring.
        apply Z.mod_mul. lia.
      * intros b Hb1 Hne. rewrite orthogonal by easy. replace (_ mod Z.of_nat N =? 0)%Z with false; [ring|]. symmetry. apply Z.eqb_neq. intros E.
        apply Hne. apply Z.mod_divide in E as [q Hq]; [|lia].
        replace (j + N - m)%nat with (Z.to_nat (Z.of_nat b + (q + 1) * Z.of_nat N)) by lia.
        apply Nat2Z.inj. rewrite Nat2Z.inj_mod, Z2Nat.id by lia. rewrite Z.mod_add by lia. symmetry. apply Z.mod_small. lia.
Qed.
(* the transform and its inverse *)
Lemma inverse N x j : (j < N)%nat -> ifft N (fft N x) j = x j.
Proof.
  intros Hj. assert (HN : (0 < N)%nat) by lia. unfold ifft, fft.
  rewrite (csum_ext N _ (fun k => csum N (fun m => Cmult (x m) (zeta N (Z.of_nat k * (Z.of_nat j - Z.of_nat m)))))).
  - rewrite csum_swap. rewrite (csum_pick N _ j); [|easy|].
    + rewrite csum_mul, orthogonal by easy. rewrite Z.sub_diag, Z.mod_0_l by lia. cbn. field. now apply INR_C_neq.
    + intros m Hm Hne. rewrite csum_mul, orthogonal by easy. replace (_ =? 0)%Z with false; [ring|]. symmetry. apply Z.eqb_neq. intros E.
      apply Z.mod_divide in E as [q Hq]; [|lia]. assert (q = 0)%Z by nia. lia.
  - intros k Hk. rewrite <- csum_mul_r. apply csum_ext. intros m Hm. rewrite cis_zeta, cis_zeta_neg.
    replace (Z.of_nat k * (Z.of_nat j - Z.of_nat m))%Z with (Z.of_nat k * Z.of_nat j + Z.of_nat k * - Z.of_nat m)%Z by ring. rewrite zeta_add by easy. ring.
Qed.
