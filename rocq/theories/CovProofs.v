From Coq Require Import Reals Lra Lia.
From Coquelicot Require Import Complex.
From Verif Require Import Base PolyModel KdeModel GridSpec DftModel DftProofs CovModel CovSpec.
Local Open Scope R_scope.

(* ---- finite sums ---- *)
Definition Sum (n : nat) (f : nat -> R) : R := sumR (map f (seq 0 n)).
Lemma Sum_0 f : Sum 0 f = 0. Proof. reflexivity. Qed.
Lemma sumR_app a b : sumR (a ++ b) = sumR a + sumR b.
Proof. unfold sumR. induction a as [|v a IH]; cbn; [ring|]. rewrite IH. ring. Qed.
Lemma Sum_S n f : Sum (S n) f = Sum n f + f n.
Proof. unfold Sum. rewrite seq_S, map_app, sumR_app. unfold sumR at 2. cbn. ring. Qed.
Lemma Sum_ext n f g : (forall i, (i < n)%nat -> f i = g i) -> Sum n f = Sum n g.
Proof. induction n as [|n IH]; intros H; [reflexivity|]. rewrite !Sum_S, IH, H by (auto; lia). reflexivity. Qed.
Lemma Sum_zero n : Sum n (fun _ => 0) = 0.
Proof. induction n as [|n IH]; [reflexivity|]. rewrite Sum_S, IH. ring. Qed.
Lemma Sum_plus n f g : Sum n (fun i => f i + g i) = Sum n f + Sum n g.
Proof. induction n as [|n IH]; [unfold Sum; cbn; ring|]. rewrite !Sum_S, IH. ring. Qed.
Lemma Sum_mul n a f : Sum n (fun i => a * f i) = a * Sum n f.
Proof. induction n as [|n IH]; [unfold Sum; cbn; ring|]. rewrite !Sum_S, IH. ring. Qed.
Lemma Sum_split n m f : Sum (n + m) f = Sum n f + Sum m (fun i => f (n + i)%nat).
Proof. induction m as [|m IH]; [rewrite Nat.add_0_r, Sum_0; ring|]. rewrite Nat.add_succ_r, !Sum_S, IH. ring. Qed.
Lemma Sum_trunc m n f : (m <= n)%nat -> (forall i, (m <= i < n)%nat -> f i = 0) -> Sum n f = Sum m f.
Proof.
  intros Hm H. replace n with (m + (n - m))%nat by lia. rewrite Sum_split.
  rewrite (Sum_ext (n - m) _ (fun _ => 0)) by (intros; apply H; lia). rewrite Sum_zero. ring.
Qed.
Lemma Sum_le n f g : (forall i, (i < n)%nat -> f i <= g i) -> Sum n f <= Sum n g.
Proof. induction n as [|n IH]; intros H; [unfold Sum; cbn; lra|]. rewrite !Sum_S. pose proof (H n ltac:(lia)). assert (Sum n f <= Sum n g) by (apply IH; intros; apply H; lia). lra. Qed.
Lemma at_R_out x i : (List.length x <= i)%nat -> at_R x i = 0. Proof. intros H. now apply nth_overflow. Qed.

(* ---- the transform of the periodogram ---- *)
Lemma Cconj_csum n f : Cconj (csum n f) = csum n (fun i => Cconj (f i)).
Proof. induction n as [|n IH]; cbn [csum]; [unfold Cconj, RtoC; cbn; f_equal; ring|]. rewrite <- IH. unfold Cconj, Cplus; cbn. f_equal; ring. Qed.
Lemma Cconj_mult a b : Cconj (Cmult a b) = Cmult (Cconj a) (Cconj b).
Proof. unfold Cconj, Cmult; cbn. f_equal; ring. Qed.
Lemma Cconj_real r : Cconj (RtoC r) = RtoC r. Proof. unfold Cconj, RtoC; cbn. f_equal; ring. Qed.
Lemma Cconj_zeta N m : Cconj (zeta N m) = zeta N (- m).
Proof.
  unfold zeta, cis, Cconj; cbn [fst snd]. rewrite opp_IZR.
  replace (2 * PI * - IZR m / INR N) with (- (2 * PI * IZR m / INR N)) by (unfold Rdiv; ring). now rewrite cos_neg, sin_neg.
Qed.
Lemma Cmod_sq z : RtoC (Cmod z ^ 2) = Cmult z (Cconj z).
Proof.
  unfold Cmod. rewrite <- Rsqr_pow2, Rsqr_sqrt by (destruct z as [a b]; cbn [fst snd]; nra).
  destruct z as [a b]. unfold RtoC, Cmult, Cconj; cbn [fst snd]. f_equal; ring.
Qed.

Definition circular (N : nat) (x : list R) (k : nat) : R := Sum N (fun a => at_R x a * at_R x ((a + k) mod N)%nat).
Lemma transform N x c k : (0 < N)%nat ->
  fft N (fun j => RtoC (Cmod (fft N (padded x) j) ^ 2 / c)) k = RtoC (INR N * circular N x k / c).
Proof.
  intros HN.
  set (t := fun j a b => Cmult (RtoC (at_R x a * at_R x b / c)) (zeta N (Z.of_nat j * (Z.of_nat b - Z.of_nat a - Z.of_nat k)))).
  transitivity (csum N (fun j => csum N (fun a => csum N (fun b => t j a b)))).
  - unfold fft at 1. apply csum_ext. intros j Hj. rewrite cis_zeta_neg. unfold Rdiv at 1. rewrite RtoC_mult, Cmod_sq. unfold fft.
    rewrite Cconj_csum.
    rewrite (csum_ext N _ (fun a => Cmult (RtoC (at_R x a)) (zeta N (Z.of_nat j * - Z.of_nat a)))) by (intros a Ha; unfold padded; now rewrite cis_zeta_neg).
    rewrite (csum_ext N (fun i => Cconj _) (fun b => Cmult (RtoC (at_R x b)) (zeta N (Z.of_nat j * Z.of_nat b)))).
    2:{ intros b Hb. unfold padded. rewrite cis_zeta_neg, Cconj_mult, Cconj_real, Cconj_zeta. do 2 f_equal. lia. }
    rewrite <- csum_mul_r, <- csum_mul_r, <- csum_mul_r. apply csum_ext. intros a Ha.
    rewrite <- csum_mul, <- csum_mul_r, <- csum_mul_r. apply csum_ext. intros b Hb. unfold t.
    replace (Z.of_nat j * (Z.of_nat b - Z.of_nat a - Z.of_nat k))%Z with ((Z.of_nat j * - Z.of_nat a + Z.of_nat j * Z.of_nat b) + Z.of_nat k * - Z.of_nat j)%Z by ring.
    rewrite !zeta_add by easy. unfold Rdiv. rewrite !RtoC_mult. ring.
  - rewrite csum_swap. rewrite (csum_ext N _ (fun a => RtoC (INR N * (at_R x a * at_R x ((a + k) mod N)%nat) / c))).
    + rewrite (csum_real N _ (fun a => INR N * (at_R x a * at_R x ((a + k) mod N)%nat) / c)) by easy. f_equal.
      transitivity (Sum N (fun a => (INR N / c) * (at_R x a * at_R x ((a + k) mod N)%nat))).
      * apply Sum_ext. intros. unfold Rdiv. ring.
      * rewrite Sum_mul. unfold circular, Rdiv. ring.
    + intros a Ha. rewrite csum_swap. rewrite (csum_pick N _ ((a + k) mod N)%nat).
      * unfold t. rewrite csum_mul, orthogonal by easy.
        replace ((Z.of_nat ((a + k) mod N) - Z.of_nat a - Z.of_nat k) mod Z.of_nat N =? 0)%Z with true.
        2:{ symmetry. apply Z.eqb_eq. rewrite Nat2Z.inj_mod. replace (Z.of_nat (a + k) mod Z.of_nat N - Z.of_nat a - Z.of_nat k)%Z with (Z.of_nat (a + k) mod Z.of_nat N - Z.of_nat (a + k))%Z by lia.
            rewrite Zminus_mod, Z.mod_mod, Z.sub_diag by lia. apply Z.mod_0_l. lia. }
        rewrite <- RtoC_mult. f_equal. unfold Rdiv. ring.
      * apply Nat.mod_upper_bound. lia.
      * intros b Hb Hne. unfold t. rewrite csum_mul, orthogonal by easy.
        destruct (Z.eqb_spec ((Z.of_nat b - Z.of_nat a - Z.of_nat k) mod Z.of_nat N) 0) as [E|E]; [exfalso|apply Cmult_0_r].
        apply Hne. apply Nat2Z.inj. rewrite Nat2Z.inj_mod.
        apply Z.mod_divide in E as [q E]; [|lia]. replace (Z.of_nat (a + k)) with (Z.of_nat b + (- q) * Z.of_nat N)%Z by lia.
        rewrite Z.mod_add by lia. rewrite Z.mod_small; lia.
Qed.
Lemma circular_lagged N x k : (List.length x <= N)%nat -> (k < N)%nat -> circular N x k = lagged x k + lagged x (N - k).
Proof.
  intros Hn Hk. unfold circular. replace N with ((N - k) + k)%nat at 1 by lia. rewrite Sum_split. f_equal.
  - rewrite (Sum_ext (N - k) _ (fun a => at_R x a * at_R x (a + k))) by (intros a Ha; now rewrite Nat.mod_small by lia).
    rewrite (Sum_trunc (List.length x - k)); [reflexivity|lia|]. intros i Hi. rewrite (at_R_out x (i + k)) by lia. ring.
  - rewrite (Sum_ext k _ (fun a => at_R x a * at_R x (a + (N - k)))).
    2:{ intros a Ha. replace (N - k + a + k)%nat with (a + 1 * N)%nat by lia. rewrite Nat.mod_add, Nat.mod_small by lia. rewrite Rmult_comm. do 2 f_equal. lia. }
    rewrite (Sum_trunc (List.length x - (N - k))); [reflexivity|lia|]. intros i Hi. rewrite (at_R_out x (i + (N - k))) by lia. ring.
Qed.
Lemma pow2_above_spec n : least_pow2 n (pow2_above n).
Proof.
  unfold least_pow2, pow2_above. destruct (le_lt_dec n 1) as [H|H].
  - rewrite Nat.log2_up_eqn0 by lia. split; [cbn; lia|]. split; [now exists 0%nat|]. intros e _. cbn [Nat.pow]. pose proof (Nat.pow_nonzero 2 e). lia.
  - pose proof (Nat.log2_up_spec n H) as [_ S2]. split; [easy|]. split; [now eexists|]. intros e He. apply Nat.pow_le_mono_r; [lia|].
    now apply Nat.log2_up_le_pow2; [lia|].
Qed.
Lemma pow2_above_pos n : (0 < pow2_above n)%nat.
Proof. unfold pow2_above. pose proof (Nat.pow_nonzero 2 (Nat.log2_up n)). lia. Qed.
Lemma pow2_above_ge n : (n <= pow2_above n)%nat. Proof. apply pow2_above_spec. Qed.
Lemma least_pow2_unique n p q : least_pow2 n p -> least_pow2 n q -> p = q.
Proof. intros (A1 & (e & A2) & A3) (B1 & (f & B2) & B3). subst. apply Nat.le_antisymm; auto. Qed.
