From Coq Require Import Reals Lra Lia.
From Coquelicot Require Import Coquelicot.
From Verif Require Import Base PolyModel KdeModel FilterModel GridModel GridSpec DftModel DftProofs ProcSpec ProcProofs CovModel CovSpec CovProofs CovProofs3 CovProofs6 SpcovModel SpcovSpec SpcovProofs.
Local Open Scope R_scope.

(* ---- the covariance function and its derivatives ---- *)
Lemma trapezoid_sum h n y : (2 <= n)%nat -> trapezoid h n y = h / 2 * (y 0%nat + 2 * Sum (n - 2) (fun i => y (S i)) + y (n - 1)%nat).
Proof.
  intros Hn. unfold trapezoid. fold (Sum (n - 1) (fun j => h * (y j + y (S j)) / 2)).
  rewrite (Sum_ext _ _ (fun j => h / 2 * (y j + y (S j)))) by (intros; field). rewrite Sum_mul, Sum_plus. f_equal.
  replace (n - 1)%nat with (1 + (n - 2))%nat at 1 by lia. rewrite Sum_split, (Sum_S 0), Sum_0. cbn [Nat.add].
  replace (n - 1)%nat with (S (n - 2))%nat by lia. rewrite Sum_S. ring.
Qed.
Definition Fm (s : spectrum) (h : R) (m : nat) (t : R) : R :=
  trapezoid h (List.length (sdata s)) (fun j => at_R (sdata s) j * (angular (freqtype s) (INR j * h) ^ m * cos (angular (freqtype s) (INR j * h) * t + INR m * (PI / 2)))).
Lemma Sum_derive n (f : nat -> R -> R) (g : nat -> R) t : (forall i, (i < n)%nat -> is_derive (f i) t (g i)) -> is_derive (fun t => Sum n (fun i => f i t)) t (Sum n g).
Proof.
  induction n as [|n IH]; intros H.
  - apply (is_derive_ext (fun _ => 0)); [intros; reflexivity|]. rewrite Sum_0. apply (is_derive_const (K := R_AbsRing) (V := R_NormedModule) 0 t).
  - apply (is_derive_ext (fun t => Sum n (fun i => f i t) + f n t)); [intros; now rewrite Sum_S|]. rewrite Sum_S. apply (is_derive_plus (V := R_NormedModule)); [apply IH; intros; apply H; lia|apply H; lia].
Qed.
Lemma term_derive c w m t : is_derive (fun t => c * (w ^ m * cos (w * t + INR m * (PI / 2)))) t (c * (w ^ S m * cos (w * t + INR (S m) * (PI / 2)))).
Proof.
  auto_derive; [easy|]. rewrite S_INR. replace (w * t + (INR m + 1) * (PI / 2)) with (PI / 2 + (w * t + INR m * (PI / 2))) by ring.
  replace (cos (PI / 2 + (w * t + INR m * (PI / 2)))) with (- sin (w * t + INR m * (PI / 2))) by (rewrite sin_cos; ring). cbn [pow]. ring.
Qed.
Lemma Fm_derive s h m t : is_derive (Fm s h m) t (Fm s h (S m) t).
Proof.
  unfold Fm, trapezoid. set (n := List.length (sdata s)). set (w := fun j => angular (freqtype s) (INR j * h)).
  set (y := fun m j t => at_R (sdata s) j * (w j ^ m * cos (w j * t + INR m * (PI / 2)))).
  apply (Sum_derive (n - 1) (fun j t => h * (y m j t + y m (S j) t) / 2) (fun j => h * (y (S m) j t + y (S m) (S j) t) / 2)).
  intros i Hi. apply (is_derive_ext (fun t => (h / 2) * (y m i t + y m (S i) t))); [intros t0; match goal with |- ?a = ?b => change (@eq R a b) end; field|].
  replace (h * (y (S m) i t + y (S m) (S i) t) / 2) with (h / 2 * (y (S m) i t + y (S m) (S i) t)) by field.
  apply is_derive_scal. apply (is_derive_plus (V := R_NormedModule)); apply term_derive.
Qed.
Lemma Fm_0 s h t : Fm s h 0 t = covariance_at s h t.
Proof. unfold Fm, covariance_at, trapezoid. f_equal. apply map_ext. intros j. cbn [pow INR]. rewrite !Rmult_0_l, !Rplus_0_r. now rewrite !Rmult_1_l. Qed.
Lemma Fm_Derive s h m : forall t, Derive_n (covariance_at s h) m t = Fm s h m t.
Proof.
  induction m as [|m IH]; intros t; [cbn; now rewrite Fm_0|]. cbn [Derive_n]. rewrite (Derive_ext _ (Fm s h m)) by exact IH. apply is_derive_unique, Fm_derive.
Qed.
Lemma Fm_is_derive_n s h m t : is_derive_n (covariance_at s h) m t (Fm s h m t).
Proof.
  destruct m as [|m]; [cbn; now rewrite Fm_0|]. cbn. apply (is_derive_ext (Fm s h m)); [intros; now rewrite Fm_Derive|]. apply Fm_derive.
Qed.

(* ---- the sequences that are transformed ---- *)
Fixpoint turned (w : list R) (X : nat -> C) (m : nat) : nat -> C :=
  match m with O => X | S m' => turned w (fun j => Cmult (Cmult (Copp Ci) (RtoC (at_R w j))) (X j)) m' end.
Lemma derivatives_nth nr : forall nfft n nt w X i, (i < nr)%nat -> nth i (cov_derivatives nr nfft n nt w X) [] = transformed nfft n nt (turned w X (S i)).
Proof.
  induction nr as [|nr IH]; intros nfft n nt w X i Hi; [lia|]. cbn [cov_derivatives]. destruct i as [|i]; [reflexivity|]. cbn [nth].
  rewrite IH by lia. reflexivity.
Qed.
Lemma derivatives_length nr : forall nfft n nt w X, List.length (cov_derivatives nr nfft n nt w X) = nr.
Proof. induction nr as [|nr IH]; intros; cbn; auto. Qed.
Lemma turned_S w X m j : turned w X (S m) j = Cmult (Cmult (Copp Ci) (RtoC (at_R w j))) (turned w X m j).
Proof. revert X. induction m as [|m IH]; intros X; [reflexivity|]. cbn [turned] in *. apply IH. Qed.
Lemma turned_value w x m j : turned w (padded x) m j = Cmult (RtoC (at_R w j ^ m * at_R x j)) (cis (- (INR m * (PI / 2)))).
Proof.
  induction m as [|m IH].
  - cbn [turned]. unfold padded. cbn [pow INR]. rewrite Rmult_0_l, Ropp_0, cis_0, Cmult_1_r, Rmult_1_l. reflexivity.
  - rewrite turned_S, IH, S_INR. replace (- ((INR m + 1) * (PI / 2))) with (- (PI / 2) + - (INR m * (PI / 2))) by ring. rewrite cis_add.
    replace (cis (- (PI / 2))) with (Copp Ci).
    2:{ unfold cis, Copp, Ci. cbn [fst snd]. rewrite cos_neg, sin_neg, cos_PI2, sin_PI2. f_equal; ring. }
    cbn [pow]. rewrite !RtoC_mult. ring.
Qed.
Lemma turned_sym N n w x m : List.length w = n -> List.length x = n -> (2 <= n)%nat -> (2 * n - 2 <= N)%nat ->
  let X := turned (embed N w (map Ropp w)) (padded (embed N x x)) m in
  (forall j, (n <= j < N + 2 - n)%nat -> X j = RtoC 0) /\ (forall j, (1 <= j <= n - 2)%nat -> X (N - j)%nat = Cconj (X j)).
Proof.
  intros Hw Hx Hn HN. induction m as [|m IH].
  - cbn [turned]. split; intros j Hj; unfold padded.
    + now rewrite (embed_mid N x x n) by easy.
    + rewrite (embed_high N x x n), (embed_low N x x n) by (easy || lia). now rewrite Cconj_real.
  - cbn zeta in *. destruct IH as [I1 I2]. split; intros j Hj; rewrite !turned_S.
    + rewrite I1 by easy. apply Cmult_0_r.
    + rewrite I2 by easy. rewrite (embed_high N w (map Ropp w) n), (embed_low N w (map Ropp w) n) by (rewrite ?map_length; lia).
      assert (Ew : at_R (map Ropp w) j = - at_R w j) by (unfold at_R; rewrite <- (map_nth Ropp w 0 j); apply nth_indep; rewrite map_length; lia). rewrite Ew.
      rewrite !Cconj_mult, Cconj_real. f_equal. unfold Cconj, Copp, Ci, RtoC, Cmult; cbn. f_equal; ring.
Qed.
Lemma transform_value N n w x m k : List.length w = n -> List.length x = n -> (2 <= n)%nat -> (2 * n - 2 <= N)%nat ->
  let y := fun j => at_R x j * (at_R w j ^ m * cos (2 * PI * INR (k * j) / INR N + INR m * (PI / 2))) in
  fst (fft N (turned (embed N w (map Ropp w)) (padded (embed N x x)) m) k) = y 0%nat + 2 * Sum (n - 2) (fun i => y (S i)) + y (n - 1)%nat.
Proof.
  intros Hw Hx Hn HN y. destruct (turned_sym N n w x m Hw Hx Hn HN) as [S1 S2]. rewrite (symmetric_fft N n) by easy.
  assert (V : forall j, (j < n)%nat -> fst (Cmult (turned (embed N w (map Ropp w)) (padded (embed N x x)) m j) (zeta N (Z.of_nat k * - Z.of_nat j))) = y j).
  { intros j Hj. rewrite turned_value, <- cis_zeta_neg. rewrite <- Cmult_assoc, <- cis_add.
    rewrite (embed_low N w _ n), (embed_low N x _ n) by easy. unfold Cmult, RtoC, cis; cbn [fst snd]. unfold y.
    replace (- (INR m * (PI / 2)) + - (2 * PI * INR (k * j) / INR N)) with (- (2 * PI * INR (k * j) / INR N + INR m * (PI / 2))) by ring. rewrite cos_neg. ring. }
  rewrite V by lia. f_equal. f_equal.
  - rewrite <- V by lia. cbn [Z.of_nat Z.opp]. rewrite Z.mul_0_r, zeta_0, Cmult_1_r. reflexivity.
  - f_equal. apply Sum_ext. intros i Hi. apply V. lia.
Qed.
