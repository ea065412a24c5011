(* Simulation by circulant embedding: linear forms and sums of cosines. *)
From Coq Require Import Reals List ZArith Lra Lia Bool.
From Coquelicot Require Import Complex.
From Verif Require Import Base PolyModel KdeModel SpectModel SpectProofs7 DftModel DftProofs CovModel ArSpec ArProofs2 CsimModel CsimSpec.
Import ListNotations.
Local Open Scope R_scope.

Lemma fst_csum n f : fst (csum n f) = sum_to n (fun j => fst (f j)).
Proof. induction n as [|n IH]; [reflexivity|]. cbn [csum sum_to]. rewrite <- IH. reflexivity. Qed.
Lemma snd_csum n f : snd (csum n f) = sum_to n (fun j => snd (f j)).
Proof. induction n as [|n IH]; [reflexivity|]. cbn [csum sum_to]. rewrite <- IH. reflexivity. Qed.
Lemma sum_0 n : sum_to n (fun _ => 0) = 0. Proof. induction n as [|n IH]; cbn [sum_to]; [reflexivity|lra]. Qed.
Lemma sum_plus n f g : sum_to n (fun m => f m + g m) = sum_to n f + sum_to n g. Proof. induction n as [|n IH]; cbn [sum_to]; [ring|]. rewrite IH. ring. Qed.
Lemma sum_scal n a f : sum_to n (fun m => a * f m) = a * sum_to n f. Proof. induction n as [|n IH]; cbn [sum_to]; [ring|]. rewrite IH. ring. Qed.
Lemma sum_swap n k f : sum_to n (fun i => sum_to k (fun j => f i j)) = sum_to k (fun j => sum_to n (fun i => f i j)).
Proof. induction n as [|n IH]; cbn [sum_to]; [symmetry; apply sum_0|]. rewrite IH, <- sum_plus. apply sum_ext. intros; reflexivity. Qed.
Lemma sum_pick n p f : (p < n)%nat -> (forall i, (i < n)%nat -> i <> p -> f i = 0) -> sum_to n f = f p.
Proof.
  revert p. induction n as [|n IH]; intros p L Z; [lia|]. cbn [sum_to]. destruct (Nat.eq_dec p n) as [->|N].
  - rewrite (sum_ext n f (fun _ => 0)) by (intros m Hm; apply Z; lia). rewrite sum_0. ring.
  - rewrite (IH p) by (intros; try apply Z; lia). rewrite (Z n) by lia. ring.
Qed.
Lemma sum_le n f g : (forall m, (m < n)%nat -> f m <= g m) -> sum_to n f <= sum_to n g.
Proof. induction n as [|n IH]; intros H; cbn [sum_to]; [lra|]. pose proof (IH (fun m Hm => H m ltac:(lia))). pose proof (H n ltac:(lia)). lra. Qed.
Lemma sum_const n a : sum_to n (fun _ => a) = INR n * a. Proof. induction n as [|n IH]; [cbn; ring|]. cbn [sum_to]. rewrite IH, S_INR. ring. Qed.
Lemma sum_abs n f : Rabs (sum_to n f) <= sum_to n (fun m => Rabs (f m)).
Proof. induction n as [|n IH]; cbn [sum_to]; [rewrite Rabs_R0; lra|]. eapply Rle_trans; [apply Rabs_triang|]. lra. Qed.
Lemma sum_first n f : (0 < n)%nat -> sum_to n f = f 0%nat + sum_to (n - 1) (fun k => f (S k)).
Proof. intros H. replace n with (1 + (n - 1))%nat at 1 by lia. rewrite sum_split. cbn [sum_to]. rewrite Rplus_0_l. reflexivity. Qed.

(* ---- the transform ---- *)
Definition ang (N m k : nat) : R := 2 * PI * INR (m * k) / INR N.
Lemma fft_re N x p : fst (fft N x p) = sum_to N (fun m => fst (x m) * cos (ang N m p) + snd (x m) * sin (ang N m p)).
Proof. unfold fft. rewrite fst_csum. apply sum_ext. intros m _. unfold cis, ang. cbn [fst snd Cmult]. rewrite cos_neg, sin_neg, (Nat.mul_comm p m). ring. Qed.
Lemma fft_im N x p : snd (fft N x p) = sum_to N (fun m => snd (x m) * cos (ang N m p) - fst (x m) * sin (ang N m p)).
Proof. unfold fft. rewrite snd_csum. apply sum_ext. intros m _. unfold cis, ang. cbn [fst snd Cmult]. rewrite cos_neg, sin_neg, (Nat.mul_comm p m). ring. Qed.
Lemma ang_comm N m k : ang N m k = ang N k m. Proof. unfold ang. rewrite Nat.mul_comm. reflexivity. Qed.
Lemma zeta_pair N m : zeta N m = (cos (2 * PI * IZR m / INR N), sin (2 * PI * IZR m / INR N)). Proof. reflexivity. Qed.
Lemma cos_sum N (k : Z) : (0 < N)%nat -> sum_to N (fun m => cos (2 * PI * IZR (Z.of_nat m * k) / INR N)) = if (k mod Z.of_nat N =? 0)%Z then INR N else 0.
Proof. intros H. pose proof (orthogonal N k H) as Q. apply (f_equal fst) in Q. rewrite fst_csum in Q. rewrite (sum_ext _ _ (fun j => fst (zeta N (Z.of_nat j * k)))) by (intros; reflexivity). rewrite Q. destruct (_ =? _)%Z; reflexivity. Qed.
Lemma cos_cos_sum N k l : (0 < N)%nat -> (k < N)%nat -> (l < N)%nat -> sum_to N (fun m => cos (ang N m k) * cos (ang N m l)) = INR N / 2 * ((if (k =? l)%nat then 1 else 0) + (if (k + l =? 0)%nat || (k + l =? N)%nat then 1 else 0)).
Proof.
  intros H K L. assert (NP : INR N <> 0) by (apply not_0_INR; lia).
  rewrite (sum_ext _ _ (fun m => / 2 * cos (2 * PI * IZR (Z.of_nat m * (Z.of_nat k - Z.of_nat l)) / INR N) + / 2 * cos (2 * PI * IZR (Z.of_nat m * (Z.of_nat k + Z.of_nat l)) / INR N))).
  2: { intros m _. unfold ang. rewrite !mult_INR, !mult_IZR, minus_IZR, plus_IZR, <- !INR_IZR_INZ. replace (2 * PI * (INR m * (INR k - INR l)) / INR N) with (2 * PI * (INR m * INR k) / INR N - 2 * PI * (INR m * INR l) / INR N) by (field; exact NP). replace (2 * PI * (INR m * (INR k + INR l)) / INR N) with (2 * PI * (INR m * INR k) / INR N + 2 * PI * (INR m * INR l) / INR N) by (field; exact NP). rewrite cos_minus, cos_plus. field. }
  rewrite sum_lin, !cos_sum by exact H. assert (E1 : ((Z.of_nat k - Z.of_nat l) mod Z.of_nat N =? 0)%Z = (k =? l)%nat).
  { destruct (Nat.eqb_spec k l) as [->|NE]; [rewrite Z.sub_diag, Z.mod_0_l by lia; reflexivity|]. apply Z.eqb_neq. intros Q. apply Z.mod_divide in Q; [|lia]. destruct Q as [z Q]. assert (z = 0 \/ z <= -1 \/ z >= 1)%Z as [->|[G|G]] by lia; [lia|nia|nia]. }
  assert (E2 : ((Z.of_nat k + Z.of_nat l) mod Z.of_nat N =? 0)%Z = ((k + l =? 0) || (k + l =? N))%nat).
  { destruct (Nat.eqb_spec (k + l) 0) as [Q0|N0]; [replace (Z.of_nat k + Z.of_nat l)%Z with 0%Z by lia; rewrite Z.mod_0_l by lia; reflexivity|]. destruct (Nat.eqb_spec (k + l) N) as [QN|NN]; [replace (Z.of_nat k + Z.of_nat l)%Z with (Z.of_nat N) by lia; rewrite Z.mod_same by lia; reflexivity|]. apply Z.eqb_neq. intros Q. apply Z.mod_divide in Q; [|lia]. destruct Q as [z Q]. assert (z <= 0 \/ z = 1 \/ z >= 2)%Z as [G|[->|G]] by lia; [nia|lia|nia]. }
  rewrite E1, E2. destruct (k =? l)%nat; destruct ((k + l =? 0)%nat || (k + l =? N)%nat); field.
Qed.
(* the inverse transform of the real part of a transform *)
Definition power (N : nat) (c : nat -> R) (m : nat) : R := sum_to N (fun k => c k * cos (ang N m k)).
Lemma inverse_cos N c l : (0 < N)%nat -> (l < N)%nat -> sum_to N (fun m => power N c m * cos (ang N m l)) / INR N = if (l =? 0)%nat then c 0%nat else (c l + c (N - l)%nat) / 2.
Proof.
  intros H L. assert (NP : INR N <> 0) by (apply not_0_INR; lia). unfold power.
  rewrite (sum_ext _ _ (fun m => sum_to N (fun k => c k * (cos (ang N m k) * cos (ang N m l))))). 2: { intros m _. rewrite Rmult_comm, <- sum_scal. apply sum_ext. intros; ring. }
  rewrite sum_swap. rewrite (sum_ext _ _ (fun k => INR N / 2 * (c k * (if (k =? l)%nat then 1 else 0)) + INR N / 2 * (c k * (if (k + l =? 0)%nat || (k + l =? N)%nat then 1 else 0)))). 2: { intros k K. rewrite sum_scal, cos_cos_sum by assumption. ring. }
  rewrite sum_lin. rewrite (sum_pick N l (fun k => c k * (if (k =? l)%nat then 1 else 0))) by (exact L || (intros i I NE; destruct (Nat.eqb_spec i l); [contradiction|ring])). rewrite Nat.eqb_refl. destruct (Nat.eqb_spec l 0) as [->|NL].
  - rewrite (sum_pick N 0 (fun k => c k * (if (k + 0 =? 0)%nat || (k + 0 =? N)%nat then 1 else 0))) by (exact H || (intros i I NE; destruct (Nat.eqb_spec (i + 0) 0); [lia|]; destruct (Nat.eqb_spec (i + 0) N); [lia|]; cbn; ring)). cbn [Nat.add Nat.eqb orb]. field. exact NP.
  - rewrite (sum_pick N (N - l) (fun k => c k * (if (k + l =? 0)%nat || (k + l =? N)%nat then 1 else 0))) by (lia || (intros i I NE; destruct (Nat.eqb_spec (i + l) 0); [lia|]; destruct (Nat.eqb_spec (i + l) N); [lia|]; cbn; ring)). replace (N - l + l)%nat with N by lia. rewrite (Nat.eqb_refl N), orb_true_r. field. exact NP.
Qed.
Lemma ang_refl N m k : (0 < N)%nat -> (m <= N)%nat -> cos (ang N (N - m) k) = cos (ang N m k) /\ sin (ang N (N - m) k) = - sin (ang N m k).
Proof.
  intros H M. assert (NP : INR N <> 0) by (apply not_0_INR; lia). assert (E : ang N (N - m) k = - ang N m k + 2 * INR k * PI) by (unfold ang; rewrite !mult_INR, minus_INR by exact M; field; exact NP). rewrite E, cos_period, sin_period, cos_neg, sin_neg. split; reflexivity.
Qed.
Lemma power_sym N c m : (0 < N)%nat -> (m <= N)%nat -> power N c (N - m) = power N c m.
Proof. intros H M. apply sum_ext. intros k _. destruct (ang_refl N m k H M) as [-> _]. reflexivity. Qed.
Lemma sin_sum N s l : (0 < N)%nat -> (forall m, (0 < m < N)%nat -> s (N - m)%nat = s m) -> sum_to N (fun m => s m * sin (ang N m l)) = 0.
Proof.
  intros H S. rewrite sum_first by exact H. replace (ang N 0 l) with 0 by (unfold ang; rewrite Nat.mul_0_l; cbn; unfold Rdiv; ring). rewrite sin_0. set (T := sum_to (N - 1) (fun k => s (Datatypes.S k) * sin (ang N (Datatypes.S k) l))). assert (E : T = - T); [|lra].
  unfold T at 1. rewrite sum_rev. rewrite (sum_ext _ _ (fun m => -1 * (s (Datatypes.S m) * sin (ang N (Datatypes.S m) l)))). { rewrite sum_scal. fold T. ring. }
  intros m M. replace (Datatypes.S (N - 1 - 1 - m)) with (N - Datatypes.S m)%nat by lia. rewrite S by lia. destruct (ang_refl N (Datatypes.S m) l H ltac:(lia)) as [_ ->]. ring.
Qed.
(* ---- linear forms ---- *)
Definition form (N : nat) (j : nat) (F G : nat -> R) (d : bool -> nat -> nat -> R) : R := sum_to N (fun m => d false m j * F m + d true m j * G m).
Lemma form_unit N j F G b m k : (m < N)%nat -> form N j F G (unit_at b m k) = if (j =? k)%nat then (if b then G m else F m) else 0.
Proof.
  intros M. unfold form. rewrite (sum_pick N m) by (exact M || (intros i I NE; unfold unit_at; destruct (Nat.eqb_spec m i); [subst; contradiction|]; destruct b; cbn [Bool.eqb andb]; ring)). unfold unit_at. rewrite Nat.eqb_refl, (Nat.eqb_sym k j). destruct b, (j =? k)%nat; cbn [Bool.eqb andb]; ring.
Qed.
Lemma form_linear N c j F G : (j < c)%nat -> linear3 N c (form N j F G).
Proof.
  intros J d. unfold form at 1. apply sum_ext. intros m M. rewrite (sum_pick c j) by (exact J || (intros i I NE; rewrite !form_unit by exact M; destruct (Nat.eqb_spec j i); [subst; contradiction|ring])). rewrite !form_unit by exact M. rewrite Nat.eqb_refl. reflexivity.
Qed.
Lemma form_cov N c j j' F G F' G' : (j < c)%nat -> (j' < c)%nat -> covariance3 N c (form N j F G) (form N j' F' G') = if (j =? j')%nat then sum_to N (fun m => F m * F' m + G m * G' m) else 0.
Proof.
  intros J J'. unfold covariance3. rewrite (sum_ext _ _ (fun m => (if (j =? j')%nat then 1 else 0) * (F m * F' m + G m * G' m))). 2: { intros m M. rewrite (sum_pick c j) by (exact J || (intros i I NE; rewrite !form_unit by exact M; destruct (Nat.eqb_spec j i); [subst; contradiction|ring])). rewrite !form_unit by exact M. rewrite Nat.eqb_refl, (Nat.eqb_sym j' j). destruct (j =? j')%nat; ring. }
  rewrite sum_scal. destruct (j =? j')%nat; ring.
Qed.
