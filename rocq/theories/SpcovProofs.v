From Coq Require Import Reals Lra Lia.
From Coquelicot Require Import Coquelicot.
From Verif Require Import Base PolyModel KdeModel FilterModel GridModel GridSpec DftModel DftProofs ProcSpec ProcProofs CovModel CovSpec CovProofs CovProofs3 CovProofs6 SpcovModel SpcovSpec.
Local Open Scope R_scope.

(* ---- complex sums ---- *)
Lemma csum_split n m f : csum (n + m) f = Cplus (csum n f) (csum m (fun i => f (n + i)%nat)).
Proof. induction m as [|m IH]; [rewrite Nat.add_0_r; cbn [csum]; now rewrite Cplus_0_r|]. rewrite Nat.add_succ_r. cbn [csum]. rewrite IH. now rewrite Cplus_assoc. Qed.
Lemma csum_fst n f : fst (csum n f) = Sum n (fun i => fst (f i)).
Proof. induction n as [|n IH]; [reflexivity|]. rewrite Sum_S, <- IH. reflexivity. Qed.
Lemma csum_rev n f : csum n f = csum n (fun i => f (n - 1 - i)%nat).
Proof.
  induction n as [|n IH]; [reflexivity|]. cbn [csum]. rewrite IH. clear IH.
  change (Cplus (csum n (fun i => f (n - 1 - i)%nat)) (f n) = csum (S n) (fun i => f (S n - 1 - i)%nat)).
  replace (S n) with (1 + n)%nat by lia. rewrite csum_split. cbn [csum]. rewrite Cplus_0_l, Cplus_comm. f_equal; [f_equal; lia|].
  apply csum_ext. intros i Hi. f_equal. lia.
Qed.
Lemma Sum_rev n f : Sum n f = Sum n (fun i => f (n - 1 - i)%nat).
Proof.
  induction n as [|n IH]; [reflexivity|]. rewrite Sum_S. replace (S n) with (1 + n)%nat by lia. rewrite Sum_split. rewrite Rplus_comm. f_equal.
  - rewrite Sum_S, Sum_0. rewrite Rplus_0_l. f_equal. lia.
  - rewrite IH. apply Sum_ext. intros i Hi. f_equal. lia.
Qed.
(* ---- the embedding ---- *)
Lemma slice_at (y : list R) a b i : (a + i < b)%nat -> (b <= List.length y)%nat -> at_R (slice a b y) i = at_R y (a + i).
Proof.
  intros H1 H2. unfold slice, at_R. revert a i y b H1 H2. induction a as [|a IH]; intros i y b H1 H2.
  - cbn. revert i b H1 H2. induction y as [|v y IHy]; intros i b H1 H2; [cbn in H2; lia|]. destruct b; [lia|]. destruct i; [reflexivity|]. cbn. apply IHy; cbn in H2; lia.
  - destruct y as [|v y]; [cbn in H2; lia|]. destruct b as [|b]; [lia|]. cbn. apply IH; cbn in H2; lia.
Qed.
Lemma slice_len (y : list R) a b : (b <= List.length y)%nat -> List.length (slice a b y) = (b - a)%nat.
Proof. intros H. unfold slice. rewrite skipn_length, firstn_length. lia. Qed.
Lemma embed_length N x y n : List.length x = n -> List.length y = n -> (1 <= n)%nat -> (2 * n - 2 <= N)%nat -> (n = 1 -> 1 <= N)%nat -> (2 <= n -> List.length (embed N x y) = N)%nat.
Proof. intros Hx Hy Hn HN _ Hn2. unfold embed. rewrite Hx, !app_length, repeat_length, rev_length, slice_len by lia. lia. Qed.
Lemma embed_low N x y n j : List.length x = n -> (j < n)%nat -> at_R (embed N x y) j = at_R x j.
Proof. intros Hx Hj. unfold embed, at_R. rewrite app_nth1 by lia. reflexivity. Qed.
Lemma embed_mid N x y n j : List.length x = n -> List.length y = n -> (2 <= n)%nat -> (2 * n - 2 <= N)%nat -> (n <= j < N + 2 - n)%nat -> at_R (embed N x y) j = 0.
Proof.
  intros Hx Hy Hn HN Hj. unfold embed, at_R. rewrite Hx, app_nth2 by lia. rewrite app_nth1 by (rewrite repeat_length; lia). apply nth_repeat.
Qed.
Lemma embed_high N x y n j : List.length x = n -> List.length y = n -> (2 <= n)%nat -> (2 * n - 2 <= N)%nat -> (1 <= j <= n - 2)%nat -> at_R (embed N x y) (N - j) = at_R y j.
Proof.
  intros Hx Hy Hn HN Hj. unfold embed, at_R. rewrite Hx, app_nth2 by lia. rewrite app_nth2 by (rewrite repeat_length; lia). rewrite repeat_length.
  rewrite rev_nth by (rewrite slice_len; lia). rewrite slice_len by lia.
  transitivity (at_R (slice 1 (n - 1) y) (j - 1)); [unfold at_R; f_equal; lia|]. rewrite slice_at by lia. unfold at_R. f_equal. lia.
Qed.

(* ---- a sequence with conjugate symmetry ---- *)
Lemma cis_conj t : Cconj (cis t) = cis (- t).
Proof. unfold Cconj, cis; cbn. now rewrite cos_neg, sin_neg. Qed.
Lemma zeta_period N a b : (0 < N)%nat -> zeta N (a + Z.of_nat N * b) = zeta N a.
Proof. intros H. rewrite zeta_add, zeta_multiple by easy. apply Cmult_1_r. Qed.
Lemma symmetric_fft N n X k : (2 <= n)%nat -> (2 * n - 2 <= N)%nat ->
  (forall j, (n <= j < N + 2 - n)%nat -> X j = RtoC 0) -> (forall j, (1 <= j <= n - 2)%nat -> X (N - j)%nat = Cconj (X j)) ->
  fst (fft N X k) = fst (X 0%nat) + 2 * Sum (n - 2) (fun i => fst (Cmult (X (S i)) (zeta N (Z.of_nat k * - Z.of_nat (S i)))))
                    + fst (Cmult (X (n - 1)%nat) (zeta N (Z.of_nat k * - Z.of_nat (n - 1)))).
Proof.
  intros Hn HN Hmid Hhigh. assert (HN0 : (0 < N)%nat) by lia. unfold fft. rewrite csum_fst.
  set (g := fun j => fst (Cmult (X j) (zeta N (Z.of_nat k * - Z.of_nat j)))).
  rewrite (Sum_ext N _ g) by (intros; unfold g; now rewrite cis_zeta_neg).
  replace N with (1 + ((n - 2) + (1 + ((N + 2 - 2 * n) + (n - 2)))))%nat at 1 by lia. rewrite !Sum_split.
  rewrite (Sum_ext 1 g (fun _ => fst (X 0%nat))).
  2:{ intros i Hi. replace i with 0%nat by lia. unfold g. cbn [Z.of_nat Z.opp]. rewrite Z.mul_0_r, zeta_0. now rewrite Cmult_1_r. }
  assert (E1 : Sum (N + 2 - 2 * n) (fun i => g (1 + (n - 2 + (1 + i)))%nat) = 0).
  { rewrite (Sum_ext _ _ (fun _ => 0)); [apply Sum_zero|]. intros i Hi. unfold g. rewrite Hmid by lia. rewrite Cmult_0_l. reflexivity. }
  rewrite E1.
  assert (E2 : Sum (n - 2) (fun i => g (1 + (n - 2 + (1 + (N + 2 - 2 * n + i))))%nat) = Sum (n - 2) (fun i => g (1 + i)%nat)).
  { rewrite Sum_rev. apply Sum_ext. intros i Hi. unfold g.
    replace (1 + (n - 2 + (1 + (N + 2 - 2 * n + (n - 2 - 1 - i)))))%nat with (N - (S i))%nat by lia. rewrite Hhigh by lia.
    replace (Z.of_nat k * - Z.of_nat (N - S i))%Z with (- (Z.of_nat k * - Z.of_nat (1 + i)) + Z.of_nat N * - Z.of_nat k)%Z by lia.
    rewrite zeta_period by easy. rewrite <- Cconj_zeta, <- Cconj_mult. reflexivity. }
  rewrite E2. rewrite (Sum_S 0), Sum_0. cbn [Nat.add]. rewrite (Sum_S 0), Sum_0.
  change (Sum (n - 2) (fun i => fst (Cmult (X (S i)) (zeta N (Z.of_nat k * - Z.of_nat (S i)))))) with (Sum (n - 2) (fun i => g (S i))).
  unfold g at 2. replace (S (n - 2 + 0))%nat with (n - 1)%nat by lia. ring.
Qed.
