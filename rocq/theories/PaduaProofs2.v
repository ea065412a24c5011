From Coq Require Import Reals Lra Lia Psatz.
From Coquelicot Require Import Complex.
From Verif Require Import Base PolyModel KdeModel OrthoModel OrthoProofs ChebSpec ChebProofs ChebProofs2 ChebProofs3 DftModel DftProofs ProcModel PaduaModel PaduaSpec PaduaProofs.
Local Open Scope R_scope.

Definition edge (n j : nat) : R := if (j =? 0)%nat then 1 / 2 else if (j =? n)%nat then 1 / 2 else 1.
Definition theta (n j : nat) : R := INR j * PI / INR n.
Definition trap (n a : nat) : R := vsum (n + 1) (fun j => edge n j * cos (INR a * theta n j)).

Lemma trap_D n a : (1 <= n)%nat -> trap n a = D n (PI * INR a / INR n) + (-1) ^ a / 2.
Proof.
  intros Hn. unfold trap. replace (n + 1)%nat with (S n) by lia. cbn [vsum]. assert (0 < INR n) by (apply lt_0_INR; lia). f_equal.
  - unfold D. apply vsum_ext. intros k Hk. f_equal.
    + unfold edge. destruct k; [reflexivity|]. cbn [Nat.eqb]. assert ((S k =? n)%nat = false) as E by (apply Nat.eqb_neq; lia). cbn [Nat.eqb] in E. now rewrite E.
    + f_equal. unfold theta. field. lra.
  - unfold edge, theta. rewrite Nat.eqb_refl. assert ((n =? 0)%nat = false) as -> by (apply Nat.eqb_neq; lia). replace (INR a * (INR n * PI / INR n)) with (INR a * PI) by (field; lra). rewrite cos_int. field.
Qed.
Lemma trap_0 n : (1 <= n)%nat -> trap n 0 = INR n.
Proof. intros Hn. rewrite trap_D by easy. cbn [INR pow]. unfold Rdiv at 1. rewrite Rmult_0_r, Rmult_0_l, D_0 by lia. field. Qed.
Lemma trap_small n a : (0 < a)%nat -> (a < 2 * n)%nat -> trap n a = 0.
Proof. intros A B. rewrite trap_D, D_node by lia. field. Qed.
Lemma trap_period n a : (1 <= n)%nat -> trap n (a + 2 * n) = trap n a.
Proof.
  intros Hn. apply vsum_ext. intros j _. f_equal. rewrite plus_INR, mult_INR. assert (0 < INR n) by (apply lt_0_INR; lia). change (INR 2) with 2.
  replace ((INR a + 2 * INR n) * theta n j) with (INR a * theta n j + 2 * INR j * PI) by (unfold theta; field; lra). apply cos_period.
Qed.
Lemma trap_value n a : (1 <= n)%nat -> (a < 4 * n)%nat -> trap n a = if ((a =? 0) || (a =? 2 * n))%nat%bool then INR n else 0.
Proof.
  intros Hn Ha. destruct (Nat.eqb_spec a 0) as [->|A]; [now rewrite trap_0|]. cbn [orb]. destruct (Nat.eqb_spec a (2 * n)) as [->|B]; [rewrite <- (trap_0 n) by easy; apply (trap_period n 0); easy|].
  destruct (Nat.lt_ge_cases a (2 * n)) as [L|L]; [apply trap_small; lia|]. replace a with ((a - 2 * n) + 2 * n)%nat by lia. rewrite trap_period by easy. apply trap_small; lia.
Qed.

Definition parity (i j : nat) : R := if Nat.odd (i + j) then 1 else 0.
Lemma parity_pow i j : parity i j = (1 - (-1) ^ j * (-1) ^ i) / 2.
Proof.
  unfold parity. rewrite <- pow_add. destruct (Nat.odd (i + j)) eqn:O.
  - apply Nat.odd_spec in O as (h & O). replace (j + i)%nat with (S (2 * h)) by lia. rewrite pow_1_odd. field.
  - assert (E : Nat.even (i + j) = true) by (unfold Nat.odd in O; now apply Bool.negb_false_iff in O). apply Nat.even_spec in E as (h & E). replace (j + i)%nat with (2 * h)%nat by lia. rewrite pow_1_even. field.
Qed.
Lemma alternate n a j : (1 <= n)%nat -> (-1) ^ j * cos (INR a * theta n j) = cos (INR (a + n) * theta n j).
Proof.
  intros Hn. assert (0 < INR n) by (apply lt_0_INR; lia). rewrite plus_INR. replace ((INR a + INR n) * theta n j) with (INR a * theta n j + INR j * PI) by (unfold theta; field; lra).
  rewrite cos_plus, sin_int, cos_int. ring.
Qed.
(* sum over the points of the grid *)
Definition over (n : nat) (F : nat -> nat -> R) : R := vsum (n + 1) (fun j => vsum (n + 2) (fun i => parity i j * (edge n j * edge (n + 1) i) * F j i)).
Lemma over_ext n F G : (forall j i, (j <= n)%nat -> (i <= n + 1)%nat -> Nat.odd (i + j) = true -> F j i = G j i) -> over n F = over n G.
Proof.
  intros H. apply vsum_ext. intros j Hj. apply vsum_ext. intros i Hi. unfold parity. destruct (Nat.odd (i + j)) eqn:O; [rewrite (H j i) by (easy || lia); reflexivity|ring].
Qed.
Lemma over_add n F G : over n (fun j i => F j i + G j i) = over n F + over n G.
Proof. unfold over. rewrite <- vsum_add. apply vsum_ext. intros j _. rewrite <- vsum_add. apply vsum_ext. intros i _. ring. Qed.
Lemma over_scal n c F : over n (fun j i => c * F j i) = c * over n F.
Proof. unfold over. rewrite <- vsum_scal. apply vsum_ext. intros j _. rewrite <- vsum_scal. apply vsum_ext. intros i _. ring. Qed.
Lemma vsum_prod N M f g : vsum N (fun j => vsum M (fun i => f j * g i)) = vsum N f * vsum M g.
Proof. rewrite Rmult_comm, <- vsum_scal. apply vsum_ext. intros j _. rewrite vsum_scal. ring. Qed.
Lemma over_cos n a b : (1 <= n)%nat -> over n (fun j i => cos (INR a * theta n j) * cos (INR b * theta (n + 1) i)) = / 2 * (trap n a * trap (n + 1) b - trap n (a + n) * trap (n + 1) (b + (n + 1))).
Proof.
  intros Hn. unfold trap. replace (n + 1 + 1)%nat with (n + 2)%nat by lia. rewrite <- !vsum_prod. unfold over. rewrite <- vsum_sub, <- vsum_scal. apply vsum_ext. intros j _. rewrite <- vsum_sub, <- vsum_scal. apply vsum_ext. intros i _.
  rewrite parity_pow, <- (alternate n a j), <- (alternate (n + 1) b i) by lia. field.
Qed.
Lemma over_low n a b : (1 <= n)%nat -> (a + b <= 2 * n)%nat ->
  over n (fun j i => cos (INR a * theta n j) * cos (INR b * theta (n + 1) i)) = INR n * (INR n + 1) / 2 * ((if ((a =? 0) || (a =? 2 * n))%nat%bool then 1 else 0) * (if (b =? 0)%nat then 1 else 0)).
Proof.
  intros Hn Hab. rewrite over_cos by easy. rewrite (trap_value n a), (trap_value (n + 1) b), (trap_value n (a + n)), (trap_value (n + 1) (b + (n + 1))) by lia.
  rewrite plus_INR. change (INR 1) with 1.
  assert ((b =? 2 * (n + 1))%nat = false) as -> by (apply Nat.eqb_neq; lia). assert ((a + n =? 0)%nat = false) as -> by (apply Nat.eqb_neq; lia). assert ((b + (n + 1) =? 0)%nat = false) as -> by (apply Nat.eqb_neq; lia). cbn [orb]. rewrite Bool.orb_false_r.
  assert (Z : (if (a + n =? 2 * n)%nat then INR n else 0) * (if (b + (n + 1) =? 2 * (n + 1))%nat then INR n + 1 else 0) = 0).
  { destruct (Nat.eqb_spec (a + n) (2 * n)); [|ring]. destruct (Nat.eqb_spec (b + (n + 1)) (2 * (n + 1))); [lia|ring]. }
  rewrite Z. destruct ((a =? 0) || (a =? 2 * n))%nat%bool, (b =? 0)%nat; field.
Qed.
Definition gap (a b : nat) : nat := (Nat.max a b - Nat.min a b)%nat.
Lemma gap_abs a b x : cos ((INR a - INR b) * x) = cos (INR (gap a b) * x).
Proof.
  unfold gap. destruct (Nat.le_gt_cases b a).
  - rewrite Nat.max_l, Nat.min_r by lia. now rewrite minus_INR by lia.
  - rewrite Nat.max_r, Nat.min_l by lia. rewrite minus_INR by lia. rewrite <- cos_neg. f_equal. ring.
Qed.
Lemma cos_product a b x : cos (INR a * x) * cos (INR b * x) = / 2 * (cos (INR (a + b) * x) + cos (INR (gap a b) * x)).
Proof. rewrite <- gap_abs, plus_INR, Rmult_plus_distr_r, Rmult_minus_distr_r, cos_plus, cos_minus. field. Qed.
Definition same (k k' : nat) : R := if (k =? k')%nat then 1 else 0.
Lemma orthogonality n k l k' l' : (1 <= n)%nat -> (k + l <= n)%nat -> (k' + l' <= n)%nat ->
  over n (fun j i => (cos (INR k * theta n j) * cos (INR l * theta (n + 1) i)) * (cos (INR k' * theta n j) * cos (INR l' * theta (n + 1) i)))
  = INR n * (INR n + 1) / 8 * (same k k' * (1 + same k 0 + same k n)) * (same l l' * (1 + same l 0)).
Proof.
  intros Hn H H'.
  assert (E : over n (fun j i => (cos (INR k * theta n j) * cos (INR l * theta (n + 1) i)) * (cos (INR k' * theta n j) * cos (INR l' * theta (n + 1) i)))
    = / 4 * (over n (fun j i => cos (INR (k + k') * theta n j) * cos (INR (l + l') * theta (n + 1) i)) + over n (fun j i => cos (INR (k + k') * theta n j) * cos (INR (gap l l') * theta (n + 1) i))
             + over n (fun j i => cos (INR (gap k k') * theta n j) * cos (INR (l + l') * theta (n + 1) i)) + over n (fun j i => cos (INR (gap k k') * theta n j) * cos (INR (gap l l') * theta (n + 1) i)))).
  { rewrite <- !over_add, <- over_scal. apply over_ext. intros j i _ _ _.
    transitivity ((cos (INR k * theta n j) * cos (INR k' * theta n j)) * (cos (INR l * theta (n + 1) i) * cos (INR l' * theta (n + 1) i))); [ring|]. rewrite !cos_product. field. }
  rewrite E. unfold gap. rewrite !over_low by lia. unfold same.
  destruct (Nat.eqb_spec k k') as [->|K]; destruct (Nat.eqb_spec l l') as [->|L].
  - assert ((Nat.max k' k' - Nat.min k' k' =? 0)%nat = true) as -> by (apply Nat.eqb_eq; lia). assert ((Nat.max l' l' - Nat.min l' l' =? 0)%nat = true) as -> by (apply Nat.eqb_eq; lia). cbn [orb].
    replace (k' + k' =? 0)%nat with (k' =? 0)%nat by (destruct k'; reflexivity). replace (l' + l' =? 0)%nat with (l' =? 0)%nat by (destruct l'; reflexivity).
    replace (k' + k' =? 2 * n)%nat with (k' =? n)%nat by (destruct (Nat.eqb_spec k' n), (Nat.eqb_spec (k' + k') (2 * n)); lia || reflexivity).
    destruct (Nat.eqb_spec k' 0); destruct (Nat.eqb_spec k' n); try lia; destruct (Nat.eqb_spec l' 0); cbn [orb]; field.
  - assert ((l + l' =? 0)%nat = false) as -> by (apply Nat.eqb_neq; lia). assert ((Nat.max l l' - Nat.min l l' =? 0)%nat = false) as -> by (apply Nat.eqb_neq; lia). ring.
  - assert ((k + k' =? 0)%nat = false) as -> by (apply Nat.eqb_neq; lia). assert ((k + k' =? 2 * n)%nat = false) as -> by (apply Nat.eqb_neq; lia).
    assert ((Nat.max k k' - Nat.min k k' =? 0)%nat = false) as -> by (apply Nat.eqb_neq; lia). assert ((Nat.max k k' - Nat.min k k' =? 2 * n)%nat = false) as -> by (apply Nat.eqb_neq; lia). cbn [orb]. ring.
  - assert ((l + l' =? 0)%nat = false) as -> by (apply Nat.eqb_neq; lia). assert ((Nat.max l l' - Nat.min l l' =? 0)%nat = false) as -> by (apply Nat.eqb_neq; lia). ring.
Qed.

(* ---- the transforms ---- *)
Lemma csum_Re n f : Re (csum n f) = vsum n (fun j => Re (f j)).
Proof. induction n; [reflexivity|]. cbn [csum vsum]. rewrite <- IHn. reflexivity. Qed.
Lemma vsum_short N len f : (len <= N)%nat -> vsum N (fun j => if (j <? len)%nat then f j else 0) = vsum len f.
Proof.
  induction 1 as [|N L IH].
  - apply vsum_ext. intros k Hk. apply Nat.ltb_lt in Hk. now rewrite Hk.
  - cbn [vsum]. rewrite IH. assert ((N <? len)%nat = false) as -> by (apply Nat.ltb_ge; lia). ring.
Qed.
Lemma real_fft_value n len x k : (1 <= n)%nat -> (len <= 2 * n)%nat -> real_fft (2 * n) len x k = vsum len (fun j => x j * cos (INR k * theta n j)).
Proof.
  intros Hn L. assert (0 < INR n) by (apply lt_0_INR; lia). unfold real_fft, fft. rewrite csum_Re. rewrite <- (vsum_short (2 * n) len) by easy. apply vsum_ext. intros j _.
  unfold Re, Cmult, cis, RtoC. cbn [fst snd]. rewrite cos_neg, mult_INR, (mult_INR 2 n). change (INR 2) with 2.
  replace (2 * PI * (INR k * INR j) / (2 * INR n)) with (INR k * theta n j) by (unfold theta; field; lra).
  destruct (j <? len)%nat; ring.
Qed.
Lemma sqrt2 : 0 < sqrt 2 /\ sqrt 2 * sqrt 2 = 2.
Proof. split; [apply sqrt_lt_R0; lra|apply sqrt_sqrt; lra]. Qed.
Lemma INR_floor z k : 0 <= INR k - z + 1 -> z < INR k + 1 -> INR k <= z -> floor z = Z.of_nat k.
Proof.
  intros _ B A. unfold floor. pose proof (base_Int_part z) as (P & Q). rewrite INR_IZR_INZ in A, B. set (m := Int_part z) in *.
  assert (m < Z.of_nat k + 1)%Z by (apply lt_IZR; rewrite plus_IZR; change (IZR 1) with 1; lra). assert (Z.of_nat k - 1 < m)%Z by (apply lt_IZR; rewrite minus_IZR; change (IZR 1) with 1; lra). lia.
Qed.
Lemma triangle_even n : (2 * ((n + 1) * (n + 2) / 2) = (n + 1) * (n + 2))%nat.
Proof.
  destruct (Nat.Even_or_Odd n) as [(h & ->)|(h & ->)].
  - replace ((2 * h + 1) * (2 * h + 2))%nat with ((2 * h + 1) * (h + 1) * 2)%nat by lia. rewrite Nat.div_mul by lia. lia.
  - replace ((2 * h + 1 + 1) * (2 * h + 1 + 2))%nat with ((h + 1) * (2 * h + 3) * 2)%nat by lia. rewrite Nat.div_mul by lia. lia.
Qed.
Lemma degree_points n : degree_of ((n + 1) * (n + 2) / 2) = n.
Proof.
  unfold degree_of. set (N := ((n + 1) * (n + 2) / 2)%nat). assert (E : 1 + 8 * INR N = (2 * INR n + 3) ^ 2).
  { assert (2 * INR N = (INR n + 1) * (INR n + 2)). { change 2 with (INR 2). rewrite <- mult_INR. unfold N. rewrite triangle_even, mult_INR, !plus_INR. reflexivity. } lra. }
  rewrite E, sqrt_pow2 by (pose proof (pos_INR n); lra).
  rewrite (INR_floor (-3 + (2 * INR n + 3) + 1 / 2) (2 * n)) by (rewrite mult_INR; change (INR 2) with 2; lra).
  rewrite <- INR_IZR_INZ, mult_INR. change (INR 2) with 2. rewrite (INR_floor (2 * INR n / 2) n) by lra. apply Nat2Z.id.
Qed.
Lemma upd_at (a : list R) i x k : (i < List.length a)%nat -> at_R (upd a i x) k = if (k =? i)%nat then x else at_R a k.
Proof.
  unfold upd, at_R. intros H. destruct (Nat.eqb_spec k i) as [->|N].
  - rewrite app_nth2 by (rewrite firstn_length; lia). rewrite firstn_length, Nat.min_l, Nat.sub_diag by lia. reflexivity.
  - destruct (Nat.lt_ge_cases k i) as [L|L].
    + rewrite app_nth1 by (rewrite firstn_length; lia). rewrite <- (firstn_skipn i a) at 2. rewrite app_nth1 by (rewrite firstn_length; lia). reflexivity.
    + rewrite app_nth2 by (rewrite firstn_length; lia). rewrite firstn_length, Nat.min_l by lia. destruct (k - i)%nat as [|m] eqn:E; [lia|]. cbn [nth].
      rewrite <- (firstn_skipn (S i) a) at 2. rewrite app_nth2; rewrite firstn_length, Nat.min_l by lia; [|lia]. f_equal. lia.
Qed.
Lemma upd_length {A} (a : list A) i x : (i < List.length a)%nat -> List.length (upd a i x) = List.length a.
Proof. unfold upd. intros H. rewrite app_length, firstn_length. cbn [List.length]. rewrite skipn_length. lia. Qed.
Lemma scatter_at g : forall ix a k, (forall i, In i ix -> (i < List.length a)%nat) -> at_R (scatter a ix (map g ix)) k = if existsb (Nat.eqb k) ix then g k else at_R a k.
Proof.
  induction ix as [|i ix IH]; intros a k H; [reflexivity|]. cbn [map scatter existsb]. rewrite IH by (intros m I; rewrite upd_length by (apply H; now left); apply H; now right).
  rewrite upd_at by (apply H; now left). destruct (existsb (Nat.eqb k) ix); [now rewrite Bool.orb_true_r|]. rewrite Bool.orb_false_r. destruct (Nat.eqb_spec k i) as [->|]; reflexivity.
Qed.
