(* Discrete orthogonality under the trapezoidal rule. *)
From Coq Require Import Reals List ZArith Lra Lia.
From Coquelicot Require Import Complex.
From Verif Require Import Base PolyModel TransModel OrthoModel OrthoProofs ChebProofs3 DftModel DftProofs PaduaProofs2 FourModel FourSpec.
Import ListNotations.
Local Open Scope R_scope.

Lemma sum_vsum n f : sum n f = vsum n f. Proof. reflexivity. Qed.
Lemma csum_Im n f : Im (csum n f) = vsum n (fun j => Im (f j)).
Proof. induction n as [|n IH]; [reflexivity|]. cbn [csum vsum]. rewrite <- IH. reflexivity. Qed.
(* sums of cos and sin of z alpha_j, alpha_j = phi + 2 pi q j / N *)
Lemma unit_sum N q (z : Z) phi : (0 < N)%nat -> (z <> 0)%Z -> (Z.abs z * Z.of_nat q < Z.of_nat N)%Z -> (0 < q)%nat ->
  vsum N (fun j => cos (IZR z * (phi + 2 * PI * INR q * INR j / INR N))) = 0 /\ vsum N (fun j => sin (IZR z * (phi + 2 * PI * INR q * INR j / INR N))) = 0.
Proof.
  intros HN Hz B Hq. pose proof (orthogonal N (z * Z.of_nat q) HN) as O.
  destruct (Z.eqb_spec ((z * Z.of_nat q) mod Z.of_nat N) 0) as [E|E].
  { exfalso. apply Z.mod_divide in E; [|lia]. destruct E as [k E]. assert (k = 0 \/ 1 <= Z.abs k)%Z as [->|C] by lia; [nia|]. assert (Z.abs (z * Z.of_nat q) = Z.abs k * Z.of_nat N)%Z by (rewrite E, Z.abs_mul; lia). rewrite Z.abs_mul in H. nia. }
  assert (P : 0 < INR N) by (apply lt_0_INR; exact HN).
  assert (Q : csum N (fun j => cis (IZR z * (phi + 2 * PI * INR q * INR j / INR N))) = RtoC 0).
  { transitivity (Cmult (cis (IZR z * phi)) (csum N (fun k => zeta N (Z.of_nat k * (z * Z.of_nat q))))); [|rewrite O; apply injective_projections; cbn; ring].
    rewrite <- csum_mul. apply csum_ext. intros j _. unfold zeta. rewrite <- cis_add. f_equal. rewrite !mult_IZR, <- !INR_IZR_INZ. field. lra. }
  split.
  - pose proof (csum_Re N (fun j => cis (IZR z * (phi + 2 * PI * INR q * INR j / INR N)))) as H. rewrite Q in H. symmetry. exact H.
  - pose proof (csum_Im N (fun j => cis (IZR z * (phi + 2 * PI * INR q * INR j / INR N)))) as H. rewrite Q in H. symmetry. exact H.
Qed.
Lemma prod_cc a b : cos a * cos b = / 2 * (cos (a - b) + cos (a + b)). Proof. rewrite cos_minus, cos_plus. field. Qed.
Lemma prod_sc a b : sin a * cos b = / 2 * (sin (a - b) + sin (a + b)). Proof. rewrite sin_minus, sin_plus. field. Qed.
Lemma prod_ss a b : sin a * sin b = / 2 * (cos (a - b) - cos (a + b)). Proof. rewrite cos_minus, cos_plus. field. Qed.

Definition al (N q : nat) (phi : R) (j : nat) : R := phi + 2 * PI * INR q * INR j / INR N.
Lemma cc N q phi k i : (0 < N)%nat -> (0 < q)%nat -> (q * (k + i) < N)%nat -> (1 <= k)%nat -> (1 <= i)%nat ->
  vsum N (fun j => cos (INR k * al N q phi j) * cos (INR i * al N q phi j)) = if Nat.eq_dec k i then INR N / 2 else 0.
Proof.
  intros HN Hq B Hk Hi. rewrite (vsum_ext N _ (fun j => / 2 * (cos (IZR (Z.of_nat k - Z.of_nat i) * al N q phi j) + cos (IZR (Z.of_nat k + Z.of_nat i) * al N q phi j)))).
  2:{ intros j _. rewrite prod_cc, minus_IZR, plus_IZR, <- !INR_IZR_INZ. do 2 f_equal; f_equal; ring. }
  rewrite vsum_scal, vsum_add. unfold al. rewrite (proj1 (unit_sum N q (Z.of_nat k + Z.of_nat i) phi HN ltac:(lia) ltac:(nia) Hq)). destruct (Nat.eq_dec k i) as [->|NE].
  - rewrite Z.sub_diag. rewrite (vsum_ext N _ (fun _ => 1)) by (intros; rewrite Rmult_0_l; apply cos_0). rewrite vsum_one. field.
  - rewrite (proj1 (unit_sum N q (Z.of_nat k - Z.of_nat i) phi HN ltac:(lia) ltac:(nia) Hq)). field.
Qed.
Lemma ss N q phi k i : (0 < N)%nat -> (0 < q)%nat -> (q * (k + i) < N)%nat -> (1 <= k)%nat -> (1 <= i)%nat ->
  vsum N (fun j => sin (INR k * al N q phi j) * sin (INR i * al N q phi j)) = if Nat.eq_dec k i then INR N / 2 else 0.
Proof.
  intros HN Hq B Hk Hi. rewrite (vsum_ext N _ (fun j => / 2 * (cos (IZR (Z.of_nat k - Z.of_nat i) * al N q phi j) - cos (IZR (Z.of_nat k + Z.of_nat i) * al N q phi j)))).
  2:{ intros j _. rewrite prod_ss, minus_IZR, plus_IZR, <- !INR_IZR_INZ. do 2 f_equal; f_equal; ring. }
  rewrite vsum_scal, vsum_sub. unfold al. rewrite (proj1 (unit_sum N q (Z.of_nat k + Z.of_nat i) phi HN ltac:(lia) ltac:(nia) Hq)). destruct (Nat.eq_dec k i) as [->|NE].
  - rewrite Z.sub_diag. rewrite (vsum_ext N _ (fun _ => 1)) by (intros; rewrite Rmult_0_l; apply cos_0). rewrite vsum_one. field.
  - rewrite (proj1 (unit_sum N q (Z.of_nat k - Z.of_nat i) phi HN ltac:(lia) ltac:(nia) Hq)). field.
Qed.
Lemma sc N q phi k i : (0 < N)%nat -> (0 < q)%nat -> (q * (k + i) < N)%nat -> (1 <= k)%nat -> (1 <= i)%nat ->
  vsum N (fun j => sin (INR k * al N q phi j) * cos (INR i * al N q phi j)) = 0.
Proof.
  intros HN Hq B Hk Hi. rewrite (vsum_ext N _ (fun j => / 2 * (sin (IZR (Z.of_nat k - Z.of_nat i) * al N q phi j) + sin (IZR (Z.of_nat k + Z.of_nat i) * al N q phi j)))).
  2:{ intros j _. rewrite prod_sc, minus_IZR, plus_IZR, <- !INR_IZR_INZ. do 2 f_equal; f_equal; ring. }
  rewrite vsum_scal, vsum_add. unfold al. rewrite (proj2 (unit_sum N q (Z.of_nat k + Z.of_nat i) phi HN ltac:(lia) ltac:(nia) Hq)). destruct (Nat.eq_dec k i) as [->|NE].
  - rewrite Z.sub_diag. rewrite (vsum_ext N _ (fun _ => 0)) by (intros; rewrite Rmult_0_l; apply sin_0). rewrite vsum_0 by reflexivity. field.
  - rewrite (proj2 (unit_sum N q (Z.of_nat k - Z.of_nat i) phi HN ltac:(lia) ltac:(nia) Hq)). field.
Qed.
Lemma c1 N q phi i : (0 < N)%nat -> (0 < q)%nat -> (q * i < N)%nat -> (1 <= i)%nat -> vsum N (fun j => cos (INR i * al N q phi j)) = 0 /\ vsum N (fun j => sin (INR i * al N q phi j)) = 0.
Proof. intros HN Hq B Hi. unfold al. pose proof (unit_sum N q (Z.of_nat i) phi HN ltac:(lia) ltac:(nia) Hq) as U. rewrite <- INR_IZR_INZ in U. exact U. Qed.
(* the sampled series as a function of j *)
Definition ser (c s : nat -> R) (K N q : nat) (phi : R) (j : nat) : R := c 0%nat / 2 + vsum K (fun k => c (S k) * cos (INR (S k) * al N q phi j) + s (S k) * sin (INR (S k) * al N q phi j)).
Lemma pick_S K i (g : nat -> R) : (1 <= i)%nat -> vsum K (fun k => if Nat.eq_dec (S k) i then g (S k) else 0) = if (i <=? K)%nat then g i else 0.
Proof.
  intros Hi. induction K as [|K IH]; [destruct (Nat.leb_spec i 0); [lia|reflexivity]|]. cbn [vsum]. rewrite IH. destruct (Nat.eq_dec (S K) i) as [E|E].
  - subst i. destruct (Nat.leb_spec (S K) K); [lia|]. destruct (Nat.leb_spec (S K) (S K)); [ring|lia].
  - destruct (Nat.leb_spec i K), (Nat.leb_spec i (S K)); try lia; ring.
Qed.
Lemma proj_cos c s K N q phi i : (0 < N)%nat -> (0 < q)%nat -> (q * (K + i) < N)%nat -> (1 <= i)%nat -> vsum N (fun j => ser c s K N q phi j * cos (INR i * al N q phi j)) = INR N / 2 * (if (i <=? K)%nat then c i else 0).
Proof.
  intros HN Hq B Hi. unfold ser. rewrite (vsum_ext N _ (fun j => c 0%nat / 2 * cos (INR i * al N q phi j) + vsum K (fun k => c (S k) * (cos (INR (S k) * al N q phi j) * cos (INR i * al N q phi j)) + s (S k) * (sin (INR (S k) * al N q phi j) * cos (INR i * al N q phi j))))).
  2:{ intros j _. rewrite Rmult_plus_distr_r. f_equal. rewrite Rmult_comm, <- vsum_scal. apply vsum_ext. intros k _. ring. }
  rewrite vsum_add, vsum_scal. rewrite (proj1 (c1 N q phi i HN Hq ltac:(nia) Hi)). rewrite vsum_swap. rewrite (vsum_ext K _ (fun k => if Nat.eq_dec (S k) i then c (S k) * (INR N / 2) else 0)).
  2:{ intros k Hk. rewrite vsum_add, !vsum_scal. rewrite cc, sc by nia. destruct (Nat.eq_dec (S k) i); ring. }
  rewrite (pick_S K i (fun k => c k * (INR N / 2)) Hi). destruct (i <=? K)%nat; ring.
Qed.
Lemma proj_sin c s K N q phi i : (0 < N)%nat -> (0 < q)%nat -> (q * (K + i) < N)%nat -> (1 <= i)%nat -> vsum N (fun j => ser c s K N q phi j * sin (INR i * al N q phi j)) = INR N / 2 * (if (i <=? K)%nat then s i else 0).
Proof.
  intros HN Hq B Hi. unfold ser. rewrite (vsum_ext N _ (fun j => c 0%nat / 2 * sin (INR i * al N q phi j) + vsum K (fun k => c (S k) * (sin (INR i * al N q phi j) * cos (INR (S k) * al N q phi j)) + s (S k) * (sin (INR (S k) * al N q phi j) * sin (INR i * al N q phi j))))).
  2:{ intros j _. rewrite Rmult_plus_distr_r. f_equal. rewrite Rmult_comm, <- vsum_scal. apply vsum_ext. intros k _. ring. }
  rewrite vsum_add, vsum_scal. rewrite (proj2 (c1 N q phi i HN Hq ltac:(nia) Hi)). rewrite vsum_swap. rewrite (vsum_ext K _ (fun k => if Nat.eq_dec (S k) i then s (S k) * (INR N / 2) else 0)).
  2:{ intros k Hk. rewrite vsum_add, !vsum_scal. rewrite ss, sc by nia. destruct (Nat.eq_dec (S k) i); ring. }
  rewrite (pick_S K i (fun k => s k * (INR N / 2)) Hi). destruct (i <=? K)%nat; ring.
Qed.
Lemma proj_one c s K N q phi : (0 < N)%nat -> (0 < q)%nat -> (q * K < N)%nat -> vsum N (ser c s K N q phi) = INR N / 2 * c 0%nat.
Proof.
  intros HN Hq B. unfold ser. rewrite vsum_add, vsum_swap. rewrite (vsum_0 K).
  2:{ intros k Hk. rewrite vsum_add, !vsum_scal. destruct (c1 N q phi (S k) HN Hq ltac:(nia) ltac:(lia)) as [-> ->]. ring. }
  rewrite (vsum_ext N _ (fun _ => c 0%nat / 2 * 1)) by (intros; ring). rewrite vsum_scal, vsum_one. field.
Qed.
(* the trapezoidal rule on equally spaced points for a periodic function *)
Lemma trapz_shift (g : nat -> R) t0 h : forall n a, trapz (map g (seq a (n + 1))) (map (fun j => t0 + INR j * h) (seq a (n + 1))) = h * vsum n (fun j => (g (a + j)%nat + g (S (a + j))) / 2).
Proof.
  induction n as [|n IH]; intros a; [cbn; ring|]. replace (S n + 1)%nat with (S (n + 1)) by lia. cbn [seq map].
  replace (n + 1)%nat with (S n) at 1 2 by lia. cbn [seq map]. 
  change (trapz (g a :: g (S a) :: map g (seq (S (S a)) n)) (t0 + INR a * h :: t0 + INR (S a) * h :: map (fun j => t0 + INR j * h) (seq (S (S a)) n)))
    with ((t0 + INR (S a) * h - (t0 + INR a * h)) * (g a + g (S a)) / 2 + trapz (map g (seq (S a) (S n))) (map (fun j => t0 + INR j * h) (seq (S a) (S n)))).
  replace (S n) with (n + 1)%nat by lia. rewrite IH. rewrite (S_INR a). replace (n + 1)%nat with (1 + n)%nat by lia.
  assert (SP : forall m f, vsum (1 + m) f = f 0%nat + vsum m (fun j => f (S j))). { clear. induction m as [|m IH]; intros f; [cbn; ring|]. change (1 + S m)%nat with (S (1 + m)). cbn [vsum]. rewrite IH. cbn [Nat.add]. ring. }
  rewrite SP. rewrite Nat.add_0_r. rewrite (vsum_ext n (fun j => (g (S a + j)%nat + g (S (S a + j))) / 2) (fun j => (g (a + S j)%nat + g (S (a + S j))) / 2)) by (intros j _; replace (S a + j)%nat with (a + S j)%nat by lia; reflexivity). field.
Qed.
Lemma trapz_periodic (g : nat -> R) t0 h N : g N = g 0%nat -> trapz (map g (seq 0 (N + 1))) (map (fun j => t0 + INR j * h) (seq 0 (N + 1))) = h * vsum N g.
Proof.
  intros E. rewrite trapz_shift. f_equal. cbn [Nat.add]. rewrite (vsum_ext N _ (fun j => / 2 * g j + / 2 * g (S j))) by (intros; field). rewrite vsum_add, !vsum_scal.
  assert (SP : forall m f, vsum m (fun j => f (S j)) = vsum m f - f 0%nat + f m). { clear. induction m as [|m IH]; intros f; [cbn; ring|]. cbn [vsum]. rewrite IH. ring. }
  rewrite SP, E. field.
Qed.
