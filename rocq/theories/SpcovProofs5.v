From Coq Require Import Reals Lra Lia.
From Coquelicot Require Import Coquelicot.
From Verif Require Import Base PolyModel KdeModel FilterModel GridModel GridSpec DftModel DftProofs ProcSpec ProcProofs CovModel CovSpec CovProofs CovProofs2 CovProofs3 CovProofs6 SpcovModel SpcovSpec SpcovProofs SpcovProofs2 SpcovProofs3 SpcovProofs4.
Local Open Scope R_scope.

Lemma embedded_density N a n dt l : List.length a = n -> (2 <= n)%nat -> (2 * n - 2 <= N)%nat -> 0 < dt ->
  fst (fft N (padded (embed N a a)) l) * dt / PI = density_at a dt (INR l * (2 * PI / (INR N * dt))).
Proof.
  intros Ha Hn HN Hd. unfold density_at. rewrite Ha, trapezoid_sum by easy.
  pose proof (transform_value N n (map (fun j => INR j) (seq 0 n)) a 0 l) as T. cbn [turned] in T. rewrite T; [|now rewrite map_length, seq_length|easy|easy|easy].
  assert (HN0 : 0 < INR N) by (apply lt_0_INR; lia). pose proof PI_RGT_0.
  assert (V : forall j, INR l * (2 * PI / (INR N * dt)) * (INR j * dt) = 2 * PI * INR (l * j) / INR N).
  { intros j. rewrite mult_INR. field. lra. }
  cbn [pow]. rewrite !V. rewrite (Sum_ext (n - 2) (fun i => at_R a (S i) * cos (INR l * (2 * PI / (INR N * dt)) * (INR (S i) * dt))) (fun i => at_R a (S i) * cos (2 * PI * INR (l * S i) / INR N))) by (intros; now rewrite V).
  rewrite (Sum_ext (n - 2) (fun i => at_R a (S i) * (1 * cos (2 * PI * INR (l * S i) / INR N + INR 0 * (PI / 2)))) (fun i => at_R a (S i) * cos (2 * PI * INR (l * S i) / INR N))).
  - cbn [INR]. rewrite !Rmult_0_l, !Rplus_0_r. field. lra.
  - intros i Hi. cbn [INR]. rewrite Rmult_0_l, Rplus_0_r. ring.
Qed.
Lemma fft_mirror N (x : list R) k : (0 < N)%nat -> (k <= N)%nat -> fst (fft N (padded x) (N - k)) = fst (fft N (padded x) k).
Proof.
  intros HN Hk. assert (E : fft N (padded x) (N - k) = Cconj (fft N (padded x) k)); [|rewrite E; unfold Cconj; cbn [fst]; exact eq_refl].
  rewrite !fft_zeta, Cconj_csum. apply csum_ext. intros j Hj. unfold padded. rewrite Cconj_mult, Cconj_real, Cconj_zeta. f_equal.
  replace (Z.of_nat (N - k) * - Z.of_nat j)%Z with (- (Z.of_nat k * - Z.of_nat j) + Z.of_nat N * - Z.of_nat j)%Z by (rewrite Nat2Z.inj_sub by easy; ring). now apply zeta_period.
Qed.
Lemma uniform_0 dt n : uniform 0 dt n = map (fun k => INR k * dt) (seq 0 n).
Proof. unfold uniform. apply map_ext. intros; ring. Qed.
Lemma pow2_even p : (2 <= p)%nat -> (exists e, p = 2 ^ e)%nat -> (exists q, p = 2 * q)%nat.
Proof. intros H [[|e] ->]; [cbn in H; lia|]. exists (2 ^ e)%nat. reflexivity. Qed.

Lemma spectrum_of_covariance rate nugget tr (fast : bool) c dt n r p : sampled c dt n -> upsampling rate r -> least_pow2 (2 * n - 2) p ->
  let N := (r * (if fast then p else 2 * n - 2))%nat in
  let a := (at_R (cdata c) 0 + nugget) :: tl (cdata c) in
  let w := fun l => INR l * (2 * PI / (INR N * dt)) in
  let v := fun l => clipped (density_at a dt (w l)) in
  exists s, tospecdata rate nugget tr fast c = Ok (s, Covariance a (cargs c) (lagtype c) (derivatives c))
    /\ freqtype s = (match lagtype c with Time => Omega | Space => Wavenumber end) /\ N = (2 * (N / 2))%nat /\ List.length (sargs s) = S (N / 2) /\ List.length (sdata s) = S (N / 2)
    /\ exists M, (exists l, (l <= N / 2)%nat /\ v l = M) /\ (forall l, (l <= N / 2)%nat -> v l <= M)
       /\ forall l, (l <= N / 2)%nat -> at_R (sargs s) l = w l /\ at_R (sdata s) l = (if Rlt_dec (v l) (tr * M) then 0 else v l).
Proof.
  intros (Hd & Hn & Ec & Lc) Hr Hp N a w v. pose proof PI_RGT_0 as Hpi.
  assert (Er : cov_rate rate = r) by (destruct rate; cbn [cov_rate upsampling] in *; [apply (least_pow2_unique n0); [apply pow2_above_spec|easy]|congruence]).
  assert (Hr1 : (1 <= r)%nat) by (destruct rate; cbn [upsampling] in Hr; [destruct Hr as (_ & (e & ->) & _); pose proof (Nat.pow_nonzero 2 e); lia|lia]).
  assert (Ep : pow2_above (2 * n - 2) = p) by (apply (least_pow2_unique (2 * n - 2)); [apply pow2_above_spec|easy]).
  destruct Hp as (Hp1 & Hp2 & _).
  assert (HN : (2 * n - 2 <= N)%nat) by (unfold N; destruct fast; nia).
  assert (Hev : N = (2 * (N / 2))%nat).
  { assert (exists q, N = 2 * q)%nat as [q ->]; [|now rewrite (Nat.mul_comm 2 q), Nat.div_mul by lia; lia].
    unfold N. destruct fast; [|exists (r * (n - 1))%nat; nia]. destruct (pow2_even p ltac:(lia) Hp2) as [q ->]. exists (r * q)%nat. lia. }
  assert (HN0 : 0 < INR N) by (apply lt_0_INR; lia).
  assert (La : List.length a = n) by (unfold a; cbn [List.length]; destruct (cdata c); cbn in *; lia).
  assert (Eu : geti (cdata c) 0 = Ok (at_R (cdata c) 0) /\ upd (cdata c) 0 (at_R (cdata c) 0 + nugget) = a).
  { unfold a. destruct (cdata c) as [|b l]; [cbn in Lc; lia|]. split; reflexivity. }
  destruct Eu as [Eu1 Eu2].
  unfold tospecdata. rewrite (sampling_uniform c dt n) by (try easy; now rewrite Ec, uniform_0). cbn [bind]. rewrite Eu1. cbn [bind]. rewrite Eu2, La, Er, Ep. fold N.
  set (A := fun k => Rmax (fst (fft N (padded (embed N a a)) k)) 0). fold A.
  assert (Hs : 0 < dt / PI) by (apply Rdiv_lt_0_compat; lra).
  assert (VA : forall l, v l = A l * (dt / PI)).
  { intros l. unfold v, w, clipped. rewrite <- (embedded_density N a n dt l) by easy. unfold A. unfold Rmax. repeat destruct Rle_dec; unfold Rdiv in *; nra. }
  set (M := maxR (map A (seq 0 N))).
  destruct (maxR_spec (map A (seq 0 N))) as [HI HM]; [destruct N eqn:X; [lia|easy]|]. fold M in HI, HM.
  assert (Ev : forall k, (k <= N)%nat -> A (N - k)%nat = A k) by (intros k Hk; unfold A; rewrite fft_mirror by lia; reflexivity).
  eexists. split; [reflexivity|]. cbn [sargs sdata freqtype]. split; [reflexivity|]. split; [easy|].
  assert (L1 : List.length (firstn (S (N / 2)) (map (fun v => if Rlt_dec v (tr * M) then 0 else v) (map A (seq 0 N)))) = S (N / 2)) by (rewrite firstn_length, !map_length, seq_length; lia).
  split; [unfold linspace; now rewrite map_length, seq_length|]. split; [now rewrite map_length|].
  exists (M * (dt / PI)). split.
  { apply in_map_iff in HI as (k & Hk & HI). apply in_seq in HI. destruct (le_lt_dec k (N / 2)) as [H|H]; [exists k; now rewrite VA, Hk|].
    exists (N - k)%nat. split; [lia|]. rewrite VA, Ev, Hk by lia. reflexivity. }
  split.
  { intros l Hl. rewrite VA. apply Rmult_le_compat_r; [lra|]. apply HM. apply in_map. apply in_seq. lia. }
  intros l Hl. split.
  - unfold at_R, linspace. rewrite nth_map_seq by lia. cbn [Nat.add]. unfold w. replace (S (N / 2) - 1)%nat with (N / 2)%nat by lia.
    assert (EN : INR N = 2 * INR (N / 2)) by (rewrite Hev at 1; rewrite mult_INR; cbn [INR]; ring). rewrite EN in *. field. lra.
  - unfold at_R. rewrite (nth_indep _ 0 ((fun v => Rabs v * dt / PI) 0)) by (rewrite map_length; lia). rewrite (map_nth (fun v => Rabs v * dt / PI)).
    rewrite nth_firstn_lt by lia. rewrite map_map, nth_map_seq by lia. cbn [Nat.add]. rewrite VA.
    assert (0 <= A l) by apply Rmax_r. destruct (Rlt_dec (A l) (tr * M)) as [H1|H1], (Rlt_dec (A l * (dt / PI)) (tr * (M * (dt / PI)))) as [H2|H2].
    + rewrite Rabs_R0. unfold Rdiv. ring.
    + exfalso. apply H2. nra.
    + exfalso. apply H1. nra.
    + rewrite Rabs_pos_eq by easy. unfold Rdiv. ring.
Qed.
