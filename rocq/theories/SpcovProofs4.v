From Coq Require Import Reals Lra Lia.
From Coquelicot Require Import Coquelicot.
From Verif Require Import Base PolyModel KdeModel FilterModel GridModel GridSpec DftModel DftProofs ProcSpec ProcProofs CovModel CovSpec CovProofs CovProofs3 CovProofs6 SpcovModel SpcovSpec SpcovProofs SpcovProofs2 SpcovProofs3.
Local Open Scope R_scope.

(* ---- even sequences ---- *)
Definition even (N : nat) (Y : nat -> C) : Prop := forall j, (1 <= j < N)%nat -> Y (N - j)%nat = Y j.
Lemma csum_first N f : (0 < N)%nat -> csum N f = Cplus (csum 1 f) (csum (N - 1) (fun i => f (1 + i)%nat)).
Proof. intros H. rewrite <- csum_split. f_equal. lia. Qed.
Lemma reflect N Y m : (0 < N)%nat -> even N Y -> csum N (fun j => Cmult (Y j) (zeta N (m * - Z.of_nat j))) = csum N (fun j => Cmult (Y j) (zeta N (m * Z.of_nat j))).
Proof.
  intros HN He. rewrite (csum_first N (fun j => Cmult (Y j) (zeta N (m * - Z.of_nat j)))), (csum_first N (fun j => Cmult (Y j) (zeta N (m * Z.of_nat j)))) by easy. f_equal.
  rewrite csum_rev. apply csum_ext. intros i Hi. replace (1 + (N - 1 - 1 - i))%nat with (N - S i)%nat by lia. rewrite He by lia. f_equal.
  replace (m * - Z.of_nat (N - S i))%Z with (m * Z.of_nat (1 + i) + Z.of_nat N * - m)%Z by lia. now apply zeta_period.
Qed.
Lemma fft_zeta N X k : fft N X k = csum N (fun j => Cmult (X j) (zeta N (Z.of_nat k * - Z.of_nat j))).
Proof. unfold fft. apply csum_ext. intros. now rewrite cis_zeta_neg. Qed.
Lemma real_fft N (x : nat -> R) k : (0 < N)%nat -> even N (fun j => RtoC (x j)) -> fft N (fun j => RtoC (x j)) k = RtoC (fst (fft N (fun j => RtoC (x j)) k)).
Proof.
  intros HN He. assert (E : Cconj (fft N (fun j => RtoC (x j)) k) = fft N (fun j => RtoC (x j)) k).
  { rewrite fft_zeta at 2. rewrite reflect by easy. rewrite fft_zeta, Cconj_csum. apply csum_ext. intros j Hj. rewrite Cconj_mult, Cconj_real, Cconj_zeta. do 2 f_equal. lia. }
  destruct (fft N (fun j => RtoC (x j)) k) as [a b]. unfold Cconj in E. cbn in E. injection E as E. unfold RtoC. cbn. f_equal. lra.
Qed.
Lemma even_fft N (x : nat -> R) : (0 < N)%nat -> even N (fun j => RtoC (x j)) -> even N (fft N (fun j => RtoC (x j))).
Proof.
  intros HN He k Hk. rewrite !fft_zeta. rewrite (reflect N (fun j => RtoC (x j)) (Z.of_nat k)) by easy. apply csum_ext. intros j Hj. f_equal.
  replace (Z.of_nat (N - k) * - Z.of_nat j)%Z with (Z.of_nat k * Z.of_nat j + Z.of_nat N * - Z.of_nat j)%Z by lia. now apply zeta_period.
Qed.
Lemma double_fft N (x : nat -> R) l : (l < N)%nat -> even N (fun j => RtoC (x j)) -> fft N (fft N (fun j => RtoC (x j))) l = RtoC (INR N * x l).
Proof.
  intros Hl He. assert (HN : (0 < N)%nat) by lia. rewrite fft_zeta, reflect by (easy || now apply even_fft).
  pose proof (inverse N (fun j => RtoC (x j)) l Hl) as I. unfold ifft in I. rewrite RtoC_mult, <- I.
  rewrite (csum_ext N (fun k => Cmult (fft N (fun j => RtoC (x j)) k) (cis (2 * PI * INR (k * l) / INR N))) (fun k => Cmult (fft N (fun j => RtoC (x j)) k) (zeta N (Z.of_nat l * Z.of_nat k)))).
  - field. apply INR_C_neq. lia.
  - intros k Hk. rewrite cis_zeta. do 2 f_equal. lia.
Qed.
(* the transform of the transform, in real numbers *)
Lemma real_double N (x : nat -> R) l : (l < N)%nat -> (forall j, (1 <= j < N)%nat -> x (N - j)%nat = x j) ->
  fst (fft N (fun k => RtoC (fst (fft N (fun j => RtoC (x j)) k))) l) = INR N * x l.
Proof.
  intros Hl He. assert (E : even N (fun j => RtoC (x j))) by (intros j Hj; now rewrite He).
  transitivity (fst (fft N (fft N (fun j => RtoC (x j))) l)).
  - f_equal. rewrite !fft_zeta. apply csum_ext. intros k Hk. f_equal. symmetry. apply real_fft; [lia|easy].
  - rewrite double_fft by easy. reflexivity.
Qed.
Lemma fft_ext N X Y k : (forall j, (j < N)%nat -> X j = Y j) -> fft N X k = fft N Y k.
Proof. intros H. unfold fft. apply csum_ext. intros j Hj. now rewrite H. Qed.
Lemma fft_scal N a x k : fst (fft N (fun j => RtoC (a * x j)) k) = a * fst (fft N (fun j => RtoC (x j)) k).
Proof.
  unfold fft. rewrite (csum_ext N _ (fun j => Cmult (RtoC a) (Cmult (RtoC (x j)) (cis (- (2 * PI * INR (k * j) / INR N)))))) by (intros; rewrite RtoC_mult; ring).
  rewrite csum_mul. unfold Cmult, RtoC; cbn. ring.
Qed.

(* ---- embedding without zeros: N = 2 n - 2 ---- *)
Lemma embed_even n x j : List.length x = n -> (2 <= n)%nat -> (1 <= j < 2 * n - 2)%nat -> at_R (embed (2 * n - 2) x x) (2 * n - 2 - j) = at_R (embed (2 * n - 2) x x) j.
Proof.
  intros Hx Hn Hj. destruct (le_lt_dec j (n - 2)) as [H|H]; [rewrite (embed_high _ x x n), (embed_low _ x x n) by lia; reflexivity|].
  destruct (Nat.eq_dec j (n - 1)) as [->|H2]; [f_equal; lia|]. set (i := (2 * n - 2 - j)%nat). replace j with (2 * n - 2 - i)%nat at 1 by (unfold i; lia).
  rewrite (embed_high _ x x n), (embed_low _ x x n) by (unfold i; lia). reflexivity.
Qed.
Lemma embed_at n x (g : nat -> R) : List.length x = n -> (2 <= n)%nat -> (forall j, (j < n)%nat -> at_R x j = g j) ->
  (forall j, (1 <= j < 2 * n - 2)%nat -> g (2 * n - 2 - j)%nat = g j) -> forall j, (j < 2 * n - 2)%nat -> at_R (embed (2 * n - 2) x x) j = g j.
Proof.
  intros Hx Hn Hg He j Hj. destruct (lt_dec j n) as [H|H]; [rewrite (embed_low _ x x n) by lia; now apply Hg|].
  set (i := (2 * n - 2 - j)%nat). replace j with (2 * n - 2 - i)%nat by (unfold i; lia). rewrite (embed_high _ x x n) by (unfold i; lia). rewrite Hg, He by (unfold i; lia). reflexivity.
Qed.

(* ---- tospecdata ---- *)
Definition spectral (a : list R) (l : nat) : R := let N := (2 * List.length a - 2)%nat in fst (fft N (padded (embed N a a)) l).
Lemma least_pow2_pow n e : (n = 2 ^ e)%nat -> least_pow2 n n. Proof. intros ->. apply least_pow2_self. Qed.
Lemma upd_0 c n : List.length (cdata c) = n -> (1 <= n)%nat -> exists a0, geti (cdata c) 0 = Ok a0 /\ upd (cdata c) 0 (a0 + 0) = cdata c.
Proof.
  intros H Hn. destruct (cdata c) as [|a l]; [cbn in H; lia|]. exists a. split; [reflexivity|]. unfold upd. cbn. now rewrite Rplus_0_r.
Qed.
Lemma tospec_value tr c n e dt : List.length (cdata c) = n -> (n = 2 ^ e + 1)%nat -> cov_sampling_period c = Ok dt ->
  let A := spectral (cdata c) in
  (forall l, (l < 2 * n - 2)%nat -> 0 <= A l) -> (forall l, (l < 2 * n - 2)%nat -> A l = 0 \/ forall m, (m < 2 * n - 2)%nat -> tr * A m <= A l) -> 0 < dt ->
  tospecdata None 0 tr true c = Ok (Spectrum (map (fun l => A l * dt / PI) (seq 0 n)) (linspace 0 (PI / dt) n) (match lagtype c with Time => Omega | Space => Wavenumber end), c).
Proof.
  intros Hn He Hdt A HA HT Hd. assert (Hn2 : (2 <= n)%nat) by (pose proof (Nat.pow_nonzero 2 e); lia). set (N := (2 * n - 2)%nat) in *.
  assert (EN : pow2_above N = N).
  { apply (least_pow2_unique N); [apply pow2_above_spec|]. apply (least_pow2_pow N (S e)). unfold N. cbn [Nat.pow]. lia. }
  unfold tospecdata. rewrite Hdt. cbn [bind cov_rate]. destruct (upd_0 c n Hn ltac:(lia)) as (a0 & E0 & E1). rewrite E0. cbn [bind]. rewrite E1, Hn. fold N. rewrite EN, Nat.mul_1_l.
  replace (N / 2)%nat with (n - 1)%nat by (unfold N; replace (2 * n - 2)%nat with ((n - 1) * 2)%nat by lia; now rewrite Nat.div_mul).
  replace (S (n - 1)) with n by lia.
  assert (E2 : map (fun k => Rmax (fst (fft N (padded (embed N (cdata c) (cdata c))) k)) 0) (seq 0 N) = map A (seq 0 N)).
  { apply map_ext_in. intros k Hk. apply in_seq in Hk. specialize (HA k ltac:(lia)). unfold A, spectral in *. rewrite Hn in *. fold N in HA |- *. now rewrite Rmax_left. }
  rewrite E2. set (M := maxR (map A (seq 0 N))).
  assert (HM : exists m, (m < N)%nat /\ M = A m).
  { destruct (maxR_spec (map A (seq 0 N))) as [HI _]; [destruct N eqn:X; [unfold N in *; lia|easy]|]. apply in_map_iff in HI as (m & Hm & HI). apply in_seq in HI. exists m. split; [lia|easy]. }
  destruct HM as (m0 & Hm0 & EM).
  assert (E3 : map (fun v => if Rlt_dec v (tr * M) then 0 else v) (map A (seq 0 N)) = map A (seq 0 N)).
  { rewrite map_map. apply map_ext_in. intros l Hl. apply in_seq in Hl. destruct (Rlt_dec (A l) (tr * M)) as [X|X]; [|reflexivity]. destruct (HT l ltac:(lia)) as [Z|Z]; [easy|].
    specialize (Z m0 Hm0). rewrite <- EM in Z. lra. }
  rewrite E3. f_equal. f_equal; [|destruct c; reflexivity]. f_equal.
  replace N with (n + (n - 2))%nat by (unfold N; lia). rewrite seq_app, map_app, firstn_app, map_length, seq_length, Nat.sub_diag, firstn_O, app_nil_r.
  rewrite firstn_all2 by (rewrite map_length, seq_length; lia). rewrite map_map. apply map_ext_in. intros l Hl. apply in_seq in Hl. rewrite Rabs_pos_eq by (apply HA; unfold N; lia). reflexivity.
Qed.
Lemma sampling_uniform c dt n : cargs c = map (fun k => INR k * dt) (seq 0 n) -> (2 <= n)%nat -> cov_sampling_period c = Ok dt.
Proof.
  intros E Hn. unfold cov_sampling_period. rewrite E.
  assert (G : forall i, (i < n)%nat -> nth_error (map (fun k => INR k * dt) (seq 0 n)) i = Some (INR i * dt)).
  { intros i Hi. rewrite (nth_error_nth' _ 0) by (rewrite map_length, seq_length; lia). now rewrite nth_map_seq. }
  unfold getz, geti. rewrite map_length, seq_length. rewrite !G by lia. cbn [bind Z.leb Z.compare].
  replace (- Z.of_nat n <=? -1)%Z with true by (symmetry; apply Z.leb_le; lia). replace (Z.to_nat (Z.of_nat n + -1)) with (n - 1)%nat by lia. cbn [bind]. f_equal.
  assert (0 < INR (n - 1)) by (apply lt_0_INR; lia). cbn [INR]. field. lra.
Qed.

(* ---- spectrum -> covariance -> spectrum ---- *)
Lemma Fm_fft s h n k : even_grid s h n -> let N := (2 * n - 2)%nat in
  Fm s h 0 (INR k * time_step s h N) = h / 2 * fst (fft N (padded (embed N (sdata s) (sdata s))) k).
Proof.
  intros (Hh & Hn & _ & Ed) N. unfold Fm. rewrite Ed, trapezoid_sum by easy. f_equal.
  pose proof (transform_value N n (map (fun j => INR j) (seq 0 n)) (sdata s) 0 k) as T. cbn [turned] in T. rewrite T; [|now rewrite map_length, seq_length|easy|easy|unfold N; lia].
  assert (HN0 : 0 < INR N) by (apply lt_0_INR; unfold N; lia). assert (Hom : 0 < angular (freqtype s) h) by now apply angular_pos.
  assert (V : forall j, angular (freqtype s) (INR j * h) * (INR k * time_step s h N) = 2 * PI * INR (k * j) / INR N).
  { intros j. unfold time_step. rewrite mult_INR. replace (angular (freqtype s) (INR j * h)) with (INR j * angular (freqtype s) h) by (destruct (freqtype s); cbn; ring). field. lra. }
  cbn [pow]. rewrite !V. f_equal. f_equal. f_equal. apply Sum_ext. intros i Hi. now rewrite V.
Qed.
Lemma roundtrip_spectrum tr s h e : even_grid s h (2 ^ e + 1) -> (forall v, In v (sdata s) -> 0 <= v) ->
  (forall v, In v (sdata s) -> v = 0 \/ forall u, In u (sdata s) -> tr * u <= v) ->
  exists c, tocovdata 0 None None s = Ok c /\ tospecdata None 0 tr true c = Ok (set_freqtype Omega s, c).
Proof.
  intros Hs Hpos Htr. set (n := (2 ^ e + 1)%nat) in *. pose proof Hs as (Hh & Hn & Ea & Ed). set (N := (2 * n - 2)%nat).
  assert (Hp : least_pow2 N N) by (apply (least_pow2_pow N (S e)); unfold N, n; cbn [Nat.pow]; lia).
  pose proof (tocovdata_value 0 None None s h n 1 N Hs eq_refl Hp) as T. cbn zeta in T. rewrite !Nat.mul_1_l in T. replace (S (n - 1)) with n in T by lia.
  eexists. split; [exact T|]. cbn [map seq].
  set (c := Covariance _ _ _ _). set (x := sdata s) in *.
  assert (Hom : 0 < angular (freqtype s) h) by now apply angular_pos. assert (HN0 : 0 < INR N) by (apply lt_0_INR; unfold N; lia).
  assert (Hdt : 0 < time_step s h N) by (unfold time_step; pose proof PI_RGT_0; apply Rdiv_lt_0_compat; [apply Rdiv_lt_0_compat; lra|easy]).
  assert (Lc : List.length (cdata c) = n) by (unfold c; cbn [cdata]; now rewrite map_length, seq_length).
  assert (Ex : forall j, (1 <= j < N)%nat -> at_R (embed N x x) (N - j) = at_R (embed N x x) j) by (intros j Hj; now apply embed_even).
  assert (Ac : forall k, (k < N)%nat -> at_R (embed N (cdata c) (cdata c)) k = h / 2 * fst (fft N (padded (embed N x x)) k)).
  { apply (embed_at n); [easy|easy| |].
    - intros j Hj. unfold c. cbn [cdata]. unfold at_R. rewrite nth_map_seq by easy. cbn [Nat.add]. now apply Fm_fft.
    - intros j Hj. fold N. do 2 f_equal. apply (even_fft N (at_R (embed N x x))); [unfold N; lia| |easy]. intros i Hi. cbn beta. f_equal. now apply Ex. }
  assert (EA : forall l, (l < N)%nat -> spectral (cdata c) l = h / 2 * INR N * at_R (embed N x x) l).
  { intros l Hl. unfold spectral. rewrite Lc. fold N. rewrite (fft_ext N _ (fun k => RtoC (h / 2 * fst (fft N (padded (embed N x x)) k)))) by (intros j Hj; unfold padded at 1; now rewrite Ac).
    rewrite fft_scal. unfold padded. rewrite (real_double N (at_R (embed N x x))) by easy. ring. }
  assert (Hin : forall l, (l < N)%nat -> In (at_R (embed N x x) l) x).
  { intros l Hl. destruct (lt_dec l n) as [H|H]; [rewrite (embed_low _ x x n) by lia; apply nth_In; lia|].
    set (i := (N - l)%nat). replace l with (N - i)%nat by (unfold i; lia). rewrite (embed_high _ x x n) by (unfold i, N in *; lia). apply nth_In. unfold i, N in *. lia. }
  assert (Hc : 0 < h / 2 * INR N) by nra.
  rewrite (tospec_value tr c n e (time_step s h N)).
  - f_equal. f_equal. assert (EN : INR N = 2 * INR (n - 1)) by (unfold N; replace (2 * n - 2)%nat with (2 * (n - 1))%nat by lia; rewrite mult_INR; cbn [INR]; ring).
    assert (Hn1 : 0 < INR (n - 1)) by (apply lt_0_INR; lia). pose proof PI_RGT_0 as Hpi.
    assert (D : map (fun l => spectral (cdata c) l * time_step s h N / PI) (seq 0 n) = map (fun v => v / angular (freqtype s) 1) x).
    { apply nth_ext with (d := 0) (d' := 0); [rewrite !map_length, seq_length; easy|]. intros i Hi. rewrite map_length, seq_length in Hi. rewrite nth_map_seq by easy. cbn [Nat.add].
      rewrite EA by (unfold N; lia). rewrite (embed_low _ x x n) by lia. rewrite (nth_indep _ 0 ((fun v => v / angular (freqtype s) 1) 0)) by (rewrite map_length; lia). rewrite (map_nth (fun v => v / angular (freqtype s) 1)).
      fold (at_R x i). unfold time_step. destruct (freqtype s); cbn [angular]; field; repeat split; lra. }
    assert (F : linspace 0 (PI / time_step s h N) n = map (angular (freqtype s)) (sargs s)).
    { rewrite Ea. apply nth_ext with (d := 0) (d' := 0); [unfold linspace; rewrite !map_length, seq_length, uniform_length; easy|]. intros i Hi. unfold linspace in Hi. rewrite map_length, seq_length in Hi.
      unfold linspace. rewrite nth_map_seq by easy. cbn [Nat.add]. rewrite (nth_indep _ 0 (angular (freqtype s) 0)) by (rewrite map_length, uniform_length; lia). rewrite map_nth.
      fold (at_R (uniform 0 h n) i). rewrite uniform_atR by easy. unfold time_step. rewrite EN. destruct (freqtype s); cbn [angular]; field; repeat split; lra. }
    rewrite D, F. unfold c. cbn [lagtype]. unfold lag_type, set_freqtype. destruct s as [sd sa ft]. cbn [sdata sargs freqtype] in *. unfold x. destruct ft; cbn [angular]; f_equal.
    + rewrite <- (map_id sd) at 2. apply map_ext. intros; field.
    + now rewrite map_id.
    + apply map_ext. intros; field; lra.
    + apply map_ext. intros; unfold angular; ring.
    + rewrite <- (map_id sd) at 2. apply map_ext. intros; field.
    + now rewrite map_id.
  - easy.
  - easy.
  - apply (sampling_uniform c _ n); [reflexivity|easy].
  - intros l Hl. rewrite EA by easy. apply Rmult_le_pos; [lra|]. apply Hpos. now apply Hin.
  - intros l Hl. rewrite EA by easy. destruct (Htr _ (Hin l Hl)) as [Z|Z]; [left; rewrite Z; ring|right]. intros m Hm. rewrite EA by easy. specialize (Z _ (Hin m Hm)). nra.
  - easy.
Qed.
