From Coq Require Import Reals Lra Lia.
From Coquelicot Require Import Coquelicot.
From Verif Require Import Base PolyModel KdeModel FilterModel GridModel GridSpec DftModel DftProofs ProcSpec ProcProofs CovModel CovSpec CovProofs CovProofs2 CovProofs3 CovProofs6 SpcovModel SpcovSpec SpcovProofs SpcovProofs2 SpcovProofs3 SpcovProofs4 SpcovProofs5.
Local Open Scope R_scope.

(* ---- covariance -> spectrum -> covariance ---- *)
Lemma roundtrip_covariance tr c dt e : sampled c dt (2 ^ e + 1) -> derivatives c = [] ->
  let d := fun l => density_at (cdata c) dt (INR l * (PI / (INR (2 ^ e) * dt))) in
  (forall l, (l <= 2 ^ e)%nat -> 0 <= d l /\ (d l = 0 \/ forall m, (m <= 2 ^ e)%nat -> tr * d m <= d l)) ->
  exists s, tospecdata None 0 tr true c = Ok (s, c) /\ tocovdata 0 None None s = Ok c.
Proof.
  intros (Hd & Hn & Ec & Lc) Hder d HD. remember (2 ^ e + 1)%nat as n eqn:En. set (N := (2 * n - 2)%nat). pose proof PI_RGT_0 as Hpi.
  assert (Ee : (2 ^ e)%nat = (n - 1)%nat) by lia. rewrite Ee in *. assert (Hn1 : 0 < INR (n - 1)) by (apply lt_0_INR; lia).
  assert (EN : INR N = 2 * INR (n - 1)) by (unfold N; replace (2 * n - 2)%nat with (2 * (n - 1))%nat by lia; rewrite mult_INR; cbn [INR]; ring).
  assert (Hs : 0 < dt / PI) by (apply Rdiv_lt_0_compat; lra).
  assert (Da : forall l, spectral (cdata c) l * (dt / PI) = d l).
  { intros l. unfold spectral. rewrite Lc. fold N. pose proof (embedded_density N (cdata c) n dt l Lc Hn (le_n _) Hd) as E. transitivity (density_at (cdata c) dt (INR l * (2 * PI / (INR N * dt)))); [rewrite <- E; unfold Rdiv; ring|].
    unfold d. f_equal. f_equal. try rewrite Ee. rewrite EN. field. lra. }
  assert (Mi : forall l, (l < N)%nat -> exists l', (l' <= n - 1)%nat /\ spectral (cdata c) l = spectral (cdata c) l').
  { intros l Hl. destruct (le_lt_dec l (n - 1)) as [H|H]; [now exists l|]. exists (N - l)%nat. split; [unfold N; lia|]. unfold spectral. rewrite Lc. fold N. now rewrite fft_mirror by lia. }
  assert (Hdt : cov_sampling_period c = Ok dt) by (apply (sampling_uniform c dt n); [now rewrite Ec, uniform_0|easy]).
  rewrite (tospec_value tr c n e dt); [|easy|lia|easy| | |easy].
  2: { intros l Hl. destruct (Mi l Hl) as (l' & H1 & ->). destruct (HD l' H1) as [P _]. rewrite <- Da in P. nra. }
  2: { intros l Hl. destruct (Mi l Hl) as (l' & H1 & ->). destruct (HD l' H1) as [_ [P|P]]; [left; rewrite <- Da in P; nra|right].
       intros m Hm. destruct (Mi m Hm) as (m' & H2 & ->). specialize (P m' H2). rewrite <- !Da in P. nra. }
  set (s := Spectrum _ _ _). exists s. split; [reflexivity|]. set (h := PI / dt / INR (n - 1)).
  assert (Hs2 : even_grid s h n).
  { unfold even_grid. split; [unfold h; repeat apply Rdiv_lt_0_compat; lra|]. split; [easy|]. split.
    - cbn [s sargs]. unfold linspace, uniform. apply map_ext. intros i. unfold h. now rewrite Rminus_0_r.
    - cbn [s sdata]. now rewrite map_length, seq_length. }
  assert (Hp : least_pow2 N N) by (apply (least_pow2_pow N (S e)); unfold N; cbn [Nat.pow]; lia).
  pose proof (tocovdata_value 0 None None s h n 1 N Hs2 eq_refl Hp) as T. cbn zeta in T. rewrite !Nat.mul_1_l in T. replace (S (n - 1)) with n in T by lia. rewrite T. clear T. cbn [map seq]. f_equal.
  assert (Eang : angular (freqtype s) h = h) by (cbn [s freqtype]; destruct (lagtype c); reflexivity).
  assert (Ets : time_step s h N = dt) by (unfold time_step; rewrite Eang, EN; unfold h; field; lra).
  destruct c as [cd ca lt cder]. cbn [cdata cargs lagtype derivatives] in *. subst cder. f_equal.
  - apply nth_ext with (d := 0) (d' := 0); [rewrite map_length, seq_length; lia|]. intros k Hk. rewrite map_length, seq_length in Hk. rewrite nth_map_seq by easy. cbn [Nat.add].
    pose proof (Fm_fft s h n k Hs2) as F. cbn zeta in F. fold N in F. rewrite F.
    assert (Ex : forall j, (1 <= j < N)%nat -> at_R (embed N cd cd) (N - j) = at_R (embed N cd cd) j) by (intros j Hj; now apply embed_even).
    assert (As : forall l, (l < N)%nat -> at_R (embed N (sdata s) (sdata s)) l = dt / PI * fst (fft N (padded (embed N cd cd)) l)).
    { apply (embed_at n); [cbn [s sdata]; now rewrite map_length, seq_length|easy| |].
      - intros j Hj. cbn [s sdata]. unfold at_R. rewrite nth_map_seq by easy. cbn [Nat.add]. unfold spectral. rewrite Lc. fold N. unfold Rdiv. ring.
      - intros j Hj. fold N. f_equal. rewrite fft_mirror by (unfold N in *; lia). reflexivity. }
    rewrite (fft_ext N _ (fun l => RtoC (dt / PI * fst (fft N (padded (embed N cd cd)) l)))) by (intros j Hj; unfold padded at 1; now rewrite As).
    rewrite fft_scal. unfold padded. rewrite (real_double N (at_R (embed N cd cd))) by (easy || (unfold N; lia)). rewrite (embed_low _ cd cd n) by easy. unfold at_R. rewrite EN. unfold h. field. lra.
  - rewrite Ec, uniform_0. apply map_ext. intros k. now rewrite Ets.
  - cbn [s freqtype]. unfold lag_type. destruct lt; reflexivity.
Qed.

(* ---- the grid changes unless n - 1 is a power of two ---- *)
Lemma grid_changes tr s h n : even_grid s h n -> (forall e, n <> 2 ^ e + 1)%nat -> exists c s' c', tocovdata 0 None None s = Ok c /\ tospecdata None 0 tr true c = Ok (s', c')
  /\ List.length (cdata c) = n /\ (n < List.length (sargs s') < 2 * n)%nat.
Proof.
  intros Hs Hne. pose proof Hs as (Hh & Hn & Ea & Ed). pose proof (pow2_above_spec (2 * n - 2)) as Hp. set (p := pow2_above (2 * n - 2)) in *. pose proof PI_RGT_0.
  pose proof (tocovdata_value 0 None None s h n 1 p Hs eq_refl Hp) as T. cbn zeta in T. rewrite !Nat.mul_1_l in T. replace (S (n - 1)) with n in T by lia. cbn [map seq] in T.
  eexists. pose proof Hp as (H1 & [e He] & H2).
  assert (Hts : 0 < time_step s h p).
  { unfold time_step. apply Rdiv_lt_0_compat; [apply Rdiv_lt_0_compat; [lra|now apply angular_pos]|apply lt_0_INR; lia]. }
  set (c := Covariance _ _ _ _) in T.
  assert (Hc : sampled c (time_step s h p) n).
  { split; [easy|]. split; [easy|]. split; [cbn [c cargs]; now rewrite uniform_0|cbn [c cdata]; now rewrite map_length, seq_length]. }
  destruct (spectrum_of_covariance None 0 tr true c (time_step s h p) n 1 p Hc eq_refl Hp) as (s' & E1 & _ & Ev & E2 & _). rewrite Nat.mul_1_l in *.
  exists s'. eexists. split; [exact T|]. split; [exact E1|]. split; [cbn [c cdata]; now rewrite map_length, seq_length|]. rewrite E2.
  destruct e as [|e]; [cbn in He; lia|]. cbn [Nat.pow] in He. replace (p / 2)%nat with (2 ^ e)%nat in * by (rewrite He, (Nat.mul_comm 2), Nat.div_mul by lia; reflexivity).
  specialize (Hne e). specialize (H2 (Nat.log2_up (2 * n - 2))). split; [lia|].
  destruct (lt_dec (2 ^ e) (2 * n - 2)) as [L|L]; [lia|]. exfalso. assert (E3 : (p <= 2 ^ e)%nat); [|pose proof (Nat.pow_nonzero 2 e); lia].
  destruct Hp as (_ & _ & H3). apply H3. lia.
Qed.

(* ---- units ---- *)
Lemma set_freqtype_back s : freqtype s <> Wavenumber -> set_freqtype (freqtype s) (set_freqtype Hertz s) = s /\ set_freqtype (freqtype s) (set_freqtype Omega s) = s.
Proof.
  pose proof PI_RGT_0. assert (G : forall (f : R -> R) l, (forall x, f x = x) -> map f l = l) by (intros f l E; rewrite <- (map_id l) at 2; apply map_ext; exact E).
  destruct s as [d a t]. destruct t; cbn; intros Ht; [| |easy]; (split; [|reflexivity]) || (split; [reflexivity|]); rewrite !map_map, !G; try reflexivity; intros; field; lra.
Qed.
Lemma even_grid_units t s h n : even_grid s h n -> exists h', even_grid (set_freqtype t s) h' n /\ angular (freqtype (set_freqtype t s)) h' = angular (freqtype s) h
  /\ (forall i, at_R (sdata (set_freqtype t s)) i * h' = at_R (sdata s) i * h) /\ List.length (sdata (set_freqtype t s)) = List.length (sdata s) /\ lag_type (set_freqtype t s) = lag_type s.
Proof.
  intros (Hh & Hn & Ea & Ed). pose proof PI_RGT_0. assert (U : forall k, map (fun v => v * k) (uniform 0 h n) = uniform 0 (h * k) n) by (intros k; unfold uniform; rewrite map_map; apply map_ext; intros; ring).
  assert (V : forall k, map (fun v => v / k) (uniform 0 h n) = uniform 0 (h / k) n) by (intros k; unfold uniform; rewrite map_map; apply map_ext; intros; unfold Rdiv; ring).
  assert (W : forall k l i, at_R (map (fun v => v * k) l) i = at_R l i * k) by (intros; unfold at_R; rewrite <- (map_nth (fun v => v * k)); f_equal; ring).
  assert (W' : forall k l i, at_R (map (fun v => v / k) l) i = at_R l i / k) by (intros; unfold at_R; rewrite <- (map_nth (fun v => v / k)); f_equal; unfold Rdiv; ring).
  destruct s as [d a ft]. unfold even_grid, set_freqtype, lag_type. cbn [sdata sargs freqtype] in *. subst a.
  destruct t, ft; cbn [sdata sargs freqtype]; try (exists h; repeat split; easy).
  - exists (h * (2 * PI)). rewrite U, map_length. repeat split; try easy; [nra|cbn; ring|]. intros i. rewrite W'. field. lra.
  - exists (h / (2 * PI)). rewrite V, map_length. repeat split; try easy; [apply Rdiv_lt_0_compat; lra|cbn; field; lra|]. intros i. rewrite W. field. lra.
Qed.
Lemma units_irrelevant nr nt rate t s h n : even_grid s h n -> tocovdata nr nt rate (set_freqtype t s) = tocovdata nr nt rate s.
Proof.
  intros Hs. destruct (even_grid_units t s h n Hs) as (h' & Hs' & Ea & Ed & El & Et).
  assert (exists r, rate_used rate r) as [r Hr].
  { destruct rate as [q|]; [|now exists 1%nat]. cbn. destruct (le_lt_dec q 16); [exists (pow2_above q); right; split; [easy|apply pow2_above_spec]|exists 16%nat; now left]. }
  pose proof (pow2_above_spec (2 * n - 2)) as Hp.
  rewrite (tocovdata_value nr nt rate _ h' n r _ Hs' Hr Hp), (tocovdata_value nr nt rate s h n r _ Hs Hr Hp). cbn zeta.
  assert (T : forall N, time_step (set_freqtype t s) h' N = time_step s h N) by (intros N; unfold time_step; now rewrite Ea).
  assert (F : forall m x, Fm (set_freqtype t s) h' m x = Fm s h m x).
  { intros m x. unfold Fm. rewrite El. unfold trapezoid. f_equal. apply map_ext. intros j. rewrite !Rmult_plus_distr_l. unfold Rdiv. f_equal.
    assert (G : forall i, angular (freqtype (set_freqtype t s)) (INR i * h') = angular (freqtype s) (INR i * h)) by (intros i; rewrite (angular_scale _ (INR i * h')), (angular_scale _ (INR i * h)); rewrite (angular_scale _ h'), (angular_scale _ h) in Ea; transitivity (INR i * (angular (freqtype (set_freqtype t s)) 1 * h')); [ring|rewrite Ea; ring]).
    rewrite !G. rewrite <- !Rmult_assoc, (Rmult_comm h' (at_R _ j)), (Rmult_comm h' (at_R _ (S j))), !Ed. rewrite (Rmult_comm h (at_R _ j)), (Rmult_comm h (at_R _ (S j))). reflexivity. }
  rewrite Et. f_equal. f_equal.
  - apply map_ext. intros. now rewrite T, F.
  - apply map_ext. intros. now rewrite T.
  - apply map_ext. intros. apply map_ext. intros. now rewrite T, F.
Qed.
