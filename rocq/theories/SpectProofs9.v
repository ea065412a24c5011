From Coq Require Import Reals Lra Lia Psatz String.
From Coquelicot Require Import Coquelicot.
From Verif Require Import Base PolyModel KdeModel GridModel GridSpec ProcSpec ProcProofs CovModel CovSpec CovProofs CovProofs2 CovProofs3 SpcovModel SpcovSpec SpcovProofs3 SpectModel SpectSpec SpectProofs SpectProofs2 SpectProofs3 SpectProofs4 SpectProofs5 SpectProofs6 SpectProofs7 SpectProofs8.
Local Open Scope R_scope.

Lemma moment_exact nr j s n i a b c : spectrum_on n s -> Nat.odd n = true -> (i <= nr)%nat -> (forall l, (l < n)%nat -> Rabs (density s l) ^ (j + 1) * omega s l ^ i = a * omega s l ^ 2 + b * omega s l + c) ->
  is_RInt (fun x => a * x ^ 2 + b * x + c) (omega s 0) (omega s (n - 1)) (at_R (fst (moment nr false j s)) i).
Proof.
  intros H O Hi E. rewrite (moment_at _ _ _ _ _ H) by easy. unfold moment_of. pose proof H as (Hn & L1 & _). rewrite L1. rewrite (simpson_ext _ _ (omega s) _ (fun l => a * omega s l ^ 2 + b * omega s l + c)) by easy.
  apply simpson_parabola; [easy|now apply omega_rising].
Qed.
Lemma moment_line nr j s n i b c : spectrum_on n s -> (i <= nr)%nat -> (forall l, (l < n)%nat -> Rabs (density s l) ^ (j + 1) * omega s l ^ i = b * omega s l + c) ->
  is_RInt (fun x => b * x + c) (omega s 0) (omega s (n - 1)) (at_R (fst (moment nr false j s)) i).
Proof.
  intros H Hi E. rewrite (moment_at _ _ _ _ _ H) by easy. unfold moment_of. pose proof H as (Hn & L1 & _). rewrite L1. rewrite (simpson_ext _ _ (omega s) _ (fun l => b * omega s l + c)) by easy.
  apply simpson_line; [easy|now apply omega_rising].
Qed.
Lemma moment_same_units nr (even : bool) j t s n : spectrum_on n s -> fst (moment nr even j (set_freqtype t s)) = fst (moment nr even j s).
Proof.
  intros H. rewrite (moment_values nr even j s n H), (moment_values nr even j _ n (set_spectrum_on t s n H)). cbn [fst]. apply map_ext. intros k. apply (moment_units t s _ _ n H).
Qed.
Lemma amplified_on c s n : spectrum_on n s -> spectrum_on n (amplified c s).
Proof. intros (A & B & C & D). repeat split; try easy. cbn. now rewrite map_length. Qed.
Lemma moment_amplified nr (even : bool) j c s n : spectrum_on n s -> fst (moment nr even j (amplified c s)) = map (fun v => Rabs c ^ (j + 1) * v) (fst (moment nr even j s)).
Proof.
  intros H. rewrite (moment_values nr even j s n H), (moment_values nr even j _ n (amplified_on c s n H)). cbn [fst]. rewrite map_map. apply map_ext. intros k. apply (moment_scale c s _ _ n H).
Qed.
Lemma moment_nonnegative nr j s n i : spectrum_on n s -> even_axis n (at_R (sargs s)) -> 0 <= at_R (sargs s) 0 -> (i <= nr)%nat -> 0 <= at_R (fst (moment nr false j s)) i.
Proof. intros H E P Hi. rewrite (moment_at _ _ _ _ _ H) by easy. now apply (moment_nonneg n). Qed.
Lemma moment_cauchy nr j s n a b : spectrum_on n s -> even_axis n (at_R (sargs s)) -> (2 * a <= nr)%nat -> (2 * b <= nr)%nat -> let m := at_R (fst (moment nr false j s)) in m (a + b)%nat ^ 2 <= m (2 * a)%nat * m (2 * b)%nat.
Proof. intros H E A B m. unfold m. rewrite !(moment_at _ _ _ _ _ H) by lia. now apply (moment_schwarz n). Qed.
Lemma moment_skip nr j s n k : spectrum_on n s -> (2 * k <= nr)%nat -> at_R (fst (moment nr true j s)) k = at_R (fst (moment nr false j s)) (2 * k) /\ nth k (snd (moment nr true j s)) EmptyString = nth (2 * k) (snd (moment nr false j s)) EmptyString.
Proof.
  intros H Hk. rewrite (moment_at _ _ _ _ _ H), (moment_even_at _ _ _ _ _ H) by easy. split; [easy|]. rewrite (moment_values nr true j s n H), (moment_values nr false j s n H). cbn [snd].
  assert (k <= nr / 2)%nat by (apply Nat.div_le_lower_bound; lia). rewrite Nat.div_1_r. rewrite (nth_map_seq _ 0 (S (nr / 2))), (nth_map_seq _ 0 (S nr)) by lia. f_equal. cbn [Nat.add]. lia.
Qed.

Lemma default_refuted : ~ (forall s n, spectrum_on n s -> positive_moments s -> bandwidth (One 0) s = bandwidth (Several [Index 0]) s).
Proof. intros H. specialize (H three 3%nat three_on three_positive). rewrite bandwidth_default in H. discriminate. Qed.
Lemma hertz_moment_eq k : moment_of three_hz 0 k = moment_of (set_freqtype Omega three_hz) 0 k.
Proof. symmetry. apply (moment_units Omega three_hz 0 k 3 three_hz_on). Qed.
Lemma three_hz_pos k : 0 < moment_of three_hz 0 k.
Proof.
  assert (E : moment_of three_hz 0 k = / (2 * PI) * (2 * PI) * ((2 * PI) ^ k) * moment_of three 0 k).
  { unfold moment_of. change (List.length (sargs three_hz)) with 3%nat. change (List.length (sargs three)) with 3%nat. pose proof two_pi as W.
    rewrite (simpson_ext 3 _ (fun i => (2 * PI) * omega three i) _ (fun l => (/ (2 * PI) * (2 * PI) ^ k) * (Rabs (density three l) ^ (0 + 1) * omega three l ^ k))).
    - rewrite simpson_stretch, simpson_scale by (easy || lia || (apply (omega_rising 3 three three_on))). field. lra.
    - lia.
    - intros i Hi. unfold omega, three_hz, three. reflexivity || (cbn [freqtype angular sargs]; ring).
    - intros i Hi. unfold omega, density. change (freqtype three_hz) with Hertz. change (freqtype three) with Omega. change (at_R (sdata three_hz) i) with (at_R (sdata three) i). change (at_R (sargs three_hz) i) with (at_R (sargs three) i).
      cbn [angular]. unfold Rdiv. rewrite Rabs_mult, (Rabs_right (/ (2 * PI))) by (apply Rle_ge, Rlt_le, Rinv_0_lt_compat, W). cbn [Nat.add]. rewrite !pow_1, Rpow_mult_distr. ring. }
  rewrite E. pose proof two_pi. pose proof (pow_lt (2 * PI) k H). rewrite Rinv_l by lra. assert (0 < moment_of three 0 k); [|nra].
  destruct k; [rewrite three_moment0; cbn; lra|rewrite three_moment]. pose proof (pow_lt 2 (S k) ltac:(lra)). cbn [Nat.add] in *. lra.
Qed.
Lemma normalize_refuted : ~ (forall g s n, spectrum_on n s -> freqtype s <> Wavenumber -> positive_moments s -> 0 < g -> exists s' a g', normalize g s = (s', a, g') /\ moment_of s' 0 0 = 1 /\ moment_of s' 0 2 = 1).
Proof.
  intros H. destruct (H 1 three_hz 3%nat three_hz_on ltac:(easy) ltac:(intros k _; apply three_hz_pos) ltac:(lra)) as (s' & a & g' & E & A & B).
  destruct (normalize_hertz 1 three_hz 3 three_hz_on eq_refl (three_hz_pos 0) (three_hz_pos 2)) as (s2 & a2 & E2 & _ & B2). assert (s' = s2) by congruence. subst s2. rewrite B in B2. pose proof PI2_1. unfold PI2 in *. assert (1 < PI) by lra.
  assert (1 * (4 * PI ^ 2) = 1) by (rewrite B2 at 1; field; lra). nra.
Qed.
Definition three_k : spectrum := Spectrum [0; 2; 1] [0; 1; 2] Wavenumber.
Lemma three_k_on : spectrum_on 3 three_k.
Proof. repeat split; try (cbn; lia). intros i Hi. destruct i as [|[|i]]; [cbn; lra..|lia]. Qed.
Lemma three_k_moment k : moment_of three_k 0 k = moment_of three 0 k.
Proof. reflexivity. Qed.
Lemma wavenumber_refuted : ~ (forall g s n, spectrum_on n s -> freqtype s = Wavenumber -> positive_moments s -> 0 < g -> exists s' a g', normalize g s = (s', a, g') /\ moment_of s' 0 0 = 1).
Proof.
  intros H. destruct (H 1 three_k 3%nat three_k_on eq_refl ltac:(intros k Hk; rewrite three_k_moment; now apply three_positive) ltac:(lra)) as (s' & a & g' & E & A).
  destruct (normalize_wavenumber 1 three_k eq_refl) as (a2 & E2). assert (s' = three_k) by congruence. subst s'. rewrite three_k_moment, three_moment0 in A. cbn [Nat.add pow] in A. lra.
Qed.
Lemma characteristic_named w i T g s : (i < 15)%nat -> same_letters w (nth i names EmptyString) -> characteristic [Name w] T g s = characteristic [Index (Z.of_nat i)] T g s.
Proof. intros Hi Hw. apply characteristic_names; [reflexivity|]. intros p Hp. cbn in Hp. destruct p; [|lia]. now exists w, i. Qed.
