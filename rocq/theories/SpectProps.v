(* Moments, bandwidth parameters, normalisation and characteristics of a spectrum *)
From Coq Require Import Reals Lra Lia String.
From Coquelicot Require Import Coquelicot.
From Verif Require Import Base PolyModel GridSpec ProcSpec CovModel SpcovModel SpcovSpec SpectModel SpectSpec SpectProofs2 SpectProofs3 SpectProofs5 SpectProofs6 SpectProofs7 SpectProofs8 SpectProofs9.
Local Open Scope R_scope.


Theorem c108_values : forall nr (even : bool) j s n, spectrum_on n s -> let step := if even then 2%nat else 1%nat in
  moment nr even j s = (map (fun k => moment_of s j (k * step)) (seq 0 (S (nr / step))), map (fun k => moment_text j (freqtype s) (k * step)) (seq 0 (S (nr / step)))).
Proof. exact (moment_values). Qed.
Print Assumptions c108_values.

Theorem c108_exact : forall nr j s n i a b c, spectrum_on n s -> Nat.odd n = true -> (i <= nr)%nat ->
  (forall l, (l < n)%nat -> Rabs (density s l) ^ (j + 1) * omega s l ^ i = a * omega s l ^ 2 + b * omega s l + c) ->
  is_RInt (fun x => a * x ^ 2 + b * x + c) (omega s 0) (omega s (n - 1)) (at_R (fst (moment nr false j s)) i).
Proof. exact (moment_exact). Qed.
Print Assumptions c108_exact.

Theorem c108_line : forall nr j s n i b c, spectrum_on n s -> (i <= nr)%nat -> (forall l, (l < n)%nat -> Rabs (density s l) ^ (j + 1) * omega s l ^ i = b * omega s l + c) ->
  is_RInt (fun x => b * x + c) (omega s 0) (omega s (n - 1)) (at_R (fst (moment nr false j s)) i).
Proof. exact (moment_line). Qed.
Print Assumptions c108_line.

Theorem c108_even : forall nr j s n k, spectrum_on n s -> (2 * k <= nr)%nat ->
  at_R (fst (moment nr true j s)) k = at_R (fst (moment nr false j s)) (2 * k)
  /\ nth k (snd (moment nr true j s)) EmptyString = nth (2 * k) (snd (moment nr false j s)) EmptyString.
Proof. exact (moment_skip). Qed.
Print Assumptions c108_even.

Theorem c108_units : forall nr (even : bool) j t s n, spectrum_on n s -> fst (moment nr even j (set_freqtype t s)) = fst (moment nr even j s).
Proof. exact (moment_same_units). Qed.
Print Assumptions c108_units.

Theorem c108_scale : forall nr (even : bool) j c s n, spectrum_on n s -> fst (moment nr even j (amplified c s)) = map (fun v => Rabs c ^ (j + 1) * v) (fst (moment nr even j s)).
Proof. exact (moment_amplified). Qed.
Print Assumptions c108_scale.

Theorem c108_nonneg : forall nr j s n i, spectrum_on n s -> even_axis n (at_R (sargs s)) -> 0 <= at_R (sargs s) 0 -> (i <= nr)%nat -> 0 <= at_R (fst (moment nr false j s)) i.
Proof. exact (moment_nonnegative). Qed.
Print Assumptions c108_nonneg.

Theorem c108_schwarz : forall nr j s n a b, spectrum_on n s -> even_axis n (at_R (sargs s)) -> (2 * a <= nr)%nat -> (2 * b <= nr)%nat ->
  let m := at_R (fst (moment nr false j s)) in m (a + b)%nat ^ 2 <= m (2 * a)%nat * m (2 * b)%nat.
Proof. exact (moment_cauchy). Qed.
Print Assumptions c108_schwarz.

Theorem c108_names : forall s, snd (moment 4 false 0 s) = (match freqtype s with Wavenumber => ["m0"; "m0x"; "m0xx"; "m0xxx"; "m0xxxx"] | _ => ["m0"; "m0t"; "m0tt"; "m0ttt"; "m0tttt"] end)%string
  /\ snd (moment 4 true 1 s) = (match freqtype s with Wavenumber => ["m1"; "m1xx"; "m1xxxx"] | _ => ["m1"; "m1tt"; "m1tttt"] end)%string
  /\ snd (moment 2 true 0 s) = (match freqtype s with Wavenumber => ["m0"; "m0xx"] | _ => ["m0"; "m0tt"] end)%string.
Proof. exact (moment_names). Qed.
Print Assumptions c108_names.

Example c108_case : spectrum_on 3 three /\ even_axis 3 (at_R (sargs three)) /\ 0 <= at_R (sargs three) 0 /\ moment_of three 0 0 = 3 /\ moment_of three 0 2 = 4 /\ moment_of three 1 3 = 8.
Proof. split; [exact three_on|]. split; [exact three_even|]. split; [cbn; lra|]. rewrite three_moment0, !three_moment. cbn [pow Nat.add]. split; [lra|split; lra]. Qed.

Theorem c109_values : forall s n, spectrum_on n s -> let m := moment_of s 0 in
  bandwidth_values s = [m 2%nat / sqrt (m 0%nat * m 4%nat); sqrt (m 0%nat * m 2%nat / m 1%nat ^ 2 - 1); sqrt (1 - m 2%nat ^ 2 / (m 0%nat * m 4%nat));
                        2 / m 0%nat ^ 2 * simpson n (omega s) (fun l => omega s l * density s l ^ 2)].
Proof. exact (bandwidth_list). Qed.
Print Assumptions c109_values.

Theorem c109_select : forall s l, (forall i, In i l -> (i < 4)%nat) -> bandwidth (Several (map (fun i => Index (Z.of_nat i)) l)) s = Ok (map (at_R (bandwidth_values s)) l).
Proof. exact (bandwidth_selects). Qed.
Print Assumptions c109_select.

Theorem c109_names_partial : forall s, let v := at_R (bandwidth_values s) in
  bandwidth (Word "alpha") s = Ok [v 0%nat] /\ bandwidth (Word "eps2") s = Ok [v 1%nat] /\ bandwidth (Word "Qp") s = Ok [v 3%nat]
  /\ bandwidth (Word "qp") s = Ok [v 3%nat] /\ bandwidth (Word "eps4") s = Ok [v 3%nat].
Proof. exact (bandwidth_names). Qed.
Print Assumptions c109_names_partial.

Theorem c109_eps4_refuted : ~ (forall s n, spectrum_on n s -> positive_moments s -> bandwidth (Word "eps4") s = Ok [sqrt (1 - moment_of s 0 2 ^ 2 / (moment_of s 0 0 * moment_of s 0 4))]).
Proof. exact (eps4_refuted). Qed.
Print Assumptions c109_eps4_refuted.

Theorem c109_default_refuted : ~ (forall s n, spectrum_on n s -> positive_moments s -> bandwidth (One 0) s = bandwidth (Several [Index 0]) s).
Proof. exact (default_refuted). Qed.
Print Assumptions c109_default_refuted.

Theorem c109_unknown : forall w s, ~ In w ["alpha"; "eps2"; "eps4"; "qp"; "Qp"]%string -> bandwidth (Word w) s = Err ValueError.
Proof. exact (bandwidth_unknown). Qed.
Print Assumptions c109_unknown.

Theorem c109_units : forall a t s n, spectrum_on n s -> bandwidth a (set_freqtype t s) = bandwidth a s.
Proof. exact (bandwidth_units). Qed.
Print Assumptions c109_units.

Theorem c109_bounds : forall s n, spectrum_on n s -> even_axis n (at_R (sargs s)) -> 0 <= at_R (sargs s) 0 -> let m := moment_of s 0 in 0 < m 0%nat -> 0 < m 1%nat -> 0 < m 4%nat ->
  let v := at_R (bandwidth_values s) in 0 <= v 0%nat <= 1 /\ v 0%nat ^ 2 + v 2%nat ^ 2 = 1 /\ v 1%nat ^ 2 + 1 = m 0%nat * m 2%nat / m 1%nat ^ 2 /\ 0 <= v 3%nat.
Proof. exact (bandwidth_bounds). Qed.
Print Assumptions c109_bounds.

Theorem c109_normalize : forall g s n, spectrum_on n s -> freqtype s = Omega -> 0 < moment_of s 0 0 -> 0 < moment_of s 0 2 -> exists s' a g', normalize g s = (s', a, Some g')
  /\ moment_of s' 0 0 = 1 /\ moment_of s' 0 2 = 1 /\ (0 < g -> 0 < moment_of s 0 4 -> moment_of s' 0 4 / g' ^ 2 = 1).
Proof. exact (normalize_omega). Qed.
Print Assumptions c109_normalize.

Theorem c109_normalize_hertz : forall g s n, spectrum_on n s -> freqtype s = Hertz -> 0 < moment_of s 0 0 -> 0 < moment_of s 0 2 -> exists s' a, normalize g s = (s', a, None)
  /\ moment_of s' 0 0 = 1 /\ moment_of s' 0 2 = 1 / (4 * PI ^ 2).
Proof. exact (normalize_hertz). Qed.
Print Assumptions c109_normalize_hertz.

Theorem c109_normalize_refuted : ~ (forall g s n, spectrum_on n s -> freqtype s <> Wavenumber -> positive_moments s -> 0 < g ->
     exists s' a g', normalize g s = (s', a, g') /\ moment_of s' 0 0 = 1 /\ moment_of s' 0 2 = 1).
Proof. exact (normalize_refuted). Qed.
Print Assumptions c109_normalize_refuted.

Theorem c109_wavenumber_refuted : ~ (forall g s n, spectrum_on n s -> freqtype s = Wavenumber -> positive_moments s -> 0 < g -> exists s' a g', normalize g s = (s', a, g') /\ moment_of s' 0 0 = 1).
Proof. exact (wavenumber_refuted). Qed.
Print Assumptions c109_wavenumber_refuted.

Example c109_case : spectrum_on 3 three /\ freqtype three = Omega /\ positive_moments three /\ spectrum_on 3 three_hz /\ (forall k, 0 < moment_of three_hz 0 k).
Proof. exact (conj three_on (conj eq_refl (conj three_positive (conj three_hz_on three_hz_pos)))). Qed.

Theorem c110_values : forall T g s n, spectrum_on n s -> positive_moments s -> 0 < g -> let mu := hz_moment s in exists ch r txt, characteristic everything T g s = Ok (ch, r, txt)
  /\ at_R ch 0 = Hm0 mu /\ at_R ch 1 = Tm01 mu /\ at_R ch 2 = Tm02 mu /\ at_R ch 3 = Tm24 mu /\ at_R ch 6 = steepness g mu
  /\ at_R ch 11 = irregularity mu /\ at_R ch 12 = narrowness mu /\ at_R ch 13 = broadness mu.
Proof. exact (values_moments). Qed.
Print Assumptions c110_values.

Theorem c110_energy_period : forall T g s n i, spectrum_on n s -> freqtype s <> Hertz -> (i < n)%nat -> 0 < at_R (sargs s) i -> 0 < T ->
  exists ch r txt, characteristic everything T g s = Ok (ch, r, txt) /\ at_R ch 4 = Tm_10 (hz_moment s).
Proof. exact (value_energy). Qed.
Print Assumptions c110_energy_period.

Theorem c110_peak : forall T g s n i, spectrum_on n s -> freqtype s <> Hertz -> peak_at s i -> exists ch r txt, characteristic everything T g s = Ok (ch, r, txt)
  /\ at_R ch 5 = 2 * PI / omega s i /\ at_R ch 7 = 2 * PI * at_R ch 0 / g / at_R ch 5 ^ 2.
Proof. exact (value_peak). Qed.
Print Assumptions c110_peak.

Theorem c110_peak_exists : forall s n, spectrum_on n s -> exists i, peak_at s i.
Proof. exact (peak_exists). Qed.
Print Assumptions c110_peak_exists.

Theorem c110_peak_hertz : forall T g s n i, spectrum_on n s -> freqtype s = Hertz -> peak_at s i -> 0 < omega s i -> exists ch r txt, characteristic everything T g s = Ok (ch, r, txt)
  /\ at_R ch 5 = 2 * PI * (2 * PI / omega s i).
Proof. exact (value_peak_hertz). Qed.
Print Assumptions c110_peak_hertz.

Theorem c110_peak_refuted : ~ (forall T g s n i, spectrum_on n s -> peak_at s i -> 0 < omega s i -> exists ch r txt, characteristic everything T g s = Ok (ch, r, txt) /\ at_R ch 5 = 2 * PI / omega s i).
Proof. exact (peak_refuted). Qed.
Print Assumptions c110_peak_refuted.

Theorem c110_groupiness : forall T g s n, spectrum_on n s -> even_axis n (at_R (sargs s)) -> freqtype s <> Hertz -> (forall i, (i < n)%nat -> 0 <= at_R (sdata s) i) -> 0 < moment_of s 0 0 ->
  exists ch r txt, characteristic everything T g s = Ok (ch, r, txt) /\ 0 <= at_R ch 8 <= 1.
Proof. exact (groupiness_bounds). Qed.
Print Assumptions c110_groupiness.

Theorem c110_smooth_peak : forall T g s n, spectrum_on n s -> even_axis n (at_R (sargs s)) -> freqtype s <> Hertz -> 0 < simpson n (at_R (sargs s)) (fun i => at_R (sargs s) i * at_R (sdata s) i ^ 4) ->
  exists ch r txt, characteristic everything T g s = Ok (ch, r, txt) /\ at_R ch 10 * at_R (sargs s) (n - 1) >= 2 * PI /\ at_R ch 10 * at_R (sargs s) 0 <= 2 * PI.
Proof. exact (smooth_peak_bound). Qed.
Print Assumptions c110_smooth_peak.

Theorem c110_variances : forall T g s n i, spectrum_on n s -> freqtype s <> Hertz -> (i < n)%nat -> 0 < at_R (sargs s) i -> positive_moments s -> 0 < T -> 0 < g ->
  0 < narrowness (hz_moment s) -> 0 < broadness (hz_moment s) -> exists ch r txt, characteristic everything T g s = Ok (ch, r, txt)
  /\ forall k f, In (k, f) (functions g) -> exists v, entry r k k = Some v /\ delta_covariance (hz_moment s) (hz_covariance s T) f f v.
Proof. exact (delta_variances). Qed.
Print Assumptions c110_variances.

Theorem c110_symmetric : forall T g s, exists ch r txt, characteristic everything T g s = Ok (ch, r, txt) /\ forall i k, (i < 15)%nat -> (k < 15)%nat -> entry r i k = entry r k i.
Proof. exact (symmetric_table). Qed.
Print Assumptions c110_symmetric.

Theorem c110_covariance_partial : forall T g s n i, spectrum_on n s -> freqtype s <> Hertz -> (i < n)%nat -> 0 < at_R (sargs s) i -> positive_moments s -> 0 < T ->
  exists ch r txt, characteristic everything T g s = Ok (ch, r, txt) /\ exists v, entry r 1 2 = Some v /\ delta_covariance (hz_moment s) (hz_covariance s T) Tm01 Tm02 v.
Proof. exact (delta_periods). Qed.
Print Assumptions c110_covariance_partial.

Theorem c110_covariance_shifted : forall T g s n i, spectrum_on n s -> freqtype s <> Hertz -> (i < n)%nat -> 0 < at_R (sargs s) i -> positive_moments s -> 0 < T ->
  exists ch r txt, characteristic everything T g s = Ok (ch, r, txt) /\ entry r 0 1 = None
  /\ (exists v, entry r 0 2 = Some v /\ delta_covariance (hz_moment s) (hz_covariance s T) Hm0 Tm01 v)
  /\ (exists v, entry r 0 3 = Some v /\ delta_covariance (hz_moment s) (hz_covariance s T) Hm0 Tm02 v).
Proof. exact (delta_shifted). Qed.
Print Assumptions c110_covariance_shifted.

Theorem c110_covariance_refuted : ~ (forall T g s n i, spectrum_on n s -> freqtype s = Omega -> (i < n)%nat -> 0 < at_R (sargs s) i -> positive_moments s -> 0 < T -> 0 < g ->
  exists ch r txt v, characteristic everything T g s = Ok (ch, r, txt) /\ entry r 0 2 = Some v /\ delta_covariance (hz_moment s) (hz_covariance s T) Hm0 Tm02 v).
Proof. exact (shifted_refuted). Qed.
Print Assumptions c110_covariance_refuted.

Theorem c110_select : forall T g s ids, (forall i, In i ids -> (i < 15)%nat) -> exists ch r txt, characteristic everything T g s = Ok (ch, r, txt)
  /\ characteristic (map (fun i => Index (Z.of_nat i)) ids) T g s
     = Ok (map (at_R ch) ids, map (fun i => map (fun k => nth k (nth i r []) None) ids) ids, map (fun i => nth i txt EmptyString) ids).
Proof. exact (characteristic_selects). Qed.
Print Assumptions c110_select.

Theorem c110_names : forall w i T g s, (i < 15)%nat -> same_letters w (nth i names EmptyString) -> characteristic [Name w] T g s = characteristic [Index (Z.of_nat i)] T g s.
Proof. exact (characteristic_named). Qed.
Print Assumptions c110_names.

Theorem c110_unknown : forall w fact T g s, (forall v, In v names -> ~ same_letters w v) -> In (Name w) fact -> characteristic fact T g s = Err ValueError.
Proof. exact (name_unknown). Qed.
Print Assumptions c110_unknown.

Theorem c110_range : forall fact T g s, (exists i, In (Index i) fact /\ (i < 0 \/ 15 <= i)%Z) -> characteristic fact T g s = Err ValueError.
Proof. exact (out_of_range). Qed.
Print Assumptions c110_range.

Theorem c110_units : forall t T g s n ids, spectrum_on n s -> (forall i, In i ids -> In i [0; 1; 2; 3; 6; 11; 12; 13; 14]%nat) ->
  characteristic (map (fun i => Index (Z.of_nat i)) ids) T g (set_freqtype t s) = characteristic (map (fun i => Index (Z.of_nat i)) ids) T g s.
Proof. exact (characteristic_units). Qed.
Print Assumptions c110_units.

Example c110_case : spectrum_on 3 three /\ freqtype three <> Hertz /\ (1 < 3)%nat /\ 0 < at_R (sargs three) 1 /\ positive_moments three /\ 0 < narrowness (hz_moment three) /\ 0 < broadness (hz_moment three)
  /\ same_letters "EPS2" "eps2" /\ peak_at three_hz 1.
Proof. split; [exact three_on|]. split; [easy|]. split; [lia|]. split; [cbn; lra|]. exact (conj three_positive (conj three_narrow (conj three_broad (conj eq_refl peak_hz)))). Qed.
