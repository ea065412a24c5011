From Coq Require Import Reals Lra Lia Psatz String.
From Coquelicot Require Import Coquelicot.
From Verif Require Import Base PolyModel KdeModel GridModel GridSpec ProcSpec ProcProofs CovSpec CovProofs CovProofs2 CovProofs3 SpcovModel SpcovSpec SpcovProofs3 SpectModel SpectSpec SpectProofs.
Local Open Scope R_scope.

Lemma at_map2 (f : R -> R -> R) (a b : list R) i : (i < List.length a)%nat -> (i < List.length b)%nat -> at_R (map2 f a b) i = f (at_R a i) (at_R b i).
Proof. revert b i. induction a as [|x a IH]; intros [|y b] [|i] H1 H2; cbn in *; try lia; try reflexivity. apply IH; lia. Qed.
Lemma len_map2 (f : R -> R -> R) (a b : list R) : List.length a = List.length b -> List.length (map2 f a b) = List.length a.
Proof. revert b. induction a as [|x a IH]; intros [|y b] H; cbn in *; try lia. now rewrite IH by lia. Qed.
Lemma at_map (f : R -> R) l i : (i < List.length l)%nat -> at_R (map f l) i = f (at_R l i).
Proof. intros H. unfold at_R. rewrite (nth_indep _ 0 (f 0)) by (now rewrite map_length). apply map_nth. Qed.
Lemma loop_value n : forall k step i s1 f, (1 <= n)%nat -> List.length s1 = n -> List.length f = n ->
  moment_loop k step i s1 (map (fun v => v ^ step) f) f
  = map (fun q => (simpson n (at_R f) (fun l => at_R s1 l * at_R f l ^ (step * S q)), (i + step * S q)%nat)) (seq 0 k).
Proof.
  induction k as [|k IH]; intros step i s1 f Hn H1 H2; [reflexivity|]. cbn [moment_loop seq map]. rewrite <- seq_shift, map_map.
  assert (L : List.length (map2 Rmult s1 (map (fun v => v ^ step) f)) = n) by (rewrite len_map2; rewrite ?map_length; lia).
  assert (A : forall l, (l < n)%nat -> at_R (map2 Rmult s1 (map (fun v => v ^ step) f)) l = at_R s1 l * at_R f l ^ step).
  { intros l Hl. rewrite at_map2 by (rewrite ?map_length; lia). rewrite (at_map (fun v => v ^ step)) by lia. reflexivity. }
  f_equal.
  - f_equal; [|lia]. rewrite (simps_value _ _ n) by easy. apply simpson_ext; try easy. intros l Hl. rewrite A by easy. f_equal. f_equal. lia.
  - rewrite IH by easy. apply map_ext. intros q. f_equal; [|lia]. apply simpson_ext; try easy. intros l Hl. rewrite A by easy. replace (step * S (S q))%nat with (step + step * S q)%nat by lia. rewrite pow_add. ring.
Qed.
Lemma axis_at s i : (i < List.length (sargs s))%nat -> at_R (angular_axis s) i = omega s i.
Proof. intros H. unfold angular_axis, omega. destruct (freqtype s); cbn [angular]; try reflexivity. now rewrite (at_map (fun v => 2 * PI * v)). Qed.
Lemma data_at s i : (i < List.length (sdata s))%nat -> at_R (angular_data s) i = density s i.
Proof. intros H. unfold angular_data, density. destruct (freqtype s); try reflexivity. now rewrite (at_map (fun v => v / (2 * PI))). Qed.
Lemma axis_length s : List.length (angular_axis s) = List.length (sargs s). Proof. unfold angular_axis. destruct (freqtype s); now rewrite ?map_length. Qed.
Lemma data_length s : List.length (angular_data s) = List.length (sdata s). Proof. unfold angular_data. destruct (freqtype s); now rewrite ?map_length. Qed.
Lemma moment_values nr (even : bool) j s n : spectrum_on n s -> let step := if even then 2%nat else 1%nat in
  moment nr even j s = (map (fun k => moment_of s j (k * step)) (seq 0 (S (nr / step))), map (fun k => moment_text j (freqtype s) (k * step)) (seq 0 (S (nr / step)))).
Proof.
  intros (Hn & Hx & Hy & _) step. unfold moment. fold step. rewrite (loop_value n) by (rewrite ?map_length, ?axis_length, ?data_length; lia).
  assert (A : forall l, (l < n)%nat -> at_R (map (fun v => Rabs v ^ (j + 1)) (angular_data s)) l = Rabs (density s l) ^ (j + 1)).
  { intros l Hl. rewrite (at_map (fun v => Rabs v ^ (j + 1))) by (rewrite data_length; lia). now rewrite data_at by lia. }
  cbn [map fst snd seq]. f_equal.
  - f_equal.
    + rewrite (simps_value _ _ n) by (rewrite ?map_length, ?axis_length, ?data_length; lia). unfold moment_of. rewrite Hx. apply simpson_ext; try easy; intros l Hl; [apply axis_at; lia|]. rewrite A by easy. cbn [Nat.mul pow]. ring.
    + rewrite map_map, <- seq_shift, map_map. apply map_ext. intros q. cbn [fst]. unfold moment_of. rewrite Hx. apply simpson_ext; try easy; intros l Hl; [apply axis_at; lia|]. rewrite A, axis_at by lia. f_equal. f_equal. lia.
  - f_equal. rewrite map_map, <- seq_shift, map_map. apply map_ext. intros q. cbn [snd]. f_equal. lia.
Qed.
Lemma moment_at nr j s n k : spectrum_on n s -> (k <= nr)%nat -> at_R (fst (moment nr false j s)) k = moment_of s j k.
Proof.
  intros Hs Hk. rewrite (moment_values nr false j s n Hs). cbn [fst]. rewrite Nat.div_1_r. unfold at_R. rewrite nth_map_seq by lia. cbn [Nat.add]. now rewrite Nat.mul_1_r.
Qed.
Lemma moment_even_at nr j s n k : spectrum_on n s -> (2 * k <= nr)%nat -> at_R (fst (moment nr true j s)) k = moment_of s j (2 * k).
Proof.
  intros Hs Hk. rewrite (moment_values nr true j s n Hs). cbn [fst]. unfold at_R. assert (k <= nr / 2)%nat by (apply Nat.div_le_lower_bound; lia). rewrite nth_map_seq by lia. f_equal. lia.
Qed.
Lemma moment_names s : snd (moment 4 false 0 s) = (match freqtype s with Wavenumber => ["m0"; "m0x"; "m0xx"; "m0xxx"; "m0xxxx"] | _ => ["m0"; "m0t"; "m0tt"; "m0ttt"; "m0tttt"] end)%string
  /\ snd (moment 4 true 1 s) = (match freqtype s with Wavenumber => ["m1"; "m1xx"; "m1xxxx"] | _ => ["m1"; "m1tt"; "m1tttt"] end)%string
  /\ snd (moment 2 true 0 s) = (match freqtype s with Wavenumber => ["m0"; "m0xx"] | _ => ["m0"; "m0tt"] end)%string.
Proof. unfold moment. destruct (freqtype s); repeat split; reflexivity. Qed.

(* ---- units, scale ---- *)
Lemma two_pi : 0 < 2 * PI. Proof. pose proof PI_RGT_0. lra. Qed.
Lemma set_args t s : sargs (set_freqtype t s) = match t, freqtype s with Omega, Hertz => map (fun v => v * (2 * PI)) (sargs s) | Hertz, Omega => map (fun v => v / (2 * PI)) (sargs s) | _, _ => sargs s end.
Proof. unfold set_freqtype. destruct t, (freqtype s); reflexivity. Qed.
Lemma set_data t s : sdata (set_freqtype t s) = match t, freqtype s with Omega, Hertz => map (fun v => v / (2 * PI)) (sdata s) | Hertz, Omega => map (fun v => v * (2 * PI)) (sdata s) | _, _ => sdata s end.
Proof. unfold set_freqtype. destruct t, (freqtype s); reflexivity. Qed.
Lemma set_type t s : freqtype (set_freqtype t s) = match t, freqtype s with Omega, Hertz => Omega | Hertz, Omega => Hertz | _, u => u end.
Proof. unfold set_freqtype. destruct t; destruct (freqtype s) eqn:E; cbn; rewrite ?E; reflexivity. Qed.
Lemma set_length t s : List.length (sargs (set_freqtype t s)) = List.length (sargs s) /\ List.length (sdata (set_freqtype t s)) = List.length (sdata s).
Proof. rewrite set_args, set_data. destruct t, (freqtype s); rewrite ?map_length; split; reflexivity. Qed.
Lemma set_omega t s i : (i < List.length (sargs s))%nat -> omega (set_freqtype t s) i = omega s i.
Proof.
  intros H. pose proof two_pi. unfold omega. rewrite set_args, set_type. destruct t, (freqtype s); cbn [angular]; try reflexivity.
  - rewrite (at_map (fun v => v * (2 * PI))) by easy. ring.
  - rewrite (at_map (fun v => v / (2 * PI))) by easy. field. lra.
Qed.
Lemma set_density t s i : (i < List.length (sdata s))%nat -> density (set_freqtype t s) i = density s i.
Proof.
  intros H. pose proof two_pi. unfold density. rewrite set_data, set_type. destruct t, (freqtype s); try reflexivity.
  - rewrite (at_map (fun v => v / (2 * PI))) by easy. reflexivity.
  - rewrite (at_map (fun v => v * (2 * PI))) by easy. field. lra.
Qed.
Lemma set_spectrum_on t s n : spectrum_on n s -> spectrum_on n (set_freqtype t s).
Proof.
  intros (Hn & Hx & Hy & Hr). destruct (set_length t s) as [L1 L2]. repeat split; try lia. intros i Hi. rewrite set_args. pose proof two_pi. specialize (Hr i Hi).
  destruct t, (freqtype s); try exact Hr.
  - rewrite !(at_map (fun v => v * (2 * PI))) by lia. nra.
  - rewrite !(at_map (fun v => v / (2 * PI))) by lia. unfold Rdiv. apply Rmult_lt_compat_r; [now apply Rinv_0_lt_compat|easy].
Qed.
Lemma moment_units t s j i n : spectrum_on n s -> moment_of (set_freqtype t s) j i = moment_of s j i.
Proof.
  intros (Hn & Hx & Hy & Hr). unfold moment_of. destruct (set_length t s) as [L1 L2]. rewrite L1, Hx. apply simpson_ext; try easy; intros l Hl; [apply set_omega; lia|]. now rewrite set_omega, set_density by lia.
Qed.
Lemma moment_scale c s j i n : spectrum_on n s -> moment_of (amplified c s) j i = Rabs c ^ (j + 1) * moment_of s j i.
Proof.
  intros (Hn & Hx & Hy & Hr). unfold moment_of. rewrite <- simpson_scale. cbn [amplified sargs]. rewrite Hx. apply simpson_ext; try easy. intros l Hl.
  assert (E : density (amplified c s) l = c * density s l).
  { unfold density. cbn [amplified freqtype sdata]. rewrite (at_map (fun v => c * v)) by lia. destruct (freqtype s); unfold Rdiv; ring. }
  rewrite E, Rabs_mult, Rpow_mult_distr. cbn [amplified]. unfold omega. cbn [sargs freqtype amplified]. ring.
Qed.

(* ---- inequalities ---- *)
Lemma omega_rising n s : spectrum_on n s -> rising n (omega s).
Proof. intros (_ & _ & _ & H) i Hi. unfold omega. rewrite (angular_scale _ (at_R _ i)), (angular_scale _ (at_R _ (S i))). apply Rmult_lt_compat_l; [apply angular_pos; lra|now apply H]. Qed.
Lemma omega_even n s : even_axis n (at_R (sargs s)) -> even_axis n (omega s).
Proof.
  intros (h & Hh & H). exists (angular (freqtype s) h). split; [now apply angular_pos|]. intros i Hi. unfold omega. rewrite (angular_scale _ (at_R _ i)), (angular_scale _ (at_R _ (S i))), (angular_scale _ h). rewrite <- (H i Hi). ring.
Qed.
Lemma omega_nonneg n s : spectrum_on n s -> 0 <= at_R (sargs s) 0 -> forall i, (i < n)%nat -> 0 <= omega s i.
Proof.
  intros Hs H0 i. pose proof (omega_rising n s Hs) as Hr. induction i as [|i IH]; intros Hi; [unfold omega; rewrite angular_scale; apply Rmult_le_pos; [apply Rlt_le, angular_pos; lra|easy]|].
  specialize (Hr i Hi). specialize (IH ltac:(lia)). lra.
Qed.
Lemma moment_nonneg n s j i : spectrum_on n s -> even_axis n (at_R (sargs s)) -> 0 <= at_R (sargs s) 0 -> 0 <= moment_of s j i.
Proof.
  intros Hs He H0. pose proof Hs as (Hn & Hx & Hy & Hr). unfold moment_of. rewrite Hx. apply simpson_pos; [easy|now apply omega_even|]. intros l Hl.
  apply Rmult_le_pos; [apply pow_le, Rabs_pos|]. apply pow_le. now apply (omega_nonneg n).
Qed.
Lemma moment_schwarz n s j a b : spectrum_on n s -> even_axis n (at_R (sargs s)) -> moment_of s j (a + b) ^ 2 <= moment_of s j (2 * a) * moment_of s j (2 * b).
Proof.
  intros Hs He. pose proof Hs as (Hn & Hx & Hy & Hr). unfold moment_of. rewrite Hx.
  pose proof (cauchy_schwarz n (omega s) (fun l => Rabs (density s l) ^ (j + 1)) (fun l => omega s l ^ a) (fun l => omega s l ^ b) Hn (omega_even n s He) (fun i _ => pow_le _ (j + 1) (Rabs_pos _))) as C.
  rewrite (simpson_ext n _ (omega s) (fun l => Rabs (density s l) ^ (j + 1) * omega s l ^ (a + b)) (fun l => Rabs (density s l) ^ (j + 1) * (omega s l ^ a * omega s l ^ b))) by (intros; try easy; f_equal; apply pow_add).
  rewrite (simpson_ext n _ (omega s) (fun l => Rabs (density s l) ^ (j + 1) * omega s l ^ (2 * a)) (fun l => Rabs (density s l) ^ (j + 1) * (omega s l ^ a) ^ 2)) by (intros; try easy; f_equal; replace (2 * a)%nat with (a * 2)%nat by lia; apply pow_mult).
  rewrite (simpson_ext n _ (omega s) (fun l => Rabs (density s l) ^ (j + 1) * omega s l ^ (2 * b)) (fun l => Rabs (density s l) ^ (j + 1) * (omega s l ^ b) ^ 2)) by (intros; try easy; f_equal; replace (2 * b)%nat with (b * 2)%nat by lia; apply pow_mult).
  exact C.
Qed.
