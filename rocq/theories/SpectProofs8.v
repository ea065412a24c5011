From Coq Require Import Reals Lra Lia Psatz String.
From Coquelicot Require Import Coquelicot.
From Verif Require Import Base PolyModel KdeModel GridModel GridSpec ProcSpec ProcProofs CovModel CovSpec CovProofs CovProofs2 CovProofs3 SpcovModel SpcovSpec SpcovProofs3 SpectModel SpectSpec SpectProofs SpectProofs2 SpectProofs3 SpectProofs4 SpectProofs5 SpectProofs6 SpectProofs7.
Local Open Scope R_scope.

Lemma positive_root x : 0 < sqrt x -> 0 < x.
Proof. intros H. apply sqrt_lt_0_alt. now rewrite sqrt_0. Qed.
Lemma diagonal g q i : cov_entry g q i i = nth i (variances g q) None.
Proof. unfold cov_entry, upper_entry. rewrite Nat.ltb_irrefl, Nat.eqb_refl. reflexivity. Qed.
Lemma delta_variances T g s n i : spectrum_on n s -> freqtype s <> Hertz -> (i < n)%nat -> 0 < at_R (sargs s) i -> positive_moments s -> 0 < T -> 0 < g ->
  0 < narrowness (hz_moment s) -> 0 < broadness (hz_moment s) -> exists ch r txt, characteristic everything T g s = Ok (ch, r, txt)
  /\ forall k f, In (k, f) (functions g) -> exists v, entry r k k = Some v /\ delta_covariance (hz_moment s) (hz_covariance s T) f f v.
Proof.
  intros H F Hi P M HT Hg N B. rewrite everything_value. eexists _, _, _. split; [reflexivity|]. intros k f I.
  pose proof (matches_omega T s n i H Hi P F HT) as Q.
  pose proof (hz_pos s 0 M ltac:(lia)) as P0. pose proof (hz_pos s 1 M ltac:(lia)) as P1. pose proof (hz_pos s 2 M ltac:(lia)) as P2. pose proof (hz_pos s 4 M ltac:(lia)) as P4. cbn [Z.of_nat Pos.of_succ_nat Pos.succ] in *.
  apply positive_root in N. apply positive_root in B. unfold entry.
  cbn [functions In] in I. repeat match goal with I : _ \/ _ |- _ => destruct I as [I|I] end; [injection I as <- <-..|destruct I]; rewrite entry_everything, diagonal by lia;
    [apply var_Hm0|apply var_Tm01|apply var_Tm02|apply var_Tm24|apply var_Tm_10|apply var_Ss|apply var_alpha|apply var_eps2|apply var_eps4]; easy.
Qed.
Lemma symmetric_table T g s : exists ch r txt, characteristic everything T g s = Ok (ch, r, txt) /\ forall i k, (i < 15)%nat -> (k < 15)%nat -> entry r i k = entry r k i.
Proof. rewrite everything_value. eexists _, _, _. split; [reflexivity|]. intros i k Hi Hk. unfold entry. rewrite !entry_everything by easy. apply cov_symmetric. Qed.
Lemma delta_periods T g s n i : spectrum_on n s -> freqtype s <> Hertz -> (i < n)%nat -> 0 < at_R (sargs s) i -> positive_moments s -> 0 < T ->
  exists ch r txt, characteristic everything T g s = Ok (ch, r, txt) /\ exists v, entry r 1 2 = Some v /\ delta_covariance (hz_moment s) (hz_covariance s T) Tm01 Tm02 v.
Proof.
  intros H F Hi P M HT. rewrite everything_value. eexists _, _, _. split; [reflexivity|]. pose proof (matches_omega T s n i H Hi P F HT) as Q.
  eexists. unfold entry. rewrite entry_everything by lia. split; [reflexivity|].
  apply cov_Tm01_Tm02; [easy|apply (hz_pos s 0 M); lia|apply (hz_pos s 1 M); lia|apply (hz_pos s 2 M); lia].
Qed.
(* Hm0 and the periods: one column too far right *)
Lemma delta_shifted T g s n i : spectrum_on n s -> freqtype s <> Hertz -> (i < n)%nat -> 0 < at_R (sargs s) i -> positive_moments s -> 0 < T ->
  exists ch r txt, characteristic everything T g s = Ok (ch, r, txt) /\ entry r 0 1 = None
  /\ (exists v, entry r 0 2 = Some v /\ delta_covariance (hz_moment s) (hz_covariance s T) Hm0 Tm01 v)
  /\ (exists v, entry r 0 3 = Some v /\ delta_covariance (hz_moment s) (hz_covariance s T) Hm0 Tm02 v).
Proof.
  intros H F Hi P M HT. rewrite everything_value. eexists _, _, _. split; [reflexivity|]. pose proof (matches_omega T s n i H Hi P F HT) as Q.
  unfold entry. rewrite !entry_everything by lia. split; [reflexivity|]. split; eexists; (split; [reflexivity|]).
  - apply cov_Hm0_Tm01; [easy|apply (hz_pos s 0 M); lia|apply (hz_pos s 1 M); lia].
  - apply cov_Hm0_Tm02; [easy|apply (hz_pos s 0 M); lia|apply (hz_pos s 2 M); lia].
Qed.

(* units *)
Lemma same_momenta t T s n : spectrum_on n s -> (forall k, (k <= 4)%nat -> mom (momenta_of T (set_freqtype t s)) k = mom (momenta_of T s) k) /\ (forall k, (k <= 8)%nat -> mij (momenta_of T (set_freqtype t s)) k = mij (momenta_of T s) k).
Proof.
  intros H. split; intros k Hk; cbn [momenta_of mom mij]; rewrite (moment_at _ _ _ _ _ H), (moment_at _ _ _ _ _ (set_spectrum_on t s n H)), (moment_units t s _ _ n H) by lia; reflexivity.
Qed.
Lemma characteristic_units t T g s n ids : spectrum_on n s -> (forall i, In i ids -> In i [0; 1; 2; 3; 6; 11; 12; 13; 14]%nat) ->
  characteristic (map (fun i => Index (Z.of_nat i)) ids) T g (set_freqtype t s) = characteristic (map (fun i => Index (Z.of_nat i)) ids) T g s.
Proof.
  intros H L. assert (B : forall i, In i ids -> (i < 15)%nat) by (intros i I; specialize (L i I); cbn [In] in L; lia). rewrite !characteristic_value by easy.
  destruct (same_momenta t T s n H) as (A & C).
  assert (PV : simps (map2 (fun w y => w * y ^ 2) (sargs (set_freqtype t s)) (sdata (set_freqtype t s))) (sargs (set_freqtype t s)) = simps (map2 (fun w y => w * y ^ 2) (sargs s) (sdata s)) (sargs s)).
  { rewrite (peakedness_value s n H), (peakedness_value _ n (set_spectrum_on t s n H)). apply simpson_ext; [apply H| |]; intros l Hl; rewrite ?set_density, ?set_omega by (destruct H as (_ & L1 & L2 & _); lia); reflexivity. }
  f_equal. f_equal. f_equal.
  - apply map_ext_in. intros i I. specialize (L i I). cbn [In] in L.
    repeat match goal with I : _ \/ _ |- _ => destruct I as [I|I] end; [subst i..|destruct L]; pick; rewrite ?PV, ?A by lia; reflexivity.
  - apply map_ext_in. intros i I. apply map_ext_in. intros k K. apply L in I. apply L in K. cbn [In] in I, K.
    assert (E0 : forall i, In i [0; 1; 2; 3; 6; 11; 12; 13; 14]%nat -> nth i (variances g (momenta_of T (set_freqtype t s))) None = nth i (variances g (momenta_of T s)) None).
    { intros j J. cbn [In] in J. repeat match goal with I : _ \/ _ |- _ => match I with J => destruct I as [I|I] end end; [subst j..|destruct J]; unfold variances; cbn [nth]; rewrite ?A, ?C by lia; reflexivity. }
    assert (E1 : covariances (momenta_of T (set_freqtype t s)) = covariances (momenta_of T s)) by (unfold covariances; now rewrite ?A, ?C by lia).
    assert (U : forall i k, In i [0; 1; 2; 3; 6; 11; 12; 13; 14]%nat -> upper_entry g (momenta_of T (set_freqtype t s)) i k = upper_entry g (momenta_of T s) i k).
    { intros a b Ia. unfold upper_entry. rewrite E1. destruct (a =? b)%nat; [now apply E0|reflexivity]. }
    unfold cov_entry. destruct (_ && _)%bool; apply U; assumption.
Qed.

(* a spectrum with three frequencies *)
Definition three : spectrum := Spectrum [0; 2; 1] [0; 1; 2] Omega.
Lemma three_on : spectrum_on 3 three.
Proof. repeat split; try (cbn; lia). intros i Hi. destruct i as [|[|i]]; [cbn; lra..|lia]. Qed.
Lemma three_even : even_axis 3 (at_R (sargs three)).
Proof. exists 1. split; [lra|]. intros i Hi. destruct i as [|[|i]]; [cbn; lra..|lia]. Qed.
Lemma three_moment j k : moment_of three j (S k) = (4 * 2 ^ (j + 1) + 2 ^ S k) / 3.
Proof.
  unfold moment_of. rewrite (simpson_ext _ _ (fun i => INR i) _ (fun i => match i with 1%nat => 2 ^ (j + 1) | 2%nat => 2 ^ S k | _ => 0 end)).
  - unfold simpson. cbn [three sargs List.length Nat.odd Nat.even negb]. unfold parabolas, parabola. cbn [Nat.sub Nat.div Nat.divmod fst seq map sumR fold_right Nat.add Nat.mul INR]. field.
  - cbn. lia.
  - intros i Hi. cbn in Hi. destruct i as [|[|[|i]]]; [cbn; lra..|lia].
  - intros i Hi. cbn in Hi. unfold density, omega. destruct i as [|[|[|i]]]; [| | |lia]; unfold three, at_R; cbn [freqtype sdata sargs nth angular].
    + rewrite (pow_i (S k)) by lia. ring.
    + rewrite Rabs_right by lra. rewrite pow1. ring.
    + rewrite Rabs_R1, pow1. ring.
Qed.
Lemma three_moment0 j : moment_of three j 0 = (4 * 2 ^ (j + 1) + 1) / 3.
Proof.
  unfold moment_of. rewrite (simpson_ext _ _ (fun i => INR i) _ (fun i => match i with 1%nat => 2 ^ (j + 1) | 2%nat => 1 | _ => 0 end)).
  - unfold simpson. cbn [three sargs List.length Nat.odd Nat.even negb]. unfold parabolas, parabola. cbn [Nat.sub Nat.div Nat.divmod fst seq map sumR fold_right Nat.add Nat.mul INR]. field.
  - cbn. lia.
  - intros i Hi. cbn in Hi. destruct i as [|[|[|i]]]; [cbn; lra..|lia].
  - intros i Hi. cbn in Hi. unfold density, omega. destruct i as [|[|[|i]]]; [| | |lia]; unfold three, at_R; cbn [freqtype sdata sargs nth angular].
    + rewrite Rabs_R0, pow_i by lia. ring.
    + rewrite Rabs_right by lra. cbn [pow]. ring.
    + rewrite Rabs_R1, pow1. cbn [pow]. ring.
Qed.
Lemma three_positive : positive_moments three.
Proof. intros k Hk. destruct k as [|[|[|[|[|k]]]]]; [rewrite three_moment0; cbn; lra|rewrite three_moment; cbn; lra..|lia]. Qed.
Lemma three_mu : let w := 2 * PI in hz_moment three 0 = 3 /\ hz_moment three 1 = 10 / 3 / w /\ hz_moment three 2 = 4 / w ^ 2 /\ hz_moment three 4 = 8 / w ^ 4.
Proof.
  intros w. unfold hz_moment. change (Z.to_nat 0) with 0%nat. change (Z.to_nat 1) with 1%nat. change (Z.to_nat 2) with 2%nat. change (Z.to_nat 4) with 4%nat. rewrite !three_moment, three_moment0. fold w.
  assert (0 < w) by apply two_pi. split; [|split; [|split]]; cbn [pow Nat.add]; field; lra.
Qed.
Lemma three_narrow : 0 < narrowness (hz_moment three).
Proof.
  destruct three_mu as (A & B & C & D). unfold narrowness. rewrite A, B, C. pose proof two_pi. apply sqrt_lt_R0.
  replace (3 * (4 / (2 * PI) ^ 2) / (10 / 3 / (2 * PI)) ^ 2 - 1) with (8 / 100) by (field; pose proof PI_RGT_0; lra). lra.
Qed.
Lemma three_broad : 0 < broadness (hz_moment three).
Proof.
  destruct three_mu as (A & B & C & D). unfold broadness. rewrite A, C, D. pose proof two_pi. apply sqrt_lt_R0.
  replace (1 - (4 / (2 * PI) ^ 2) ^ 2 / (3 * (8 / (2 * PI) ^ 4))) with (1 / 3) by (field; pose proof PI_RGT_0; lra). lra.
Qed.
Lemma three_covariances : let q := momenta_of 1 three in at_R (covariances q) 0 <> at_R (covariances q) 1.
Proof.
  pose proof two_pi as W. pose proof PI_RGT_0 as W0.
  pose proof (matches_omega 1 three 3 1 three_on ltac:(lia) ltac:(cbn; lra) ltac:(easy) ltac:(lra)) as (M1 & _ & M3 & _).
  intros q. unfold covariances, at_R. cbn [nth]. unfold q. rewrite !M1, !M3 by lia. change (Z.of_nat 0) with 0%Z. change (Z.of_nat 1) with 1%Z. change (Z.of_nat 2) with 2%Z.
  destruct three_mu as (-> & -> & -> & _). unfold hz_covariance. change (Z.to_nat 0) with 0%nat. change (Z.to_nat 1) with 1%nat. change (Z.to_nat 2) with 2%nat. rewrite !three_moment, three_moment0.
  cbn [Nat.add]. set (w := 2 * PI) in *. assert (E4 : sqrt (4 / w ^ 2) = 2 / w). { apply sqrt_lem_1; [apply Rlt_le, Rdiv_lt_0_compat; [lra|now apply pow_lt]|apply Rlt_le, Rdiv_lt_0_compat; lra|field; lra]. }
  rewrite E4. intros E. pose proof (sqrt_lt_R0 3 ltac:(lra)) as S3. pose proof (sqrt_sqrt 3 ltac:(lra)) as Q. set (r := sqrt 3) in *.
  assert (E' : 144 / 100 = r). 
  { match type of E with ?a = ?b => replace a with (w ^ 2 * (16 / 100) / r) in E by (field; lra); replace b with (w ^ 2 * (1 / 9)) in E by (field; lra) end.
    assert (w ^ 2 * (16 / 100) = w ^ 2 * (1 / 9) * r) by (rewrite <- E; field; lra). assert (0 < w ^ 2) by now apply pow_lt. nra. }
  rewrite <- E' in Q. lra.
Qed.
Lemma shifted_refuted : ~ (forall T g s n i, spectrum_on n s -> freqtype s = Omega -> (i < n)%nat -> 0 < at_R (sargs s) i -> positive_moments s -> 0 < T -> 0 < g ->
  exists ch r txt v, characteristic everything T g s = Ok (ch, r, txt) /\ entry r 0 2 = Some v /\ delta_covariance (hz_moment s) (hz_covariance s T) Hm0 Tm02 v).
Proof.
  intros H. destruct (H 1 1 three 3%nat 1%nat three_on eq_refl ltac:(lia) ltac:(cbn; lra) three_positive ltac:(lra) ltac:(lra)) as (ch & r & txt & v & E & A & B).
  rewrite everything_value in E. assert (Er : r = map (fun i => map (cov_entry 1 (momenta_of 1 three) i) (seq 0 15)) (seq 0 15)) by congruence. clear E. subst r. unfold entry in A. rewrite entry_everything in A by lia.
  pose proof (matches_omega 1 three 3 1 three_on ltac:(lia) ltac:(cbn; lra) ltac:(easy) ltac:(lra)) as M. destruct three_mu as (M0 & _ & M2 & _). pose proof two_pi.
  assert (C : delta_covariance (hz_moment three) (hz_covariance three 1) Hm0 Tm02 (at_R (covariances (momenta_of 1 three)) 1)).
  { apply cov_Hm0_Tm02; [easy|rewrite M0; lra|rewrite M2; apply Rdiv_lt_0_compat; [lra|now apply pow_lt]]. }
  pose proof (delta_unique _ _ _ _ _ _ B C) as V. apply three_covariances. assert (A' : Some (at_R (covariances (momenta_of 1 three)) 0) = Some v) by exact A. assert (at_R (covariances (momenta_of 1 three)) 0 = v) by congruence. cbn zeta. congruence.
Qed.
Definition three_hz : spectrum := Spectrum [0; 2; 1] [0; 1; 2] Hertz.
Lemma three_hz_on : spectrum_on 3 three_hz.
Proof. repeat split; try (cbn; lia). intros i Hi. destruct i as [|[|i]]; [cbn; lra..|lia]. Qed.
Lemma peak_hz : peak_at three_hz 1.
Proof.
  split; [cbn; lia|]. split; intros k Hk; [apply density_le|apply density_lt]; unfold three_hz, at_R; cbn [sdata].
  - cbn in Hk. destruct k as [|[|[|k]]]; [cbn; lra..|lia].
  - destruct k; [cbn; lra|lia].
Qed.
Lemma peak_refuted : ~ (forall T g s n i, spectrum_on n s -> peak_at s i -> 0 < omega s i -> exists ch r txt, characteristic everything T g s = Ok (ch, r, txt) /\ at_R ch 5 = 2 * PI / omega s i).
Proof.
  intros H. assert (P : 0 < omega three_hz 1) by (unfold omega, three_hz, at_R; cbn; pose proof PI_RGT_0; lra).
  destruct (H 1 1 three_hz 3%nat 1%nat three_hz_on peak_hz P) as (ch & r & txt & E & A). destruct (value_peak_hertz 1 1 three_hz 3 1 three_hz_on eq_refl peak_hz P) as (ch' & r' & txt' & E' & A').
  assert (ch = ch') by congruence. subst ch'. rewrite A in A'. pose proof two_pi as W. pose proof PI2_1. assert (0 < 2 * PI / omega three_hz 1) by now apply Rdiv_lt_0_compat. unfold PI2 in *. nra.
Qed.
Lemma eps4_refuted : ~ (forall s n, spectrum_on n s -> positive_moments s -> bandwidth (Word "eps4") s = Ok [sqrt (1 - moment_of s 0 2 ^ 2 / (moment_of s 0 0 * moment_of s 0 4))]).
Proof.
  intros H. specialize (H three 3%nat three_on three_positive). destruct (bandwidth_names three) as (_ & _ & _ & _ & B). rewrite B in H. clear B. assert (E : at_R (bandwidth_values three) 3 = sqrt (1 - moment_of three 0 2 ^ 2 / (moment_of three 0 0 * moment_of three 0 4))) by congruence. clear H.
  rewrite (bandwidth_list three 3 three_on) in E. unfold at_R in E. cbn [nth] in E. rewrite three_moment0, !three_moment in E. cbn [Nat.add] in E.
  assert (V : simpson 3 (omega three) (fun l => omega three l * density three l ^ 2) = 6).
  { unfold simpson. cbn [Nat.odd Nat.even negb]. unfold parabolas, parabola. cbn [Nat.sub Nat.div Nat.divmod fst seq map sumR fold_right Nat.add Nat.mul]. unfold omega, density, three, at_R. cbn [freqtype sdata sargs nth angular]. field. }
  rewrite V in E. assert (0 <= sqrt (1 - ((4 * 2 ^ 1 + 2 ^ 2) / 3) ^ 2 / ((4 * 2 ^ 1 + 1) / 3 * ((4 * 2 ^ 1 + 2 ^ 4) / 3))) < 1).
  { split; [apply sqrt_pos|]. rewrite <- sqrt_1 at 6 || idtac. apply Rsqr_incrst_0; [|apply sqrt_pos|lra]. rewrite Rsqr_sqrt by lra. unfold Rsqr. lra. }
  lra.
Qed.
