From Coq Require Import Reals Lra Lia Psatz String.
From Coquelicot Require Import Coquelicot.
From Verif Require Import Base PolyModel KdeModel GridModel GridSpec ProcSpec ProcProofs CovSpec CovProofs CovProofs2 CovProofs3 SpcovModel SpcovSpec SpcovProofs3 SpectModel SpectSpec SpectProofs SpectProofs2.
Local Open Scope R_scope.

(* ---- bandwidth ---- *)
Lemma peakedness_value s n : spectrum_on n s -> simps (map2 (fun f v => f * v ^ 2) (sargs s) (sdata s)) (sargs s) = simpson n (omega s) (fun l => omega s l * density s l ^ 2).
Proof.
  intros (Hn & Hx & Hy & Hr). pose proof two_pi. rewrite (simps_value _ _ n) by (rewrite ?len_map2; lia).
  assert (A : forall l, (l < n)%nat -> at_R (map2 (fun f v => f * v ^ 2) (sargs s) (sdata s)) l = at_R (sargs s) l * at_R (sdata s) l ^ 2) by (intros; now rewrite at_map2 by lia).
  unfold omega, density. destruct (freqtype s); cbn [angular]; try (apply simpson_ext; easy).
  rewrite (simpson_stretch n (at_R (sargs s))) by easy. rewrite <- simpson_scale. apply simpson_ext; try easy. intros l Hl. rewrite A by easy. field. lra.
Qed.
Lemma bandwidth_list s n : spectrum_on n s -> let m := moment_of s 0 in
  bandwidth_values s = [m 2%nat / sqrt (m 0%nat * m 4%nat); sqrt (m 0%nat * m 2%nat / m 1%nat ^ 2 - 1); sqrt (1 - m 2%nat ^ 2 / (m 0%nat * m 4%nat));
                        2 / m 0%nat ^ 2 * simpson n (omega s) (fun l => omega s l * density s l ^ 2)].
Proof.
  intros Hs m. unfold bandwidth_values. rewrite !(moment_at 4 0 s n) by (easy || lia). rewrite (peakedness_value s n) by easy. fold m. do 2 f_equal. f_equal. f_equal. f_equal. unfold Rdiv. rewrite Rmult_assoc, <- Rinv_mult. reflexivity.
Qed.
Lemma all_res_map {A B} (f : A -> res B) (g : A -> B) l : (forall a, In a l -> f a = Ok (g a)) -> all_res f l = Ok (map g l).
Proof. induction l as [|a l IH]; intros H; [reflexivity|]. cbn. rewrite H by now left. cbn. rewrite IH by (intros; apply H; now right). reflexivity. Qed.
Lemma bandwidth_selects s l : (forall i, In i l -> (i < 4)%nat) -> bandwidth (Several (map (fun i => Index (Z.of_nat i)) l)) s = Ok (map (at_R (bandwidth_values s)) l).
Proof.
  intros H. unfold bandwidth. cbn [bind]. rewrite (all_res_map _ (fun k => match k with Index i => i | Name _ => 0%Z end)) by (intros a Ha; apply in_map_iff in Ha as (i & <- & _); reflexivity).
  cbn [bind]. rewrite map_map. rewrite (all_res_map _ (fun z => at_R (bandwidth_values s) (Z.to_nat z))).
  - rewrite map_map. f_equal. apply map_ext. intros i. now rewrite Nat2Z.id.
  - intros z Hz. apply in_map_iff in Hz as (i & <- & Hi). specialize (H i Hi). unfold getz. replace (0 <=? Z.of_nat i)%Z with true by (symmetry; apply Z.leb_le; lia). rewrite Nat2Z.id.
    unfold geti, bandwidth_values. destruct i as [|[|[|[|i]]]]; try lia; reflexivity.
Qed.
Lemma bandwidth_names s : let v := at_R (bandwidth_values s) in
  bandwidth (Word "alpha") s = Ok [v 0%nat] /\ bandwidth (Word "eps2") s = Ok [v 1%nat] /\ bandwidth (Word "Qp") s = Ok [v 3%nat] /\ bandwidth (Word "qp") s = Ok [v 3%nat] /\ bandwidth (Word "eps4") s = Ok [v 3%nat].
Proof. cbn. repeat split; reflexivity. Qed.
Lemma bandwidth_default i s : bandwidth (One i) s = Err TypeError. Proof. reflexivity. Qed.
Lemma bandwidth_unknown w s : ~ In w ["alpha"; "eps2"; "eps4"; "qp"; "Qp"]%string -> bandwidth (Word w) s = Err ValueError.
Proof.
  intros H. unfold bandwidth. cbn [bind all_res]. unfold fact_dict. repeat (match goal with |- context [String.eqb w ?k] => destruct (String.eqb_spec w k) as [->|_]; [exfalso; apply H; cbn; tauto|] end). reflexivity.
Qed.
Lemma bandwidth_units a t s n : spectrum_on n s -> bandwidth a (set_freqtype t s) = bandwidth a s.
Proof.
  intros Hs. assert (E : bandwidth_values (set_freqtype t s) = bandwidth_values s).
  { rewrite (bandwidth_list _ n) by now apply set_spectrum_on. rewrite (bandwidth_list s n) by easy. cbn zeta. rewrite !(moment_units t s 0 _ n) by easy. do 4 f_equal. f_equal.
    pose proof Hs as (Hn & Hx & Hy & _). apply simpson_ext; try easy; intros l Hl; [apply set_omega; lia|]. now rewrite set_omega, set_density by lia. }
  unfold bandwidth. now rewrite E.
Qed.
Lemma bandwidth_bounds s n : spectrum_on n s -> even_axis n (at_R (sargs s)) -> 0 <= at_R (sargs s) 0 -> let m := moment_of s 0 in 0 < m 0%nat -> 0 < m 1%nat -> 0 < m 4%nat ->
  let v := at_R (bandwidth_values s) in 0 <= v 0%nat <= 1 /\ v 0%nat ^ 2 + v 2%nat ^ 2 = 1 /\ v 1%nat ^ 2 + 1 = m 0%nat * m 2%nat / m 1%nat ^ 2 /\ 0 <= v 3%nat.
Proof.
  intros Hs He H0 m P0 P1 P4 v. unfold v. rewrite (bandwidth_list s n Hs). fold m. unfold at_R. cbn [nth].
  pose proof (moment_nonneg n s 0 2 Hs He H0) as P2. fold m in P2. pose proof (moment_schwarz n s 0 0 2 Hs He) as C1. pose proof (moment_schwarz n s 0 0 1 Hs He) as C2.
  change (0 + 2)%nat with 2%nat in C1. change (2 * 0)%nat with 0%nat in *. change (2 * 2)%nat with 4%nat in C1. change (0 + 1)%nat with 1%nat in C2. change (2 * 1)%nat with 2%nat in C2. fold m in C1, C2.
  assert (P : 0 < m 0%nat * m 4%nat) by nra. pose proof (sqrt_lt_R0 _ P) as Q. pose proof (sqrt_sqrt (m 0%nat * m 4%nat) ltac:(lra)) as SS. set (r := sqrt (m 0%nat * m 4%nat)) in *.
  assert (A2 : (m 2%nat / r) ^ 2 = m 2%nat ^ 2 / (m 0%nat * m 4%nat)) by (rewrite <- SS; field; lra).
  assert (A3 : m 2%nat ^ 2 / (m 0%nat * m 4%nat) <= 1) by (apply Rmult_le_reg_r with (m 0%nat * m 4%nat); [easy|]; unfold Rdiv; rewrite Rmult_assoc, Rinv_l by lra; lra).
  assert (A0 : 0 <= m 2%nat / r) by (apply Rmult_le_pos; [easy|apply Rlt_le, Rinv_0_lt_compat; easy]).
  split; [split; [easy|nra]|]. split; [|split].
  - rewrite pow2_sqrt by lra. lra.
  - rewrite pow2_sqrt; [ring|]. assert (1 <= m 0%nat * m 2%nat / m 1%nat ^ 2); [|lra]. apply Rmult_le_reg_r with (m 1%nat ^ 2); [nra|]. unfold Rdiv. rewrite Rmult_assoc, Rinv_l by nra. lra.
  - pose proof Hs as (Hn & _). apply Rmult_le_pos; [apply Rlt_le, Rdiv_lt_0_compat; nra|]. apply simpson_pos; [easy|now apply omega_even|]. intros i Hi. apply Rmult_le_pos; [now apply (omega_nonneg n)|apply pow2_ge_0].
Qed.

(* ---- normalize ---- *)
Lemma moment_stretched s n a b i : spectrum_on n s -> 0 < a -> 0 <= b ->
  moment_of (Spectrum (map (fun v => v * b) (sdata s)) (map (fun v => v * a) (sargs s)) (freqtype s)) 0 i = b * a ^ S i * moment_of s 0 i.
Proof.
  intros Hs Ha Hb. pose proof Hs as (Hn & Hx & Hy & Hr). set (s' := Spectrum _ _ _).
  assert (Lx : List.length (sargs s') = n) by (cbn [s' sargs]; now rewrite map_length).
  assert (EX : forall l, (l < n)%nat -> omega s' l = a * omega s l) by (intros l Hl; unfold omega; cbn [s' sargs freqtype]; rewrite (at_map (fun v => v * a)) by lia; rewrite (angular_scale _ (_ * a)), (angular_scale _ (at_R _ l)); ring).
  assert (EY : forall l, (l < n)%nat -> density s' l = b * density s l) by (intros l Hl; unfold density; cbn [s' sdata freqtype]; rewrite (at_map (fun v => v * b)) by lia; destruct (freqtype s); unfold Rdiv; ring).
  unfold moment_of. rewrite Lx, Hx. rewrite (simpson_ext n (omega s') (fun l => a * omega s l) _ (fun l => (b * a ^ i) * (Rabs (density s l) ^ (0 + 1) * omega s l ^ i))).
  - rewrite (simpson_stretch n (omega s)) by (try easy; now apply omega_rising). rewrite simpson_scale. cbn [pow]. ring.
  - easy.
  - easy.
  - intros l Hl. rewrite EX, EY by easy. rewrite Rabs_mult, (Rabs_pos_eq b) by easy. rewrite !Rpow_mult_distr. cbn [Nat.add pow]. ring.
Qed.
Lemma scales m0 m2 : 0 < m0 -> 0 < m2 -> let a := sqrt m0 / sqrt m2 in let b := sqrt m2 / (sqrt m0 * m0) in 0 < a /\ 0 < b /\ b * a * m0 = 1 /\ b * a ^ 3 * m2 = 1 /\ b * a ^ 5 = m0 / m2 ^ 2.
Proof.
  intros H0 H2 a b. pose proof (sqrt_lt_R0 m0 H0) as Q0. pose proof (sqrt_lt_R0 m2 H2) as Q2. pose proof (sqrt_sqrt m0 ltac:(lra)) as S0. pose proof (sqrt_sqrt m2 ltac:(lra)) as S2.
  set (u := sqrt m0) in *. set (v := sqrt m2) in *. unfold a, b. rewrite <- S0, <- S2. repeat split; try (field; lra); repeat apply Rdiv_lt_0_compat; nra.
Qed.
Lemma normalize_omega g s n : spectrum_on n s -> freqtype s = Omega -> 0 < moment_of s 0 0 -> 0 < moment_of s 0 2 -> exists s' a g', normalize g s = (s', a, Some g')
  /\ moment_of s' 0 0 = 1 /\ moment_of s' 0 2 = 1 /\ (0 < g -> 0 < moment_of s 0 4 -> moment_of s' 0 4 / g' ^ 2 = 1).
Proof.
  intros Hs Ht H0 H2. unfold normalize. rewrite !(moment_even_at 4 0 s n) by (easy || lia). change (2 * 0)%nat with 0%nat. change (2 * 1)%nat with 2%nat. change (2 * 2)%nat with 4%nat. rewrite Ht.
  set (m0 := moment_of s 0 0) in *. set (m2 := moment_of s 0 2) in *. set (m4 := moment_of s 0 4). destruct (scales m0 m2 H0 H2) as (Pa & Pb & E0 & E2 & E4). set (a := sqrt m0 / sqrt m2) in *. set (b := sqrt m2 / (sqrt m0 * m0)) in *.
  eexists. exists a. eexists. split; [reflexivity|]. rewrite <- Ht. rewrite !(moment_stretched s n a b) by (try easy; lra). fold m0 m2 m4.
  split; [rewrite <- E0; ring|]. split; [rewrite <- E2; ring|]. intros Hg H4. rewrite E4.
  assert (P : 0 < m0 * (m4 / g ^ 2)) by (apply Rmult_lt_0_compat; [easy|apply Rdiv_lt_0_compat; [easy|nra]]). pose proof (sqrt_sqrt _ (Rlt_le _ _ P)) as SS. pose proof (sqrt_lt_R0 _ P) as Q.
  set (r := sqrt (m0 * (m4 / g ^ 2))) in *. assert (E : m4 = r * r * g ^ 2 / m0) by (rewrite SS; field; lra). rewrite E. field. lra.
Qed.
Lemma normalize_hertz g s n : spectrum_on n s -> freqtype s = Hertz -> 0 < moment_of s 0 0 -> 0 < moment_of s 0 2 -> exists s' a, normalize g s = (s', a, None)
  /\ moment_of s' 0 0 = 1 /\ moment_of s' 0 2 = 1 / (4 * PI ^ 2).
Proof.
  intros Hs Ht H0 H2. unfold normalize. rewrite !(moment_even_at 4 0 s n) by (easy || lia). change (2 * 0)%nat with 0%nat. change (2 * 1)%nat with 2%nat. rewrite Ht. pose proof PI_RGT_0 as Hpi.
  set (m0 := moment_of s 0 0) in *. set (m2 := moment_of s 0 2) in *. destruct (scales m0 m2 H0 H2) as (Pa & Pb & E0 & E2 & E4). set (a := sqrt m0 / sqrt m2) in *. set (b := sqrt m2 / (sqrt m0 * m0)) in *.
  eexists. exists a. split; [reflexivity|]. rewrite <- Ht.
  rewrite (map_ext (fun v => v * b * 2 * PI) (fun v => v * (b * (2 * PI)))) by (intros; ring). rewrite (map_ext (fun v => v * a / 2 / PI) (fun v => v * (a / (2 * PI)))) by (intros; field; lra).
  assert (0 < a / (2 * PI)) by (apply Rdiv_lt_0_compat; lra). assert (0 <= b * (2 * PI)) by nra.
  rewrite !(moment_stretched s n _ _) by easy. fold m0 m2. split; [rewrite <- E0; field; lra|]. transitivity (b * a ^ 3 * m2 * (1 / (4 * PI ^ 2))); [field; lra|rewrite E2; field; lra].
Qed.
Lemma normalize_wavenumber g s : freqtype s = Wavenumber -> exists a, normalize g s = (s, a, None).
Proof. intros H. unfold normalize. rewrite H. eexists. reflexivity. Qed.
