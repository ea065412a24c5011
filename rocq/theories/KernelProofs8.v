From Coq Require Import Reals ZArith Lra Lia List Bool Psatz Permutation Sorting.Sorted.
From Verif Require Import Base PolyModel FilterModel FilterProofs2 KdeModel KernelModel KernelProofs6.
Import ListNotations.
Local Open Scope R_scope.

Lemma sorted_unique l m : StronglySorted Rle l -> StronglySorted Rle m -> Permutation l m -> l = m.
Proof.
  revert m. induction l as [|a l IH]; intros m Hl Hm P; [now apply Permutation_nil in P|]. destruct m as [|b m]; [apply Permutation_sym, Permutation_nil in P; discriminate|].
  inversion Hl as [|? ? Hl1 Hl2]; subst. inversion Hm as [|? ? Hm1 Hm2]; subst. rewrite Forall_forall in Hl2, Hm2. assert (E : a = b).
  { assert (HA : In a (b :: m)) by (apply (Permutation_in a P); now left). assert (HB : In b (a :: l)) by (apply (Permutation_in b (Permutation_sym P)); now left). destruct HA as [HA|HA]; [easy|]. destruct HB as [HB|HB]; [easy|]. specialize (Hm2 a HA). specialize (Hl2 b HB). lra. }
  subst b. f_equal. apply IH; [easy|easy|]. now apply Permutation_cons_inv in P.
Qed.
Lemma sortR_map_incr (f : R -> R) l : (forall x y, x <= y -> f x <= f y) -> sortR (map f l) = map f (sortR l).
Proof.
  intros Hf. apply sorted_unique; [apply sortR_sorted| |].
  - pose proof (sortR_sorted l) as H. induction H as [|a s H IH F]; cbn; [constructor|]. constructor; [exact IH|]. rewrite Forall_forall in *. intros y Hy. apply in_map_iff in Hy as (x & <- & Hx). now apply Hf, F.
  - eapply perm_trans; [apply Permutation_sym, sortR_perm|]. apply Permutation_map, sortR_perm.
Qed.
Lemma sorted_app l a : StronglySorted Rle l -> (forall x, In x l -> x <= a) -> StronglySorted Rle (l ++ [a]).
Proof.
  induction 1 as [|b l H IH F]; intros Ha; cbn; [constructor; constructor|]. constructor; [apply IH; intros x Hx; apply Ha; now right|]. rewrite Forall_forall in *. intros y Hy. apply in_app_iff in Hy as [Hy|[<- |[]]]; [now apply F|apply Ha; now left].
Qed.
Lemma sorted_rev (f : R -> R) l : (forall x y, x <= y -> f y <= f x) -> StronglySorted Rle l -> StronglySorted Rle (rev (map f l)).
Proof.
  intros Hf. induction 1 as [|a l H IH F]; cbn; [constructor|]. apply sorted_app; [exact IH|]. intros x Hx. apply in_rev in Hx. apply in_map_iff in Hx as (y & <- & Hy). rewrite Forall_forall in F. now apply Hf, F.
Qed.
Lemma sortR_map_decr (f : R -> R) l : (forall x y, x <= y -> f y <= f x) -> sortR (map f l) = rev (map f (sortR l)).
Proof.
  intros Hf. apply sorted_unique; [apply sortR_sorted|now apply sorted_rev, sortR_sorted|]. eapply perm_trans; [apply Permutation_sym, sortR_perm|]. eapply perm_trans; [|apply Permutation_rev]. apply Permutation_map, sortR_perm.
Qed.
Lemma sortR_length l : List.length (sortR l) = List.length l.
Proof. symmetry. apply Permutation_length, sortR_perm. Qed.
Definition interp (s : list R) (t : R) : R :=
  let j := Z.to_nat (Int_part t) in at_R s j + (t - INR j) * (at_R s (Nat.min (S j) (List.length s - 1)) - at_R s j).
Lemma percentile_interp q l : percentile q l = interp (sortR l) (INR (List.length l - 1) * (q / 100)).
Proof. unfold percentile, interp. now rewrite sortR_length. Qed.
(* position in a list *)
Lemma place t n : 0 <= t <= INR n -> let j := Z.to_nat (Int_part t) in INR j <= t < INR j + 1 /\ (j <= n)%nat.
Proof.
  intros Ht j. destruct (base_Int_part t) as [B1 B2]. assert (0 <= Int_part t)%Z. { apply Z.lt_succ_r. apply lt_IZR. rewrite succ_IZR. lra. }
  assert (E : INR j = IZR (Int_part t)) by (unfold j; now rewrite INR_IZR_INZ, Z2Nat.id). assert (B : INR j <= t < INR j + 1) by lra. split; [exact B|]. apply INR_le. lra.
Qed.
Lemma place_unique t j : INR j <= t < INR j + 1 -> Z.to_nat (Int_part t) = j.
Proof.
  intros H. pose proof (pos_INR j). destruct (place t (Z.to_nat (up t)) ) as [B _].
  - split; [lra|]. destruct (archimed t) as [A _]. rewrite INR_IZR_INZ, Z2Nat.id; [lra|]. apply le_IZR. lra.
  - apply INR_eq. assert (D1 : (Z.to_nat (Int_part t) < S j)%nat) by (apply INR_lt; rewrite S_INR; lra). assert (D2 : (j < S (Z.to_nat (Int_part t)))%nat) by (apply INR_lt; rewrite S_INR; lra). f_equal. lia.
Qed.
Lemma at_map (f : R -> R) s i : (i < List.length s)%nat -> at_R (map f s) i = f (at_R s i).
Proof. intros H. unfold at_R. rewrite nth_indep with (d' := f 0) by (now rewrite map_length). apply map_nth. Qed.
Lemma at_rev s i : (i < List.length s)%nat -> at_R (rev s) i = at_R s (List.length s - S i).
Proof. intros H. unfold at_R. now apply rev_nth. Qed.
Lemma interp_affine a b s t : s <> [] -> 0 <= t <= INR (List.length s - 1) -> interp (map (fun v => a * v + b) s) t = a * interp s t + b.
Proof.
  intros Hs Ht. unfold interp. rewrite map_length. destruct (place t _ Ht) as [B1 B2]. set (j := Z.to_nat (Int_part t)) in *. assert (L : (1 <= List.length s)%nat) by (destruct s; [congruence|cbn; lia]). rewrite !at_map by lia. ring.
Qed.
Lemma interp_rev s t : s <> [] -> 0 <= t <= INR (List.length s - 1) -> interp (rev s) t = interp s (INR (List.length s - 1) - t).
Proof.
  intros Hs Ht. unfold interp. rewrite rev_length. destruct (place t _ Ht) as [B1 B2]. set (j := Z.to_nat (Int_part t)) in *. assert (L : (1 <= List.length s)%nat) by (destruct s; [congruence|cbn; lia]). set (N := (List.length s - 1)%nat) in *.
  destruct (Rle_lt_or_eq_dec _ _ (proj1 B1)) as [G|G].
  - assert (JN : (j < N)%nat) by (apply INR_lt; lra). assert (EJ : Z.to_nat (Int_part (INR N - t)) = (N - S j)%nat). { apply place_unique. rewrite minus_INR by lia. rewrite S_INR. lra. } rewrite EJ. rewrite !at_rev by lia. replace (List.length s - S j)%nat with (N - j)%nat by lia. replace (Nat.min (S j) N) with (S j) by lia. replace (List.length s - S (S j))%nat with (N - S j)%nat by lia. replace (Nat.min (S (N - S j)) N) with (N - j)%nat by lia. rewrite minus_INR by lia. rewrite S_INR. ring.
  - assert (EJ : Z.to_nat (Int_part (INR N - t)) = (N - j)%nat). { apply place_unique. rewrite minus_INR by lia. lra. } rewrite EJ. rewrite !at_rev by lia. replace (List.length s - S j)%nat with (N - j)%nat by lia. rewrite minus_INR by lia. replace (t - INR j) with 0 by lra. replace (INR N - t - (INR N - INR j)) with 0 by lra. ring.
Qed.
Lemma sortR_nonempty l : l <> [] -> sortR l <> [].
Proof. intros H E. apply H. apply List.length_zero_iff_nil. rewrite <- sortR_length, E. reflexivity. Qed.
Lemma quartile_index (l : list R) q : 0 <= q <= 100 -> 0 <= INR (List.length l - 1) * (q / 100) <= INR (List.length l - 1).
Proof. intros Hq. pose proof (pos_INR (List.length l - 1)). split; [apply Rmult_le_pos; lra|]. rewrite <- (Rmult_1_r (INR (List.length l - 1))) at 2. apply Rmult_le_compat_l; lra. Qed.
Lemma percentile_affine a b q l : l <> [] -> 0 <= q <= 100 -> percentile q (map (fun v => a * v + b) l) = if Rle_dec 0 a then a * percentile q l + b else a * percentile (100 - q) l + b.
Proof.
  intros Hl Hq. rewrite !percentile_interp, !map_length. pose proof (sortR_nonempty l Hl) as Hs. destruct (Rle_dec 0 a) as [Ha|Ha].
  - rewrite sortR_map_incr by (intros; nra). apply interp_affine; [easy|]. rewrite sortR_length. now apply quartile_index.
  - rewrite sortR_map_decr by (intros; nra). rewrite interp_rev; rewrite ?map_length, ?sortR_length; [|intros E; apply map_eq_nil in E; easy|now apply quartile_index]. rewrite interp_affine; rewrite ?sortR_length; [|easy|].
    + do 3 f_equal. field.
    + pose proof (quartile_index l q Hq). lra.
Qed.
Lemma iqr_affine a b l : l <> [] -> iqrange (map (fun v => a * v + b) l) = Rabs a * iqrange l.
Proof.
  intros Hl. unfold iqrange. rewrite !percentile_affine by (try easy; lra). rewrite <- Rabs_mult. destruct (Rle_dec 0 a).
  - f_equal. ring.
  - replace (100 - 75) with 25 by ring. replace (100 - 25) with 75 by ring. rewrite <- Rabs_Ropp. f_equal. ring.
Qed.
Lemma npsum_affine a b l : npsum (map (fun v => a * v + b) l) = a * npsum l + INR (List.length l) * b.
Proof. induction l as [|v l IH]; unfold npsum in *; cbn [map fold_right List.length]; [cbn; ring|]. rewrite IH, S_INR. ring. Qed.
Lemma npsum_scale a l : npsum (map (fun v => a * v) l) = a * npsum l.
Proof. induction l as [|v l IH]; unfold npsum in *; cbn [map fold_right]; [ring|]. rewrite IH. ring. Qed.
Lemma sq_nonneg m l : 0 <= npsum (map (fun v => (v - m) ^ 2) l).
Proof. induction l as [|v l IH]; unfold npsum in *; cbn [map fold_right]; [lra|]. pose proof (pow2_ge_0 (v - m)). lra. Qed.
Lemma std_affine a b l : l <> [] -> std1 (map (fun v => a * v + b) l) = option_map (fun v => Rabs a * v) (std1 l).
Proof.
  intros Hl. assert (HN : 0 < INR (List.length l)) by (apply lt_0_INR; destruct l; [congruence|cbn; lia]). unfold std1. rewrite map_length. destruct (Nat.leb (List.length l) 1) eqn:E; [reflexivity|]. apply Nat.leb_gt in E. cbn [option_map]. f_equal. rewrite npsum_affine. set (m := npsum l / INR (List.length l)).
  replace ((a * npsum l + INR (List.length l) * b) / INR (List.length l)) with (a * m + b) by (unfold m; field; lra). rewrite map_map. assert (EM : map (fun v => (a * v + b - (a * m + b)) ^ 2) l = map (fun v => a ^ 2 * v) (map (fun v => (v - m) ^ 2) l)) by (rewrite map_map; apply map_ext; intros; ring). rewrite EM, npsum_scale.
  assert (H1 : 0 < INR (List.length l - 1)) by (apply lt_0_INR; lia). unfold Rdiv. rewrite Rmult_assoc. rewrite sqrt_mult; [|apply pow2_ge_0|apply Rmult_le_pos; [apply sq_nonneg|left; now apply Rinv_0_lt_compat]]. f_equal. rewrite <- (pow2_abs a). apply sqrt_pow2, Rabs_pos.
Qed.
Lemma hns_affine s a b l : l <> [] -> hns_row s (map (fun v => a * v + b) l) = option_map (fun h => Rabs a * h) (hns_row s l).
Proof.
  intros Hl. unfold hns_row. rewrite std_affine by easy. destruct (std1 l) as [sd|] eqn:E; [|reflexivity]. cbn [option_map]. f_equal. rewrite iqr_affine, map_length by easy. rewrite <- Rmult_assoc. f_equal. cbv zeta. pose proof (Rabs_pos a) as A0. assert (I0 : 0 <= iqrange l) by (unfold iqrange; apply Rabs_pos).
  destruct (Rlt_dec 0 (Rabs a * iqrange l)) as [G|G], (Rlt_dec 0 (iqrange l)) as [K|K].
  - replace (Rabs a * iqrange l / (1349 / 1000)) with (Rabs a * (iqrange l / (1349 / 1000))) by field. now rewrite RmaxRmult || (symmetry; unfold Rmin; destruct (Rle_dec sd _), (Rle_dec (Rabs a * sd) _); nra).
  - exfalso. assert (iqrange l = 0) by lra. rewrite H in G. lra.
  - assert (Rabs a = 0) by nra. rewrite H. ring.
  - reflexivity.
Qed.
Lemma percentile_perm q l m : Permutation l m -> percentile q l = percentile q m.
Proof.
  intros P. rewrite !percentile_interp. assert (E : sortR l = sortR m). { apply sorted_unique; try apply sortR_sorted. eapply perm_trans; [apply Permutation_sym, sortR_perm|]. eapply perm_trans; [exact P|apply sortR_perm]. } now rewrite E, (Permutation_length P).
Qed.
Lemma hns_perm s l m : Permutation l m -> hns_row s l = hns_row s m.
Proof.
  intros P. unfold hns_row, std1, iqrange. rewrite (Permutation_length P), (percentile_perm 75 l m P), (percentile_perm 25 l m P), (npsum_perm l m P). destruct (Nat.leb _ 1); [reflexivity|]. erewrite (npsum_perm (map _ l)); [reflexivity|]. now apply Permutation_map.
Qed.
Lemma amise_constant_pos mu2 rk rdd n : 0 < amise_constant (mu2, rk, rdd) n.
Proof. apply exp_pos. Qed.
Lemma sq_zero m l : npsum (map (fun v => (v - m) ^ 2) l) = 0 -> forall v, In v l -> v = m.
Proof.
  induction l as [|u l IH]; [easy|]. unfold npsum. cbn [map fold_right]. fold (npsum (map (fun v => (v - m) ^ 2) l)). intros E v. pose proof (pow2_ge_0 (u - m)). pose proof (sq_nonneg m l). assert (E1 : npsum (map (fun v => (v - m) ^ 2) l) = 0) by lra. assert (E2 : (u - m) ^ 2 = 0) by lra. intros [<- |H1]; [|now apply IH]. assert (u - m = 0) by (apply Rsqr_0_uniq; unfold Rsqr; rewrite <- E2; ring). lra.
Qed.
Lemma hns_exists s l : (2 <= List.length l)%nat -> exists h, hns_row s l = Some h.
Proof. intros H. unfold hns_row, std1. replace (Nat.leb (List.length l) 1) with false by (symmetry; apply Nat.leb_gt; lia). eexists. reflexivity. Qed.
Lemma hns_zero s l h : hns_row s l = Some h -> 0 <= h /\ (h = 0 <-> exists c, forall v, In v l -> v = c).
Proof.
  destruct s as [[mu2 rk] rdd]. unfold hns_row. destruct (std1 l) as [sd|] eqn:E; [|discriminate]. unfold std1 in E. destruct (Nat.leb (List.length l) 1) eqn:L; [discriminate|]. apply Nat.leb_gt in L. assert (ES : sd = sqrt (npsum (map (fun v => (v - npsum l / INR (List.length l)) ^ 2) l) / INR (List.length l - 1))) by now inversion E. clear E. intros H. assert (EH : h = (if Rlt_dec 0 (iqrange l) then Rmin sd (iqrange l / (1349 / 1000)) else sd) * amise_constant (mu2, rk, rdd) (INR (List.length l))) by now inversion H. clear H.
  pose proof (amise_constant_pos mu2 rk rdd (INR (List.length l))) as AP. assert (S0 : 0 <= sd) by (rewrite ES; apply sqrt_pos). assert (H1 : 0 < INR (List.length l - 1)) by (apply lt_0_INR; lia). assert (HN : 0 < INR (List.length l)) by (apply lt_0_INR; lia).
  set (m := npsum l / INR (List.length l)) in *.
  assert (Z1 : (exists c, forall v, In v l -> v = c) -> sd = 0 /\ iqrange l = 0).
  { intros [c Hc]. assert (EL : l = repeat c (List.length l)). { clear - Hc. induction l as [|v l IH]; [reflexivity|]. cbn. rewrite (Hc v) by now left. f_equal. apply IH. intros; apply Hc; now right. }
    assert (EA : map (fun v => 0 * v + 0) l = map (fun v => 1 * v + - c) l). { apply map_ext_in. intros v Hv. rewrite (Hc v Hv). ring. } assert (NE : l <> []) by (intros ->; cbn in L; lia). split.
    - pose proof (std_affine 0 0 l NE) as A0. pose proof (std_affine 1 (- c) l NE) as A1. rewrite EA in A0. rewrite A0 in A1. unfold std1 in A1. replace (Nat.leb (List.length l) 1) with false in A1 by (symmetry; apply Nat.leb_gt; lia). cbn [option_map] in A1. fold m in A1. rewrite <- ES in A1. rewrite Rabs_R0, Rabs_R1 in A1. injection A1 as A1. lra.
    - pose proof (iqr_affine 0 0 l NE) as A0. pose proof (iqr_affine 1 (- c) l NE) as A1. rewrite EA in A0. rewrite A0, Rabs_R0, Rabs_R1 in A1. lra. }
  assert (Z2 : sd = 0 -> exists c, forall v, In v l -> v = c).
  { intros Z. exists m. apply sq_zero. rewrite Z in ES. symmetry in ES. apply sqrt_eq_0 in ES. 2:{ apply Rmult_le_pos; [apply sq_nonneg|left; now apply Rinv_0_lt_compat]. } unfold Rdiv in ES. apply Rmult_integral in ES as [ES|ES]; [exact ES|]. exfalso. revert ES. apply Rinv_neq_0_compat. lra. }
  split.
  - rewrite EH. apply Rmult_le_pos; [|lra]. destruct (Rlt_dec 0 (iqrange l)); [|easy]. apply Rmin_glb; [easy|]. apply Rmult_le_pos; [lra|]. left. apply Rinv_0_lt_compat. lra.
  - split.
    + intros Z. rewrite Z in EH. symmetry in EH. apply Rmult_integral in EH as [EH|EH]; [|lra]. apply Z2. destruct (Rlt_dec 0 (iqrange l)) as [G|G]; [|exact EH]. unfold Rmin in EH. destruct (Rle_dec sd _); [exact EH|]. lra.
    + intros HC. destruct (Z1 HC) as [E1 E2]. rewrite EH, E2, E1. destruct (Rlt_dec 0 0) as [G|G]; [lra|]. ring.
Qed.
Lemma hns_bound s l h sd : hns_row s l = Some h -> std1 l = Some sd -> h <= sd * amise_constant s (INR (List.length l)).
Proof.
  destruct s as [[mu2 rk] rdd]. unfold hns_row. intros H E. rewrite E in H. assert (EH : h = (if Rlt_dec 0 (iqrange l) then Rmin sd (iqrange l / (1349 / 1000)) else sd) * amise_constant (mu2, rk, rdd) (INR (List.length l))) by now inversion H. rewrite EH. apply Rmult_le_compat_r; [left; apply amise_constant_pos|]. destruct (Rlt_dec 0 (iqrange l)); [apply Rmin_l|lra].
Qed.
Lemma hos_value s data : hos s data = map (fun row => option_map (fun h => h / (93 / 100)) (hns_row s row)) data.
Proof. unfold hos, hns. now rewrite map_map. Qed.
