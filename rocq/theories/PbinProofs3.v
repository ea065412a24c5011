(* The methods of the Poisson binomial distribution. *)
From Coq Require Import Reals Lra Lia.
From Coquelicot Require Import Complex.
From Verif Require Import Base DftModel PbinModel PbinSpec PbinProofs PbinProofs2.
Local Open Scope R_scope.

Lemma cumsum_from_nth l : forall s k, (k < List.length l)%nat -> nth k (cumsum_from s l) 0 = s + rs (k + 1) (fun i => nth i l 0).
Proof.
  assert (F : forall n f, rs (S n) f = f 0%nat + rs n (fun i => f (S i))).
  { induction n as [|n IH]; intros f; [cbn; ring|]. change (rs (S (S n)) f) with (rs (S n) f + f (S n)). rewrite IH. cbn [rs]. ring. }
  induction l as [|a l IH]; intros s k K; cbn [List.length] in K; [lia|]. cbn [cumsum_from]. destruct k as [|k].
  - cbn. ring.
  - cbn [nth]. rewrite IH by lia. replace (S k + 1)%nat with (S (k + 1)) by lia. rewrite F. cbn [nth]. ring.
Qed.
Lemma cumsum_length l : forall s, List.length (cumsum_from s l) = List.length l.
Proof. induction l as [|a l IH]; intros s; [reflexivity|]. cbn. rewrite IH. reflexivity. Qed.
Lemma rs_down f n m : (m <= n + 1)%nat -> rs m (fun i => f (n - i)%nat) = rs (n + 1) f - rs (n + 1 - m) f.
Proof.
  induction m as [|m IH]; intros M; [rewrite Nat.sub_0_r; cbn [rs]; ring|]. cbn [rs]. rewrite IH by lia.
  replace (n + 1 - m)%nat with (S (n - m)) by lia. replace (n + 1 - S m)%nat with (n - m)%nat by lia. cbn [rs]. ring.
Qed.
Lemma rs_const n c : rs n (fun _ => c) = INR n * c.
Proof. induction n as [|n IH]; [cbn; ring|]. cbn [rs]. rewrite IH, S_INR. ring. Qed.

Lemma make_ok eps probs : probabilities probs -> exists d, make_pbinom eps probs = Ok d /\ pb_n d = List.length probs /\ pb_probs d = probs
  /\ pmf_values d = fft_pmf eps probs (List.length probs) /\ cdf_values d = cumsum (pmf_values d) /\ sf_values d = rev (cumsum (rev (pmf_values d))).
Proof.
  intros P. unfold make_pbinom. replace (forallb _ probs) with true; [cbv zeta; eexists; repeat split; reflexivity|].
  symmetry. apply forallb_forall. intros p I. destruct (P p I). destruct (Rle_dec p 1); [|lra]. destruct (Rle_dec 0 p); [reflexivity|lra].
Qed.
Lemma make_iff eps probs : (probabilities probs -> exists d, make_pbinom eps probs = Ok d) /\ (~ probabilities probs -> make_pbinom eps probs = Err ValueError).
Proof.
  split; [intros P; destruct (make_ok eps probs P) as [d [E _]]; exists d; exact E|]. intros N. unfold make_pbinom.
  destruct (forallb _ probs) eqn:F; [|reflexivity]. exfalso. apply N. intros p I. rewrite forallb_forall in F. specialize (F p I). cbv beta in F.
  destruct (Rle_dec p 1); [|discriminate]. destruct (Rle_dec 0 p); [|discriminate]. lra.
Qed.
Lemma made eps probs d : make_pbinom eps probs = Ok d -> probabilities probs /\ pb_n d = List.length probs
  /\ pmf_values d = fft_pmf eps probs (List.length probs) /\ cdf_values d = cumsum (pmf_values d) /\ sf_values d = rev (cumsum (rev (pmf_values d))).
Proof.
  intros E. assert (P : probabilities probs).
  { unfold make_pbinom in E. destruct (forallb _ probs) eqn:F; [|discriminate]. intros p I. rewrite forallb_forall in F. specialize (F p I). cbv beta in F.
    destruct (Rle_dec p 1); [|discriminate]. destruct (Rle_dec 0 p); [|discriminate]. lra. }
  split; [exact P|]. destruct (make_ok eps probs P) as [d' [E' [A [_ [B [C D]]]]]]. rewrite E in E'. assert (d = d') by congruence. subst d'. repeat split; assumption.
Qed.

Lemma geti_nth (l : list R) i : (i < List.length l)%nat -> geti l i = Ok (nth i l 0).
Proof. intros L. unfold geti. rewrite (nth_error_nth' l 0 L). reflexivity. Qed.
Lemma clip_pos x : 0 <= x -> clip x = Rmin x 1.
Proof. intros P. unfold clip. rewrite Rmax_left by exact P. reflexivity. Qed.

Lemma prob_le probs k : (k <= List.length probs)%nat -> prob probs (fun i => Nat.leb i k) = rs (k + 1) (pk probs).
Proof.
  intros K. rewrite (prob_sum probs _ (k + 1)) by (try lia; intros i I; apply Nat.leb_gt; lia). apply rs_ext. intros i I. replace (Nat.leb i k) with true; [reflexivity|]. symmetry. apply Nat.leb_le. lia.
Qed.
Lemma prob_gt probs k : prob probs (fun i => Nat.ltb k i) = 1 - prob probs (fun i => Nat.leb i k).
Proof.
  assert (H : prob probs (fun i => Nat.ltb k i) + prob probs (fun i => Nat.leb i k) = 1).
  { unfold prob. rewrite <- expect_add. transitivity (expect probs (fun _ => 1)); [|apply expect_const]. apply expect_ext. intros i _. destruct (Nat.ltb_spec k i); destruct (Nat.leb_spec i k); try lia; lra. }
  lra.
Qed.
Lemma all_one probs : rs (List.length probs + 1) (pk probs) = 1.
Proof.
  rewrite <- prob_le by lia. unfold prob. transitivity (expect probs (fun _ => 1)); [|apply expect_const]. apply expect_ext. intros k K. destruct (Nat.leb_spec k (List.length probs)); [reflexivity|lia].
Qed.
Lemma values_sum eps probs m : (m <= List.length probs + 1)%nat -> rs m (fun i => nth i (fft_pmf eps probs (List.length probs)) 0) = rs m (pk probs) + INR m * eps.
Proof. intros M. rewrite (rs_ext m _ (fun i => pk probs i + eps)) by (intros i I; apply fft_pmf_nth; lia). rewrite rs_add, rs_const. reflexivity. Qed.

Lemma pmf_method eps probs d k : 0 <= eps -> make_pbinom eps probs = Ok d ->
  pb_pmf d k = Ok (if (0 <=? k)%Z && (k <=? Z.of_nat (List.length probs))%Z then Rmin (prob probs (Nat.eqb (Z.to_nat k)) + eps) 1 else 0)%bool.
Proof.
  intros Pe E. destruct (made eps probs d E) as [P [N [V _]]]. unfold pb_pmf. rewrite N.
  destruct (Z.ltb_spec k 0) as [A|A]; destruct (Z.leb_spec 0 k) as [A'|A']; try lia; [reflexivity|]. cbn [orb andb].
  destruct (Z.ltb_spec (Z.of_nat (List.length probs)) k) as [B|B]; destruct (Z.leb_spec k (Z.of_nat (List.length probs))) as [B'|B']; try lia; [reflexivity|].
  unfold pb_pmf0. rewrite V. rewrite geti_nth by (rewrite fft_pmf_length; lia). cbn [bind]. rewrite fft_pmf_nth by lia. fold (pk probs (Z.to_nat k)).
  rewrite clip_pos; [reflexivity|]. assert (H := pk_nonneg probs (Z.to_nat k) P). lra.
Qed.
Lemma cdf_method eps probs d k : 0 <= eps -> make_pbinom eps probs = Ok d ->
  pb_cdf d k = Ok (if (k <? 0)%Z then 0 else if (Z.of_nat (List.length probs) <=? k)%Z then 1 else Rmin (prob probs (fun i => Nat.leb i (Z.to_nat k)) + IZR (k + 1) * eps) 1).
Proof.
  intros Pe E. destruct (made eps probs d E) as [P [N [V [C _]]]]. unfold pb_cdf. rewrite N.
  destruct (Z.ltb_spec k 0) as [A|A]; [reflexivity|]. destruct (Z.leb_spec (Z.of_nat (List.length probs)) k) as [B|B]; [reflexivity|].
  unfold pb_cdf0. rewrite C. assert (L : (Z.to_nat k < List.length (pmf_values d))%nat) by (rewrite V, fft_pmf_length; lia).
  rewrite geti_nth by (unfold cumsum; rewrite cumsum_length; exact L). cbn [bind]. unfold cumsum. rewrite cumsum_from_nth by exact L. rewrite V, values_sum by lia. rewrite Rplus_0_l.
  rewrite <- prob_le by lia. replace (INR (Z.to_nat k + 1)) with (IZR (k + 1)) by (rewrite INR_IZR_INZ; f_equal; lia).
  rewrite clip_pos; [reflexivity|]. assert (H := prob_range probs (fun i => Nat.leb i (Z.to_nat k)) P). assert (0 <= IZR (k + 1) * eps) by (apply Rmult_le_pos; [apply IZR_le; lia|exact Pe]). lra.
Qed.
Lemma sf_entry eps probs d x : make_pbinom eps probs = Ok d -> (x <= List.length probs)%nat ->
  pb_sf0 d x = if Nat.eqb x (List.length probs) then Err IndexError else Ok (prob probs (fun i => Nat.ltb x i) + INR (List.length probs - x) * eps).
Proof.
  intros E X. destruct (made eps probs d E) as [P [N [V [_ SV]]]]. unfold pb_sf0. rewrite SV. set (n := List.length probs) in *.
  assert (LV : List.length (pmf_values d) = (n + 1)%nat) by (rewrite V; apply fft_pmf_length).
  assert (LR : List.length (rev (cumsum (rev (pmf_values d)))) = (n + 1)%nat) by (rewrite rev_length; unfold cumsum; rewrite cumsum_length, rev_length; exact LV).
  destruct (Nat.eqb_spec x n) as [->|NE].
  - unfold geti. rewrite (proj2 (nth_error_None _ _)); [reflexivity|]. lia.
  - rewrite geti_nth by lia. f_equal. assert (LC : List.length (cumsum (rev (pmf_values d))) = (n + 1)%nat) by (unfold cumsum; rewrite cumsum_length, rev_length; exact LV).
    rewrite rev_nth by lia. rewrite LC. unfold cumsum. rewrite cumsum_from_nth by (rewrite rev_length; lia). rewrite Rplus_0_l.
    rewrite (rs_ext _ _ (fun i => (fun j => nth j (pmf_values d) 0) (n - i)%nat)).
    + rewrite (rs_down (fun j => nth j (pmf_values d) 0) n) by lia. rewrite V. rewrite !values_sum by (fold n; lia). assert (AO := all_one probs). fold n in AO. fold n. rewrite AO.
      rewrite prob_gt, prob_le by lia. replace (n + 1 - (n + 1 - S (x + 1) + 1))%nat with (x + 1)%nat by lia.
      rewrite minus_INR by lia. rewrite !plus_INR. cbn [INR]. ring.
    + intros i I. rewrite rev_nth by lia. rewrite LV. f_equal. lia.
Qed.
Lemma sf_method eps probs d k : 0 <= eps -> make_pbinom eps probs = Ok d ->
  pb_sf d k = Ok (if (k <? 0)%Z then 1 else if (Z.of_nat (List.length probs) <=? k)%Z then 0 else Rmin (prob probs (fun i => Nat.ltb (Z.to_nat k) i) + IZR (Z.of_nat (List.length probs) - k) * eps) 1).
Proof.
  intros Pe E. destruct (made eps probs d E) as [P [N _]]. unfold pb_sf. rewrite N.
  destruct (Z.ltb_spec k 0) as [A|A]; [reflexivity|]. destruct (Z.leb_spec (Z.of_nat (List.length probs)) k) as [B|B]; [reflexivity|].
  rewrite (sf_entry eps probs d (Z.to_nat k) E) by lia. destruct (Nat.eqb_spec (Z.to_nat k) (List.length probs)) as [?|_]; [lia|]. cbn [bind].
  replace (INR (List.length probs - Z.to_nat k)) with (IZR (Z.of_nat (List.length probs) - k)) by (rewrite INR_IZR_INZ; f_equal; lia).
  rewrite clip_pos; [reflexivity|]. assert (H := prob_range probs (fun i => Nat.ltb (Z.to_nat k) i) P).
  assert (0 <= IZR (Z.of_nat (List.length probs) - k) * eps) by (apply Rmult_le_pos; [apply IZR_le; lia|exact Pe]). lra.
Qed.

Lemma rmin_close p e : 0 <= p <= 1 -> 0 <= e -> Rabs (Rmin (p + e) 1 - p) <= e.
Proof. intros P E. unfold Rmin. destruct (Rle_dec (p + e) 1); unfold Rabs; destruct Rcase_abs; lra. Qed.
Lemma close eps probs d k v w u : 0 <= eps -> make_pbinom eps probs = Ok d -> (0 <= k <= Z.of_nat (List.length probs))%Z ->
  pb_pmf d k = Ok v -> pb_cdf d k = Ok w -> pb_sf d k = Ok u -> let n := INR (List.length probs) in
  Rabs (v - prob probs (Nat.eqb (Z.to_nat k))) <= eps /\ Rabs (w - prob probs (fun i => Nat.leb i (Z.to_nat k))) <= n * eps /\ Rabs (u - prob probs (fun i => Nat.ltb (Z.to_nat k) i)) <= n * eps.
Proof.
  intros Pe E K Ev Ew Eu n. destruct (made eps probs d E) as [P _].
  rewrite (pmf_method eps probs d k Pe E) in Ev. rewrite (cdf_method eps probs d k Pe E) in Ew. rewrite (sf_method eps probs d k Pe E) in Eu.
  assert (Q : forall a b : R, Ok a = Ok b -> a = b) by congruence. apply Q in Ev, Ew, Eu. clear Q. subst v w u.
  destruct (Z.leb_spec 0 k); [|lia]. destruct (Z.leb_spec k (Z.of_nat (List.length probs))); [|lia]. destruct (Z.ltb_spec k 0); [lia|]. cbn [andb].
  split; [apply rmin_close; [apply prob_range; exact P|exact Pe]|].
  assert (Pn : 0 <= n * eps) by (apply Rmult_le_pos; [apply pos_INR|exact Pe]).
  destruct (Z.leb_spec (Z.of_nat (List.length probs)) k) as [B|B].
  - assert (Z.to_nat k = List.length probs) by lia. rewrite prob_gt, prob_le by lia. rewrite H2, all_one. replace (0 - (1 - 1)) with 0 by ring. replace (1 - 1) with 0 by ring. rewrite Rabs_R0. split; exact Pn.
  - unfold n. rewrite INR_IZR_INZ. split.
    + eapply Rle_trans; [apply rmin_close; [apply prob_range; exact P|apply Rmult_le_pos; [apply IZR_le; lia|exact Pe]]|]. apply Rmult_le_compat_r; [exact Pe|]. apply IZR_le. lia.
    + eapply Rle_trans; [apply rmin_close; [apply prob_range; exact P|apply Rmult_le_pos; [apply IZR_le; lia|exact Pe]]|]. apply Rmult_le_compat_r; [exact Pe|]. apply IZR_le. lia.
Qed.
Lemma values_total eps probs d : make_pbinom eps probs = Ok d -> fold_right Rplus 0 (pmf_values d) = 1 + INR (List.length probs + 1) * eps.
Proof.
  intros E. destruct (made eps probs d E) as [P [_ [V _]]]. rewrite V.
  assert (G : forall l, fold_right Rplus 0 l = rs (List.length l) (fun i => nth i l 0)).
  { assert (F : forall n f, rs (S n) f = f 0%nat + rs n (fun i => f (S i))).
    { induction n as [|n IH]; intros f; [cbn; ring|]. change (rs (S (S n)) f) with (rs (S n) f + f (S n)). rewrite IH. cbn [rs]. ring. }
    induction l as [|a l IH]; [reflexivity|]. cbn [fold_right List.length]. rewrite F, IH. reflexivity. }
  rewrite G, fft_pmf_length, values_sum by lia. rewrite all_one. reflexivity.
Qed.
Lemma cdf_monotone eps probs d j k v w : 0 <= eps -> make_pbinom eps probs = Ok d -> (j <= k)%Z -> pb_cdf d j = Ok v -> pb_cdf d k = Ok w -> 0 <= v <= w /\ w <= 1.
Proof.
  intros Pe E J Ev Ew. destruct (made eps probs d E) as [P _]. rewrite (cdf_method eps probs d _ Pe E) in Ev. rewrite (cdf_method eps probs d _ Pe E) in Ew.
  assert (Q : forall a b : R, Ok a = Ok b -> a = b) by congruence. apply Q in Ev, Ew. clear Q. subst v w.
  assert (NN : forall k, (0 <= k)%Z -> 0 <= Rmin (prob probs (fun i => Nat.leb i (Z.to_nat k)) + IZR (k + 1) * eps) 1 <= 1).
  { intros m M. split; [|apply Rmin_r]. apply Rmin_glb; [|lra]. assert (H := prob_range probs (fun i => Nat.leb i (Z.to_nat m)) P).
    assert (0 <= IZR (m + 1) * eps) by (apply Rmult_le_pos; [apply IZR_le; lia|exact Pe]). lra. }
  destruct (Z.ltb_spec j 0) as [A|A].
  - destruct (Z.ltb_spec k 0); [lra|]. destruct (Z.leb_spec (Z.of_nat (List.length probs)) k); [lra|]. destruct (NN k) as [X Y]; [lia|]. lra.
  - destruct (Z.ltb_spec k 0); [lia|]. destruct (Z.leb_spec (Z.of_nat (List.length probs)) j) as [B|B].
    + destruct (Z.leb_spec (Z.of_nat (List.length probs)) k); [lra|lia].
    + destruct (NN j) as [X Y]; [lia|]. destruct (Z.leb_spec (Z.of_nat (List.length probs)) k) as [D|D]; [lra|]. destruct (NN k) as [X' Y']; [lia|]. split; [|lra]. split; [lra|].
      apply Rle_min_compat_r. apply Rplus_le_compat.
      * apply expect_le; [exact P|]. intros i _. destruct (Nat.leb_spec i (Z.to_nat j)); destruct (Nat.leb_spec i (Z.to_nat k)); try lra; lia.
      * apply Rmult_le_compat_r; [exact Pe|]. apply IZR_le. lia.
Qed.

Lemma stats_moments probs mean var g1 g2 : probabilities probs -> pb_stats probs = (mean, var, g1, g2) ->
  let moment j := expect probs (fun k => (INR k - mean) ^ j) in
  mean = expect probs INR /\ var = moment 2%nat /\ (var = 0 -> g1 = None /\ g2 = None) /\
  (var <> 0 -> g1 = Some (moment 3%nat / sqrt var ^ 3) /\ g2 = Some (moment 4%nat / sqrt var ^ 4 - 3)).
Proof.
  intros P E moment. unfold pb_stats in E. cbv zeta in E. fold (mu probs) (v2 probs) (v3 probs) (v4 probs) in E.
  destruct (moments probs) as [_ [B [C D]]]. assert (M := mean_expect probs).
  assert (Pv : 0 <= v2 probs) by (rewrite <- B; apply expect_nonneg; [exact P|]; intros k _; apply pow2_ge_0).
  assert (K : mean = mu probs /\ var = v2 probs) by (destruct (Req_EM_T (sqrt (v2 probs)) 0); split; congruence). destruct K as [-> ->].
  assert (M2 : moment 2%nat = v2 probs) by exact B. assert (M3 : moment 3%nat = v3 probs) by exact C. assert (M4 : moment 4%nat = v4 probs + 3 * v2 probs ^ 2) by exact D. clearbody moment.
  split; [symmetry; exact M|]. split; [symmetry; exact M2|]. destruct (Req_EM_T (sqrt (v2 probs)) 0) as [Z|Z].
  - assert (V0 : v2 probs = 0) by (apply sqrt_eq_0; assumption). split; [intros _; split; congruence|]. intros N. contradiction.
  - split; [intros V0; exfalso; apply Z; rewrite V0; apply sqrt_0|]. intros N.
    assert (EG : g1 = Some (v3 probs / sqrt (v2 probs) ^ 3) /\ g2 = Some (v4 probs / sqrt (v2 probs) ^ 4)) by (split; congruence). destruct EG as [-> ->].
    rewrite M3, M4. split; [reflexivity|]. f_equal. assert (S2 : sqrt (v2 probs) ^ 2 = v2 probs) by (apply pow2_sqrt; exact Pv).
    replace (sqrt (v2 probs) ^ 4) with (v2 probs ^ 2) by (rewrite <- S2 at 1; ring). field. exact N.
Qed.
Lemma local_method probs k : (k <= List.length probs)%nat -> local_pmf probs k = prob probs (Nat.eqb k).
Proof. apply local_nth. Qed.
