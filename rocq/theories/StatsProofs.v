From Coq Require Import Reals ZArith Lra Lia Sorted Permutation.
From Verif Require Import Base PolyModel FilterModel FilterProofs2 GridModel GridSpec GridProofs KdeModel KdeSpec KdeProofs5 StatsModel StatsSpec.
Local Open Scope R_scope.

(* ---- return periods ---- *)
Lemma roundtrip_q npu q : 0 < npu -> 0 <= q < 1 -> sf_entry (period_entry q npu) npu = Fin q.
Proof.
  intros Hn Hq. unfold period_entry. destruct (Rlt_dec npu 0); [lra|]. destruct (Rlt_dec q 0); [lra|]. destruct (Rle_dec 1 q); [lra|].
  unfold sf_entry. destruct (Req_EM_T (npu * q) 0) as [E|E]; destruct (Rle_dec npu 0); try lra.
  - f_equal. apply Rmult_integral in E. lra.
  - assert (q <> 0) by (intros ->; apply E; ring). assert (X : 1 / (npu * q) * npu = / q) by (field; lra). rewrite X.
    destruct (Rlt_dec (/ q) 1) as [L|L].
    + exfalso. assert (1 < / q) by (rewrite <- Rinv_1; apply Rinv_lt_contravar; lra). lra.
    + f_equal. field. lra.
Qed.
Lemma roundtrip_T npu T : 0 < npu -> 1 < T * npu -> exists q, sf_entry (Fin T) npu = Fin q /\ 0 < q < 1 /\ period_entry q npu = Fin T.
Proof.
  intros Hn Ht. unfold sf_entry. destruct (Rle_dec npu 0); [lra|]. destruct (Rlt_dec (T * npu) 1); [lra|].
  exists (1 / (T * npu)). split; [reflexivity|].
  assert (Q : 0 < 1 / (T * npu) < 1).
  { unfold Rdiv. rewrite Rmult_1_l. split; [apply Rinv_0_lt_compat; lra|]. rewrite <- Rinv_1. apply Rinv_lt_contravar; lra. }
  split; [exact Q|]. unfold period_entry.
  destruct (Rlt_dec npu 0); [lra|]. destruct (Rlt_dec (1 / (T * npu)) 0); [lra|]. destruct (Rle_dec 1 (1 / (T * npu))); [lra|].
  assert (T <> 0) by (intros ->; lra).
  destruct (Req_EM_T (npu * (1 / (T * npu))) 0) as [E|E].
  - exfalso. apply Rmult_integral in E. lra.
  - f_equal. field. split; lra.
Qed.
Lemma boundary npu : 0 < npu -> sf_entry (Fin (1 / npu)) npu = Fin 1 /\ period_entry 1 npu = NaN.
Proof.
  intros Hn. split.
  - unfold sf_entry. destruct (Rle_dec npu 0); [lra|]. assert (E : 1 / npu * npu = 1) by (field; lra). rewrite E. destruct (Rlt_dec 1 1); [lra|]. f_equal. field.
  - unfold period_entry. destruct (Rlt_dec npu 0); [lra|]. destruct (Rlt_dec 1 0); [lra|]. destruct (Rle_dec 1 1); [reflexivity|lra].
Qed.
Lemma period_nan q npu : period_entry q npu = NaN <-> npu < 0 \/ q < 0 \/ 1 <= q.
Proof. unfold period_entry. destruct (Rlt_dec npu 0), (Rlt_dec q 0), (Rle_dec 1 q); try destruct (Req_EM_T (npu * q) 0); split; intros; try reflexivity; try discriminate; lra. Qed.
Lemma sf_nan T npu : sf_entry (Fin T) npu = NaN <-> npu <= 0 \/ T * npu < 1.
Proof. unfold sf_entry. destruct (Rle_dec npu 0), (Rlt_dec (T * npu) 1); split; intros; try reflexivity; try discriminate; lra. Qed.
Lemma sf_decreasing T T' npu q q' : T < T' -> sf_entry (Fin T) npu = Fin q -> sf_entry (Fin T') npu = Fin q' -> q' < q.
Proof.
  unfold sf_entry. intros H. destruct (Rle_dec npu 0); [discriminate|]. destruct (Rlt_dec (T * npu) 1); [discriminate|]. intros E. injection E as <-.
  destruct (Rlt_dec (T' * npu) 1); [discriminate|]. intros E. injection E as <-.
  unfold Rdiv. rewrite !Rmult_1_l. assert (T * npu < T' * npu) by (apply Rmult_lt_compat_r; lra).
  apply Rinv_lt_contravar; [apply Rmult_lt_0_compat; lra|lra].
Qed.

(* ---- extremal index ---- *)
Lemma npsum_sumR l : npsum l = sumR l.
Proof. reflexivity. Qed.
Lemma sumR_nonneg l : (forall v, In v l -> 0 <= v) -> 0 <= sumR l.
Proof. induction l as [|a l IH]; intros H; cbn; [lra|]. specialize (IH (fun v Hv => H v (or_intror Hv))). specialize (H a (or_introl eq_refl)). unfold sumR in IH. lra. Qed.
Lemma sumR_pos l v : (forall v, In v l -> 0 <= v) -> In v l -> 0 < v -> 0 < sumR l.
Proof.
  intros H Hv P. induction l as [|a l IH]; [easy|]. unfold sumR. cbn [fold_right]. fold (sumR l).
  pose proof (sumR_nonneg l (fun v Hv => H v (or_intror Hv))). pose proof (H a (or_introl eq_refl)).
  destruct Hv as [->|Hv]; [lra|]. specialize (IH (fun v Hv => H v (or_intror Hv)) Hv). lra.
Qed.
Lemma mean_pos l v : (forall v, In v l -> 0 <= v) -> In v l -> 0 < v -> 0 < mean l.
Proof.
  intros H Hv P. unfold mean. rewrite npsum_sumR. apply Rdiv_lt_0_compat; [now apply (sumR_pos l v)|].
  destruct l; [easy|]. apply lt_0_INR. cbn. lia.
Qed.
Lemma max_in l : l <> [] -> In (maxR l) l.
Proof. intros H. now apply (min_max_spec l H). Qed.

Lemma extremal_range t : t <> [] -> integers t -> exists ei, extremal_idx t = Ok ei /\ 0 <= ei <= 1.
Proof.
  intros Hn Hi. destruct t as [|a l] eqn:Et; [easy|]. rewrite <- Et in *. unfold extremal_idx.
  assert (Hm := max_in t Hn).
  replace (match t with [] => Err ValueError | _ :: _ => _ end) with
   (if Rle_dec (maxR t) 1 then Ok 0 else if Rle_dec (maxR t) 2 then Ok (Rmin 1 (2 * mean t ^ 2 / mean (map (fun v => v ^ 2) t))) else Ok (Rmin 1 (2 * mean (map (fun v => v - 1) t) ^ 2 / mean (map (fun v => (v - 1) * (v - 2)) t)))) by (rewrite Et; reflexivity).
  destruct (Rle_dec (maxR t) 1) as [H1|H1]; [exists 0; split; [reflexivity|lra]|].
  destruct (Rle_dec (maxR t) 2) as [H2|H2]; eexists; (split; [reflexivity|]); (split; [|apply Rmin_l]).
  - apply Rmin_glb; [lra|]. apply Rlt_le, Rlt_le in H1 || idtac. unfold Rdiv. apply Rmult_le_pos; [pose proof (pow2_ge_0 (mean t)); lra|].
    apply Rlt_le, Rinv_0_lt_compat. apply (mean_pos _ (maxR t ^ 2)).
    + intros v Hv. apply in_map_iff in Hv as (w & <- & _). apply pow2_ge_0.
    + apply in_map_iff. exists (maxR t). split; [reflexivity|exact Hm].
    + apply pow_lt. lra.
  - apply Rmin_glb; [lra|]. unfold Rdiv. apply Rmult_le_pos; [pose proof (pow2_ge_0 (mean (map (fun v => v - 1) t))); lra|].
    apply Rlt_le, Rinv_0_lt_compat. apply (mean_pos _ ((maxR t - 1) * (maxR t - 2))).
    + intros v Hv. apply in_map_iff in Hv as (w & <- & Hw). destruct (Hi w Hw) as [z ->].
      destruct (Z_le_gt_dec z 1) as [Hz|Hz].
      * apply IZR_le in Hz. replace ((IZR z - 1) * (IZR z - 2)) with ((1 - IZR z) * (2 - IZR z)) by ring. apply Rmult_le_pos; lra.
      * assert (2 <= z)%Z by lia. apply IZR_le in H. apply Rmult_le_pos; lra.
    + apply in_map_iff. exists (maxR t). split; [reflexivity|exact Hm].
    + apply Rmult_lt_0_compat; lra.
Qed.

(* ---- interexceedance times ---- *)
Lemma diffR_length l : List.length (diffR l) = (List.length l - 1)%nat.
Proof. induction l as [|a [|b l] IH]; [reflexivity|reflexivity|]. cbn [diffR List.length]. cbn [diffR List.length] in IH. rewrite IH. lia. Qed.
Lemma diffR_cons a b l : diffR (a :: b :: l) = (b - a) :: diffR (b :: l).
Proof. reflexivity. Qed.
Lemma diffR_nonneg : forall l, StronglySorted Rle l -> forall v, In v (diffR l) -> 0 <= v.
Proof.
  induction l as [|a [|b l] IH]; intros H v Hv; [easy|easy|]. rewrite diffR_cons in Hv. inversion H as [|? ? H1 H2]; subst.
  destruct Hv as [<-|Hv]; [|now apply IH]. inversion H2; subst. lra.
Qed.
Lemma diffR_integers : forall l, integers l -> integers (diffR l).
Proof.
  induction l as [|a [|b l] IH]; intros H v Hv; [easy|easy|]. rewrite diffR_cons in Hv. destruct Hv as [<-|Hv].
  - destruct (H a) as [x ->]; [now left|]. destruct (H b) as [y ->]; [right; now left|]. exists (y - x)%Z. now rewrite minus_IZR.
  - apply IH; [|exact Hv]. intros w Hw. apply H. now right.
Qed.
Lemma diffR_sum : forall l a, sumR (diffR (a :: l)) = last (a :: l) 0 - a.
Proof.
  induction l as [|b l IH]; intros a; [cbn; lra|]. rewrite diffR_cons. unfold sumR. cbn [fold_right]. fold (sumR (diffR (b :: l))). rewrite IH.
  cbn [last]. lra.
Qed.
Lemma sorted_last_max : forall l, StronglySorted Rle l -> forall v, In v l -> v <= last l 0.
Proof.
  induction l as [|a l IH]; intros H v Hv; [easy|]. inversion H as [|? ? H1 H2]; subst. destruct l as [|b l]; [destruct Hv as [<-|[]]; cbn; lra|].
  change (last (a :: b :: l) 0) with (last (b :: l) 0). destruct Hv as [<-|Hv]; [|now apply IH].
  inversion H2; subst. specialize (IH H1 b (or_introl eq_refl)). lra.
Qed.
Lemma last_in {A} (d : A) : forall l, l <> [] -> In (last l d) l.
Proof. induction l as [|a [|b l] IH]; intros H; [easy|now left|]. right. now apply IH. Qed.

Lemma interexceedance_spec t : t <> [] ->
  List.length (interexceedance_times t) = (List.length t - 1)%nat /\ (forall v, In v (interexceedance_times t) -> 0 <= v) /\
  sumR (interexceedance_times t) = maxR t - minR t.
Proof.
  intros Hn. unfold interexceedance_times. pose proof (sortR_perm t) as P. pose proof (sortR_sorted t) as St.
  destruct (min_max_spec t Hn) as (Mi & Ma & B).
  split; [rewrite diffR_length; now rewrite <- (Permutation_length P)|]. split; [now apply diffR_nonneg|].
  destruct (sortR t) as [|a l] eqn:E; [apply Permutation_sym, Permutation_nil in P; easy|].
  rewrite diffR_sum.
  assert (In (last (a :: l) 0) t) by (eapply Permutation_in; [symmetry; exact P|apply last_in; easy]).
  assert (In a t) by (eapply Permutation_in; [symmetry; exact P|now left]).
  assert (maxR t <= last (a :: l) 0) by (apply sorted_last_max; [exact St|eapply Permutation_in; [exact P|exact Ma]]).
  assert (a <= minR t).
  { eapply Permutation_in in Mi; [|exact P]. inversion St as [|? ? S1 S2]; subst. destruct Mi as [<-|Mi]; [lra|]. rewrite Forall_forall in S2. now apply S2. }
  pose proof (B _ H). pose proof (B _ H0). lra.
Qed.

Lemma probability_roundtrip npu q : 0 < npu -> 0 <= q < 1 ->
  exists T, sf2returnperiod FloatArray [(q, npu)] = Ok [T] /\ returnperiod2sf FloatArray [(T, npu)] = Ok [Fin q].
Proof. intros Hn Hq. exists (period_entry q npu). split; [reflexivity|]. cbn [returnperiod2sf map fst snd]. now rewrite roundtrip_q. Qed.
Lemma period_roundtrip npu T : 0 < npu -> 1 < T * npu ->
  exists q, returnperiod2sf FloatArray [(Fin T, npu)] = Ok [Fin q] /\ 0 < q < 1 /\ sf2returnperiod FloatArray [(q, npu)] = Ok [Fin T].
Proof.
  intros Hn Ht. destruct (roundtrip_T npu T Hn Ht) as (q & E & Hq & E'). exists q.
  cbn [returnperiod2sf sf2returnperiod map fst snd]. now rewrite E, E'.
Qed.
Lemma nan_entries npu q T :
  (sf2returnperiod FloatArray [(q, npu)] = Ok [NaN] <-> npu < 0 \/ q < 0 \/ 1 <= q) /\
  (returnperiod2sf FloatArray [(Fin T, npu)] = Ok [NaN] <-> npu <= 0 \/ T * npu < 1).
Proof.
  rewrite <- period_nan, <- sf_nan. cbn [returnperiod2sf sf2returnperiod map fst snd].
  split; (split; intros H; [now injection H|now rewrite H]).
Qed.
Lemma entries_decreasing T T' npu q q' : T < T' -> returnperiod2sf FloatArray [(Fin T, npu); (Fin T', npu)] = Ok [Fin q; Fin q'] -> q' < q.
Proof. intros H E. cbn [returnperiod2sf map fst snd] in E. injection E as E1 E2. exact (sf_decreasing T T' npu q q' H E1 E2). Qed.
Lemma entrywise args args' : returnperiod2sf FloatArray (args ++ args') = (let* a := returnperiod2sf FloatArray args in let* b := returnperiod2sf FloatArray args' in Ok (a ++ b)).
Proof. cbn [returnperiod2sf bind]. now rewrite map_app. Qed.
Lemma one_event npu : 0 < npu -> returnperiod2sf FloatArray [(Fin (1 / npu), npu)] = Ok [Fin 1] /\ sf2returnperiod FloatArray [(1, npu)] = Ok [NaN].
Proof. intros Hn. destruct (boundary npu Hn) as [E1 E2]. cbn [returnperiod2sf sf2returnperiod map fst snd]. now rewrite E1, E2. Qed.
Lemma bad_types args args' : returnperiod2sf ZeroD args = Err TypeError /\ returnperiod2sf IntArray args = Err ValueError /\ sf2returnperiod ZeroD args' = Err TypeError /\ sf2returnperiod IntArray args' = Err ValueError.
Proof. repeat split. Qed.
