From Coq Require Import Reals ZArith Lra Lia Sorted Permutation.
From Verif Require Import Base PolyModel FilterModel FilterProofs2 GridModel GridSpec GridProofs KdeModel KdeSpec KdeProofs5 StatsModel StatsSpec StatsProofs.
Local Open Scope R_scope.

Lemma count_perm {A} (f : A -> bool) l l' : Permutation l l' -> count f l = count f l'.
Proof. unfold count. induction 1; cbn; auto; [destruct (f x); cbn; auto|destruct (f x), (f y); cbn; auto|congruence]. Qed.
Lemma count_app {A} (f : A -> bool) l l' : count f (l ++ l') = (count f l + count f l')%nat.
Proof. unfold count. now rewrite filter_app, app_length. Qed.
Lemma count_le {A} (f : A -> bool) l : (count f l <= List.length l)%nat.
Proof. unfold count. induction l; cbn; [lia|]. destruct (f a); cbn; lia. Qed.
Lemma count_none {A} (f : A -> bool) l : (forall v, In v l -> f v = false) -> count f l = O.
Proof. unfold count. induction l; intros H; cbn; [reflexivity|]. rewrite H by (now left). apply IHl. intros; apply H; now right. Qed.
Lemma count_all {A} (f : A -> bool) l : (forall v, In v l -> f v = true) -> count f l = List.length l.
Proof. unfold count. induction l; intros H; cbn; [reflexivity|]. rewrite H by (now left). cbn. f_equal. apply IHl. intros; apply H; now right. Qed.
Lemma count_split {A} (d : A) (f : A -> bool) l k : (k <= List.length l)%nat -> (forall j, (k <= j < List.length l)%nat -> f (nth j l d) = false) -> (count f l <= k)%nat.
Proof.
  intros Hk H. rewrite <- (firstn_skipn k l), count_app. rewrite (count_none f (skipn k l)).
  - pose proof (count_le f (firstn k l)). rewrite firstn_length in H0. lia.
  - intros v Hv. apply (In_nth _ _ d) in Hv as (j & Hj & <-). rewrite skipn_length in Hj.
    replace (nth j (skipn k l) d) with (nth (k + j) l d); [apply H; lia|].
    clear. revert l. induction k; intros l; [reflexivity|]. destruct l; [now destruct j|]. cbn. apply IHk.
Qed.
Lemma count_exact {A} (d : A) (f : A -> bool) l k : (k <= List.length l)%nat -> (forall j, (j < k)%nat -> f (nth j l d) = true) -> (forall j, (k <= j < List.length l)%nat -> f (nth j l d) = false) -> count f l = k.
Proof.
  intros Hk H1 H2. apply Nat.le_antisymm; [now apply (count_split d)|].
  rewrite <- (firstn_skipn k l), count_app. rewrite (count_all f (firstn k l)); [rewrite firstn_length; lia|].
  intros v Hv. apply (In_nth _ _ d) in Hv as (j & Hj & <-). rewrite firstn_length in Hj.
  replace (nth j (firstn k l) d) with (nth j l d); [apply H1; lia|].
  clear - Hj. revert j l Hj. induction k; intros j l Hj; [lia|]. destruct l; [now destruct j|]. destruct j; [reflexivity|]. cbn. apply IHk. cbn in Hj. lia.
Qed.
Lemma ssorted_nth : forall l, StronglySorted Rle l -> forall i j, (i <= j < List.length l)%nat -> nth i l 0 <= nth j l 0.
Proof.
  induction l as [|a l IH]; intros H i j Hij; [cbn in Hij; lia|]. inversion H as [|? ? H1 H2]; subst. cbn in Hij.
  destruct i, j; cbn; try lra; try lia; [|apply IH; auto; lia]. rewrite Forall_forall in H2. apply H2, nth_In. lia.
Qed.

(* ---- declustering time ---- *)
Lemma descending_spec ti : let sti := map Ropp (sortR (map Ropp ti)) in
  Permutation ti sti /\ forall i j, (i <= j < List.length sti)%nat -> nth j sti 0 <= nth i sti 0.
Proof.
  intros sti. assert (P : Permutation ti sti).
  { transitivity (map Ropp (map Ropp ti)).
    - rewrite map_map. replace (map (fun x => - - x) ti) with ti; [reflexivity|]. rewrite <- map_id at 1. apply map_ext. intros; lra.
    - apply Permutation_map, sortR_perm. }
  split; [exact P|]. intros i j H. unfold sti in *. rewrite map_length in H.
  rewrite !(nth_indep (map Ropp _) 0 (- 0)) by (rewrite map_length; lia). rewrite !map_nth. apply Ropp_le_contravar, ssorted_nth; [apply sortR_sorted|lia].
Qed.

Lemma declustering_spec t : (2 <= List.length t)%nat -> integers t ->
  exists ei tc, extremal_idx (interexceedance_times t) = Ok ei /\ declustering_time t = Ok (Some tc) /\ In tc (interexceedance_times t) /\
  INR (count (fun v => Rltb tc v) (interexceedance_times t)) <= INR (List.length t) * ei.
Proof.
  intros Hn Hi. assert (Ht : t <> []) by (intros ->; cbn in Hn; lia).
  destruct (interexceedance_spec t Ht) as (L & Pos & _).
  assert (It : integers (interexceedance_times t)).
  { apply diffR_integers. intros v Hv. apply Hi. eapply Permutation_in; [symmetry; apply sortR_perm|exact Hv]. }
  set (ti := interexceedance_times t) in *. assert (Hti : ti <> []) by (intros E; rewrite E in L; cbn in L; lia).
  destruct (extremal_range ti Hti It) as (ei & E & R1). exists ei.
  unfold declustering_time. destruct (Nat.ltb_spec (List.length t) 2); [lia|]. fold ti. rewrite E. cbn [bind].
  destruct (Req_EM_T ei 1) as [E1|E1].
  - exists (minR ti). split; [reflexivity|]. split; [reflexivity|]. split; [now apply min_max_spec|].
    subst ei. rewrite Rmult_1_r. apply le_INR. etransitivity; [apply count_le|]. lia.
  - destruct (descending_spec ti) as [P D]. set (sti := map Ropp (sortR (map Ropp ti))) in *.
    pose proof (Permutation_length P) as Ls.
    set (i := Int_part (INR (List.length t) * ei)).
    assert (I0 : (0 <= i)%Z).
    { assert (0 <= INR (List.length t) * ei) by (apply Rmult_le_pos; [apply pos_INR|lra]). destruct (base_Int_part (INR (List.length t) * ei)) as [B1 B2]. fold i in B1, B2.
      assert (-1 < IZR i) by lra. apply lt_IZR in H1. lia. }
    set (idx := Z.min i (Z.of_nat (List.length t) - 2)).
    assert (J0 : (0 <= idx)%Z) by lia.
    exists (nth (Z.to_nat idx) sti 0). split; [reflexivity|].
    unfold getz. destruct (Z.leb_spec 0 idx); [|lia]. unfold geti. rewrite (nth_error_nth' sti 0) by lia. cbn [bind].
    split; [reflexivity|]. split; [eapply Permutation_in; [symmetry; exact P|apply nth_In; lia]|].
    rewrite (count_perm _ _ _ P). apply Rle_trans with (INR (Z.to_nat idx)).
    + apply le_INR. apply (count_split 0); [lia|]. intros j Hj. unfold Rltb. destruct (Rlt_dec _ _) as [X|X]; [|reflexivity].
      specialize (D (Z.to_nat idx) j Hj). lra.
    + rewrite INR_IZR_INZ, Z2Nat.id by exact J0. destruct (base_Int_part (INR (List.length t) * ei)) as [B1 _]. fold i in B1.
      apply Rle_trans with (IZR i); [apply IZR_le; lia|exact B1].
Qed.

Lemma declustering_few t : (List.length t < 2)%nat -> declustering_time t = Ok None.
Proof. intros H. unfold declustering_time. destruct (Nat.ltb_spec (List.length t) 2); [reflexivity|lia]. Qed.

(* ---- non-integer times ---- *)
Lemma sort4 : sortR [0; 3/2; 3; 51/10] = [0; 3/2; 3; 51/10].
Proof. cbn [sortR]. repeat (cbn [insertR]; try (destruct Rle_dec; [|exfalso; lra])). reflexivity. Qed.
Lemma gaps4 : interexceedance_times [0; 3/2; 3; 51/10] = [3/2 - 0; 3 - 3/2; 51/10 - 3].
Proof. unfold interexceedance_times. rewrite sort4. reflexivity. Qed.
Lemma max4 : maxR [3/2 - 0; 3 - 3/2; 51/10 - 3] = 51/10 - 3.
Proof. unfold maxR. cbn [fold_left]. rewrite (Rmax_left (3/2 - 0) (3 - 3/2)) by lra. apply Rmax_right. lra. Qed.
Lemma index4 : extremal_idx [3/2 - 0; 3 - 3/2; 51/10 - 3] = Ok (- (98/13)).
Proof.
  unfold extremal_idx. rewrite max4. destruct (Rle_dec (51/10 - 3) 1); [lra|]. destruct (Rle_dec (51/10 - 3) 2); [lra|]. f_equal.
  unfold mean, npsum. cbn [map fold_right List.length]. replace (INR 3) with 3 by (cbn; lra).
  match goal with |- Rmin 1 ?e = _ => replace e with (- (98/13)) end; [apply Rmin_right; lra|]. field.
Qed.
Lemma declustering_noninteger : extremal_idx (interexceedance_times [0; 3/2; 3; 51/10]) = Ok (- (98/13)) /\ declustering_time [0; 3/2; 3; 51/10] = Err IndexError.
Proof.
  rewrite gaps4. split; [apply index4|]. unfold declustering_time. cbn [List.length Nat.ltb Nat.leb]. rewrite gaps4, index4. cbn [bind].
  destruct (Req_EM_T (- (98/13)) 1); [lra|].
  set (i := Int_part (INR 4 * - (98/13))).
  assert (I : (i <= -30)%Z).
  { destruct (base_Int_part (INR 4 * - (98/13))) as [B _]. fold i in B. apply le_IZR. replace (INR 4) with 4 in B by (cbn; lra).
    assert (IZR i < IZR (-30)) by lra. apply lt_IZR in H. apply IZR_le. lia. }
  unfold getz. destruct (Z.leb_spec 0 (Z.min i (Z.of_nat 4 - 2))); [lia|].
  assert (Ls : List.length (map Ropp (sortR (map Ropp [3/2 - 0; 3 - 3/2; 51/10 - 3]))) = 3%nat).
  { rewrite map_length, <- (Permutation_length (sortR_perm _)), map_length. reflexivity. }
  rewrite Ls. destruct (Z.leb_spec (- Z.of_nat 3) (Z.min i (Z.of_nat 4 - 2))); [lia|]. reflexivity.
Qed.

(* ---- empirical distribution ---- *)
Lemma edf_sorted x method : let (F, z) := edf x method in Permutation x z /\ StronglySorted Rle z /\ List.length F = List.length x.
Proof. unfold edf. cbv zeta. split; [apply sortR_perm|]. split; [apply sortR_sorted|]. rewrite map_length, seq_length. now rewrite <- (Permutation_length (sortR_perm x)). Qed.

Definition position (n : nat) (method : Z) (k : nat) : R :=
  if Z.eqb method 1 then (INR k - 1 / 2) / INR n else if Z.eqb method 3 then INR k / INR n else INR k / (INR n + 1).
Lemma edf_nth x method k : (k < List.length x)%nat -> nth k (fst (edf x method)) 0 = position (List.length x) method (S k).
Proof.
  intros Hk. unfold edf. cbn [fst]. pose proof (Permutation_length (sortR_perm x)) as L. rewrite <- L.
  set (f := fun k0 : nat => _). rewrite (nth_indep _ 0 (f O)) by (rewrite map_length, seq_length; exact Hk). rewrite map_nth, seq_nth by exact Hk. reflexivity.
Qed.
Lemma position_bounds n method k : (1 <= k <= n)%nat -> 0 < position n method k <= 1.
Proof.
  intros Hk. assert (1 <= INR k) by (apply (le_INR 1); lia). assert (INR k <= INR n) by (apply le_INR; lia).
  assert (D : forall a b, 0 < b -> 0 < a <= b -> 0 < a / b <= 1).
  { intros a b Hb Ha. split; [apply Rdiv_lt_0_compat; lra|]. apply Rmult_le_reg_r with b; [exact Hb|]. unfold Rdiv. rewrite Rmult_assoc, Rinv_l; lra. }
  unfold position. destruct (Z.eqb method 1); [apply D; lra|]. destruct (Z.eqb method 3); apply D; lra.
Qed.
Lemma position_lt n method k l : (1 <= k < l)%nat -> (l <= n)%nat -> position n method k < position n method l.
Proof.
  intros Hk Hl. assert (INR k < INR l) by (apply lt_INR; lia). assert (0 < INR n) by (apply lt_0_INR; lia).
  unfold position. destruct (Z.eqb method 1); [|destruct (Z.eqb method 3)]; unfold Rdiv; apply Rmult_lt_compat_r; try lra; apply Rinv_0_lt_compat; lra.
Qed.
Lemma position_close n method k : (1 <= k <= n)%nat -> Rabs (position n method k - INR k / INR n) <= / (INR n + 1).
Proof.
  intros Hk. assert (1 <= INR k) by (apply (le_INR 1); lia). assert (INR k <= INR n) by (apply le_INR; lia).
  assert (0 < / (INR n + 1)) by (apply Rinv_0_lt_compat; lra).
  unfold position. destruct (Z.eqb method 1); [|destruct (Z.eqb method 3)].
  - replace ((INR k - 1 / 2) / INR n - INR k / INR n) with (- (/ (2 * INR n))) by (field; lra).
    rewrite Rabs_Ropp, Rabs_pos_eq by (apply Rlt_le, Rinv_0_lt_compat; lra). apply Rinv_le_contravar; lra.
  - rewrite Rminus_diag_eq by reflexivity. rewrite Rabs_R0. lra.
  - replace (INR k / (INR n + 1) - INR k / INR n) with (- (INR k / INR n * / (INR n + 1))) by (field; lra).
    assert (0 <= INR k / INR n <= 1).
    { split; [apply Rlt_le, Rdiv_lt_0_compat; lra|]. apply Rmult_le_reg_r with (INR n); [lra|]. unfold Rdiv. rewrite Rmult_assoc, Rinv_l; lra. }
    rewrite Rabs_Ropp, Rabs_pos_eq by (apply Rmult_le_pos; lra).
    apply Rle_trans with (1 * / (INR n + 1)); [apply Rmult_le_compat_r; lra|lra].
Qed.
Lemma edf_increasing x method i j : (i < j < List.length x)%nat ->
  0 < nth i (fst (edf x method)) 0 /\ nth i (fst (edf x method)) 0 < nth j (fst (edf x method)) 0 /\ nth j (fst (edf x method)) 0 <= 1.
Proof.
  intros H. rewrite !edf_nth by lia. split; [apply position_bounds; lia|]. split; [apply position_lt; lia|]. apply position_bounds; lia.
Qed.
Lemma edf_count x method k : let (F, z) := edf x method in (k < List.length x)%nat -> (S k = List.length x \/ nth k z 0 < nth (S k) z 0) ->
  count (fun w => Rleb w (nth k z 0)) x = S k.
Proof.
  unfold edf. cbv zeta. intros Hk Hl. pose proof (sortR_perm x) as P. pose proof (sortR_sorted x) as St. pose proof (Permutation_length P) as L.
  rewrite (count_perm _ _ _ P). apply (count_exact 0); [lia| |].
  - intros j Hj. unfold Rleb. destruct (Rle_dec _ _) as [X|X]; [reflexivity|]. exfalso. apply X. apply ssorted_nth; [exact St|lia].
  - intros j Hj. unfold Rleb. destruct (Rle_dec _ _) as [X|X]; [|reflexivity]. exfalso. destruct Hl as [Hl|Hl]; [lia|].
    pose proof (ssorted_nth _ St (S k) j ltac:(lia)). lra.
Qed.
Lemma edf_empirical x method k : let (F, z) := edf x method in (k < List.length x)%nat -> (S k = List.length x \/ nth k z 0 < nth (S k) z 0) ->
  Rabs (nth k F 0 - fraction_below x (nth k z 0)) <= / (INR (List.length x) + 1) /\ (method = 3%Z -> nth k F 0 = fraction_below x (nth k z 0)).
Proof.
  pose proof (edf_count x method k) as C. pose proof (edf_nth x method k) as N. destruct (edf x method) as [F z]. cbn [fst] in N. intros Hk Hl.
  unfold fraction_below. rewrite C by assumption. rewrite N by assumption. split; [apply position_close; lia|]. intros ->. reflexivity.
Qed.
Lemma filter_true {A} (f : A -> bool) l : (forall v, In v l -> f v = true) -> filter f l = l.
Proof. induction l as [|b l IH]; intros H; [reflexivity|]. cbn. rewrite (H b (or_introl eq_refl)). f_equal. apply IH. intros v Hv. apply H. now right. Qed.
Lemma edfcnd_default x method : x <> [] -> edfcnd x None method = Ok (edf x method).
Proof.
  intros Hx. unfold edfcnd. destruct x as [|a x'] eqn:E; [easy|]. rewrite <- E in *. replace (match x with [] => Err ValueError | _ :: _ => _ end) with (Ok (IZR (Int_part (Rmin (minR x) 0)))) by (rewrite E; reflexivity).
  cbn [bind]. f_equal. f_equal.
  assert (A : forall v, In v x -> (if Rle_dec (IZR (Int_part (Rmin (minR x) 0))) v then true else false) = true).
  { intros v Hv. destruct (Rle_dec _ v) as [L|L]; [reflexivity|]. exfalso. apply L. destruct (base_Int_part (Rmin (minR x) 0)) as [B _].
    pose proof (Rmin_l (minR x) 0). destruct (min_max_spec x Hx) as (_ & _ & M). specialize (M v Hv). lra. }
  now apply filter_true.
Qed.
Lemma edfcnd_given x c method : edfcnd x (Some c) method = Ok (edf (filter (fun v => Rleb c v) x) method).
Proof. reflexivity. Qed.

(* ---- mean residual life ---- *)
Lemma mean_excess_spec data u : let (m, n) := mean_excess data u in
  n = count (fun v => Rltb u v) data /\
  match m with None => n = O | Some e => (0 < n)%nat /\ 0 < e /\ INR n * e = sumR (map (fun v => Rmax 0 (v - u)) data) end.
Proof.
  cbv beta iota zeta delta [mean_excess].
  assert (S0 : sumR (map (fun v => v - u) (filter (fun v => if Rlt_dec u v then true else false) data)) = sumR (map (fun v => Rmax 0 (v - u)) data)).
  { induction data as [|a l IH]; [reflexivity|]. cbn [filter map]. unfold sumR at 2. cbn [fold_right]. fold (sumR (map (fun v => Rmax 0 (v - u)) l)). rewrite <- IH.
    destruct (Rlt_dec u a).
    - cbn [map]. unfold sumR at 1. cbn [fold_right]. rewrite Rmax_right by lra. reflexivity.
    - rewrite Rmax_left by lra. lra. }
  split; [now rewrite map_length|].
  set (e := map (fun v => v - u) (filter (fun v => if Rlt_dec u v then true else false) data)) in *.
  assert (Pos : forall v, In v e -> 0 < v).
  { intros v Hv. unfold e in Hv. apply in_map_iff in Hv as (w & <- & Hw). apply filter_In in Hw as [_ Hw]. destruct (Rlt_dec u w); [lra|discriminate]. }
  destruct e as [|a l] eqn:E; [reflexivity|]. rewrite <- E in *. assert (Le : (0 < List.length e)%nat) by (rewrite E; cbn; lia).
  split; [exact Le|]. split.
  - apply (mean_pos e a); [intros; apply Rlt_le; auto| |]; [rewrite E; now left|apply Pos; rewrite E; now left].
  - rewrite <- S0. unfold mean. rewrite npsum_sumR. field. apply not_0_INR. lia.
Qed.

Lemma edfcnd_spec x method : (x <> [] -> edfcnd x None method = Ok (edf x method)) /\ forall c, edfcnd x (Some c) method = Ok (edf (filter (fun v => Rleb c v) x) method).
Proof. split; [apply edfcnd_default|intros; apply edfcnd_given]. Qed.
