From Coq Require Import Reals Lra Lia Permutation Sorted.
From Verif Require Import Base PolyModel OrthoModel OrthoProofs QuadProofs2 SplineProofs LinAlg FilterModel FilterSpec FilterProofs.
Local Open Scope R_scope.

(* ---- sorting ---- *)
Lemma insertR_perm x l : Permutation (x :: l) (insertR x l).
Proof.
  induction l as [|y l IH]; cbn; [reflexivity|]. destruct (Rle_dec x y); [reflexivity|].
  rewrite <- IH. apply perm_swap.
Qed.
Lemma sortR_perm l : Permutation l (sortR l).
Proof. induction l as [|x l IH]; cbn; [reflexivity|]. rewrite <- insertR_perm. now constructor. Qed.
Lemma insertR_sorted x l : StronglySorted Rle l -> StronglySorted Rle (insertR x l).
Proof.
  induction l as [|y l IH]; cbn; intros H; [repeat constructor|]. inversion H; subst. destruct (Rle_dec x y).
  - constructor; [exact H|]. constructor; [exact r|]. eapply Forall_impl; [|exact H3]. intros; cbv beta in *; lra.
  - constructor; [now apply IH|]. eapply Permutation_Forall; [apply insertR_perm|]. constructor; [lra|exact H3].
Qed.
Lemma sortR_sorted l : StronglySorted Rle (sortR l).
Proof. induction l; cbn; [constructor|now apply insertR_sorted]. Qed.
Lemma sorted_unique s : forall t, StronglySorted Rle s -> StronglySorted Rle t -> Permutation s t -> s = t.
Proof.
  induction s as [|a s IH]; intros t Hs Ht P.
  - now apply Permutation_nil in P.
  - destruct t as [|b t]; [symmetry in P; now apply Permutation_nil in P|]. inversion Hs; subst. inversion Ht; subst.
    assert (a = b).
    { assert (Ia : In a (b :: t)) by (eapply Permutation_in; [exact P|now left]). assert (Ib : In b (a :: s)) by (eapply Permutation_in; [symmetry; exact P|now left]).
      rewrite Forall_forall in H2, H4. destruct Ia as [->|Ia]; [reflexivity|]. destruct Ib as [->|Ib]; [reflexivity|].
      apply Rle_antisym; [now apply H2|now apply H4]. }
    subst b. f_equal. apply IH; [assumption|assumption|]. now apply Permutation_cons_inv in P.
Qed.
Lemma median_is l : is_median l (median l).
Proof. exists (sortR l). split; [apply sortR_perm|]. split; [apply sortR_sorted|]. reflexivity. Qed.
Lemma median_unique l l' m m' : is_median l m -> is_median l' m' -> Permutation l l' -> m = m'.
Proof.
  intros (s & P & S1 & ->) (s' & P' & S' & ->) Q. rewrite (sorted_unique s s' S1 S').
  - now rewrite (Permutation_length Q).
  - now rewrite <- P, Q, P'.
Qed.
Lemma is_median_median l m : is_median l m -> m = median l.
Proof. intros H. exact (median_unique l l m _ H (median_is l) (Permutation_refl l)). Qed.
(* ---- affine maps ---- *)
Lemma map_sorted_incr c d s : 0 <= c -> StronglySorted Rle s -> StronglySorted Rle (map (fun v => c * v + d) s).
Proof.
  intros Hc H. induction H as [|a s H IH F]; cbn; [constructor|]. constructor; [exact IH|].
  apply Forall_map. eapply Forall_impl; [|exact F]. intros b Hb. cbv beta in *. nra.
Qed.
Lemma sorted_snoc s a : StronglySorted Rle s -> Forall (fun b => b <= a) s -> StronglySorted Rle (s ++ [a]).
Proof.
  induction s as [|b s IH]; cbn; intros H F; [repeat constructor|]. inversion H; subst. inversion F; subst.
  constructor; [now apply IH|]. apply Forall_app. split; [assumption|]. constructor; [assumption|constructor].
Qed.
Lemma map_sorted_decr c d s : c <= 0 -> StronglySorted Rle s -> StronglySorted Rle (rev (map (fun v => c * v + d) s)).
Proof.
  intros Hc H. induction H as [|a s H IH F]; cbn; [constructor|]. apply sorted_snoc; [exact IH|].
  apply Forall_rev, Forall_map. eapply Forall_impl; [|exact F]. intros b Hb. cbv beta in *. nra.
Qed.
Lemma nth_map_affine c d s k : (k < List.length s)%nat -> nth k (map (fun v => c * v + d) s) 0 = c * nth k s 0 + d.
Proof. intros H. rewrite (nth_indep _ 0 (c * 0 + d)) by now rewrite map_length. now rewrite (map_nth (fun v => c * v + d)). Qed.
Lemma median_affine c d l m : l <> [] -> is_median l m -> is_median (map (fun v => c * v + d) l) (c * m + d).
Proof.
  intros Hl (s & P & S1 & ->). assert (L : List.length s = List.length l) by (symmetry; now apply Permutation_length).
  assert (N : (0 < List.length l)%nat) by (destruct l; [congruence|cbn; lia]). set (n := List.length l) in *.
  assert (A1 : ((n - 1) / 2 < n)%nat) by (apply Nat.div_lt_upper_bound; lia). assert (A2 : (n / 2 < n)%nat) by (apply Nat.div_lt_upper_bound; lia).
  assert (A3 : ((n - 1) / 2 + n / 2 = n - 1)%nat).
  { pose proof (Nat.div_mod (n - 1) 2 ltac:(lia)). pose proof (Nat.div_mod n 2 ltac:(lia)).
    pose proof (Nat.mod_upper_bound (n - 1) 2 ltac:(lia)). pose proof (Nat.mod_upper_bound n 2 ltac:(lia)). lia. }
  destruct (Rle_dec 0 c) as [Hc|Hc].
  - exists (map (fun v => c * v + d) s). split; [now apply Permutation_map|]. split; [now apply map_sorted_incr|]. rewrite map_length. fold n.
    rewrite !nth_map_affine by lia. field.
  - exists (rev (map (fun v => c * v + d) s)). split; [rewrite <- Permutation_rev; now apply Permutation_map|]. split; [apply map_sorted_decr; [lra|exact S1]|].
    rewrite map_length. fold n. rewrite !rev_nth by (rewrite map_length; lia). rewrite map_length, L.
    replace (n - S ((n - 1) / 2))%nat with (n / 2)%nat by lia. replace (n - S (n / 2))%nat with ((n - 1) / 2)%nat by lia. rewrite !nth_map_affine by lia. field.
Qed.
Lemma median_bounds l m a b : l <> [] -> is_median l m -> (forall v, In v l -> a <= v <= b) -> a <= m <= b.
Proof.
  intros Hl (s & P & S1 & ->) H. assert (L : List.length s = List.length l) by (symmetry; now apply Permutation_length).
  assert (N : (0 < List.length l)%nat) by (destruct l; [congruence|cbn; lia]).
  assert (A1 : ((List.length l - 1) / 2 < List.length l)%nat) by (apply Nat.div_lt_upper_bound; lia). assert (A2 : (List.length l / 2 < List.length l)%nat) by (apply Nat.div_lt_upper_bound; lia).
  assert (G : forall k, (k < List.length l)%nat -> a <= nth k s 0 <= b).
  { intros k Hk. apply H. eapply Permutation_in; [symmetry; exact P|]. apply nth_In. lia. }
  pose proof (G _ A1). pose proof (G _ A2). lra.
Qed.
(* ---- the window ---- *)
Definition widx (X : list R) (DX : R) (i n : nat) : list nat := filter (in_window X DX i) (seq 0 n).
Lemma in_window_spec X DX i j : in_window X DX i j = true <-> Rabs (nth j X 0 - nth i X 0) <= DX.
Proof.
  unfold in_window, at_R. destruct (Rle_dec _ _), (Rle_dec _ _); cbn; split; intros H; try discriminate; try reflexivity.
  - unfold Rabs. destruct (Rcase_abs _); lra.
  - revert H. unfold Rabs. destruct (Rcase_abs _); lra.
  - revert H. unfold Rabs. destruct (Rcase_abs _); lra.
  - revert H. unfold Rabs. destruct (Rcase_abs _); lra.
Qed.
Lemma widx_neighbours X DX i : neighbours X DX i (widx X DX i (List.length X)).
Proof.
  split; [apply NoDup_filter, seq_NoDup|]. intros j. unfold widx. rewrite filter_In, in_seq, in_window_spec. intuition lia.
Qed.
Lemma neighbours_perm X DX i js js' : neighbours X DX i js -> neighbours X DX i js' -> Permutation js js'.
Proof. intros [N1 H1] [N2 H2]. apply NoDup_Permutation; [assumption|assumption|]. intros j. now rewrite H1, H2. Qed.
Lemma window_self X Y DX i : 0 <= DX -> (i < List.length Y)%nat -> window X Y DX i <> [].
Proof.
  intros HD Hi E. unfold window in E. apply map_eq_nil in E.
  assert (I : In i (filter (in_window X DX i) (seq 0 (List.length Y)))).
  { apply filter_In. split; [apply in_seq; lia|]. apply in_window_spec. rewrite Rminus_eq_0, Rabs_R0. exact HD. }
  rewrite E in I. exact I.
Qed.
Lemma window_in X Y DX i v : In v (window X Y DX i) -> exists j, (j < List.length Y)%nat /\ v = nth j Y 0.
Proof. unfold window. rewrite in_map_iff. intros (j & <- & Hj). apply filter_In in Hj. destruct Hj as [Hj _]. apply in_seq in Hj. exists j. split; [lia|reflexivity]. Qed.
