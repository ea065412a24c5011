From Coq Require Import Reals Lra Lia Sorted Permutation.
From Verif Require Import Base PolyModel PolySpec OrthoModel PPModel PPSpec SplineModel SplineSpec
  SplineProofs SplineProofs2 SplineProofs3.
Local Open Scope R_scope.

(* sorting the data: the order in which the points are given does not matter *)
Lemma insert_by_perm x i l : Permutation (insert_by x i l) (i :: l).
Proof.
  induction l as [|j l IH]; [reflexivity|]. cbn. destruct (Rlt_dec (at_R x i) (at_R x j)); [reflexivity|].
  rewrite IH. apply perm_swap.
Qed.
Lemma insert_by_sorted x i l : StronglySorted (fun a b => at_R x a <= at_R x b) l ->
  StronglySorted (fun a b => at_R x a <= at_R x b) (insert_by x i l).
Proof.
  induction 1 as [|j l H IH F]; cbn; [repeat constructor|]. destruct (Rlt_dec (at_R x i) (at_R x j)) as [L|L].
  - constructor; [constructor; assumption|]. constructor; [lra|]. eapply Forall_impl; [|exact F]. cbn. intros; lra.
  - constructor; [exact IH|]. apply (Permutation_Forall (Permutation_sym (insert_by_perm x i l))). constructor; [lra|exact F].
Qed.
Lemma argsort_fold x is_ l : Permutation (fold_left (fun l i => insert_by x i l) is_ l) (l ++ is_).
Proof.
  revert l. induction is_ as [|i is_ IH]; intros l; cbn; [now rewrite app_nil_r|]. rewrite IH, insert_by_perm. cbn.
  apply Permutation_middle.
Qed.
Lemma argsort_fold_sorted x is_ l : StronglySorted (fun a b => at_R x a <= at_R x b) l ->
  StronglySorted (fun a b => at_R x a <= at_R x b) (fold_left (fun l i => insert_by x i l) is_ l).
Proof. revert l. induction is_ as [|i is_ IH]; intros l H; cbn; [exact H|]. apply IH. now apply insert_by_sorted. Qed.
Lemma argsort_perm x : Permutation (argsort x) (seq 0 (List.length x)).
Proof. apply (argsort_fold x _ []). Qed.
Lemma argsort_sorted x : StronglySorted (fun a b => at_R x a <= at_R x b) (argsort x).
Proof. apply argsort_fold_sorted. constructor. Qed.
Lemma map_sorted {A} (f : A -> R) l : StronglySorted (fun a b => f a <= f b) l -> StronglySorted Rle (map f l).
Proof. induction 1; cbn; constructor; auto. now rewrite Forall_map. Qed.
Lemma combine_map_seq x y : List.length y = List.length x -> map (fun i => (at_R x i, at_R y i)) (seq 0 (List.length x)) = combine x y.
Proof.
  revert y. induction x as [|a x IH]; intros [|b y] H; try discriminate; [reflexivity|]. cbn [List.length seq map combine]. f_equal.
  rewrite <- seq_shift, map_map. rewrite <- IH by (cbn in H; lia). reflexivity.
Qed.
Lemma combine_maps (l : list nat) f g : combine (map f l) (map g l) = map (fun i => (f i : R, g i : R)) l.
Proof. induction l; cbn; congruence. Qed.
Lemma sorted_pairs_unique (l : list (R * R)) : forall l', Permutation l l' -> StronglySorted Rle (map fst l) -> StronglySorted Rlt (map fst l') -> l = l'.
Proof.
  induction l as [|[a b] l IH]; intros l' P S1 S2; [now apply Permutation_nil in P|].
  destruct l' as [|[c d] l']; [now apply Permutation_sym, Permutation_nil in P|].
  cbn in S1, S2. apply StronglySorted_inv in S1 as [S1 F1]. apply StronglySorted_inv in S2 as [S2 F2].
  rewrite Forall_forall in F1, F2.
  assert (E : (a, b) = (c, d)).
  { assert (I1 : In (a, b) ((c, d) :: l')) by (apply (Permutation_in _ P); now left).
    assert (I2 : In (c, d) ((a, b) :: l)) by (apply (Permutation_in _ (Permutation_sym P)); now left).
    destruct I1 as [I1|I1]; [now symmetry|]. destruct I2 as [I2|I2]; [assumption|].
    specialize (F2 a (in_map fst _ _ I1)). specialize (F1 c (in_map fst _ _ I2)). lra. }
  inversion E; subst. f_equal. apply IH; auto. now apply Permutation_cons_inv in P.
Qed.
Lemma combine_inj (x y x' y' : list R) : List.length x = List.length y -> List.length x' = List.length y' -> combine x y = combine x' y' -> x = x' /\ y = y'.
Proof.
  intros H H' E. assert (Ex : map fst (combine x y) = map fst (combine x' y')) by now rewrite E.
  assert (Ey : map snd (combine x y) = map snd (combine x' y')) by now rewrite E.
  clear E. revert y y' x' H H' Ex Ey. induction x as [|a x IH]; intros [|b y] [|d y'] [|c x'] H H' Ex Ey; try discriminate; auto.
  cbn in *. inversion Ex; inversion Ey; subst. destruct (IH y y' x') as [-> ->]; auto; lia.
Qed.
Lemma fst_combine (x y : list R) : List.length x = List.length y -> map fst (combine x y) = x.
Proof. revert y. induction x; intros [|b y] H; try discriminate; cbn; auto. f_equal. apply IHx. cbn in H; lia. Qed.
Lemma spacing_sorts x0 y0 x y : List.length y0 = List.length x0 -> List.length y = List.length x ->
  Permutation (combine x0 y0) (combine x y) -> StronglySorted Rlt x -> ss_spacing x0 y0 = Ok (x, y).
Proof.
  intros H0 H P Hs. unfold ss_spacing. destruct (exists_below _ _) eqn:E.
  - rewrite H0, Nat.ltb_irrefl. f_equal.
    assert (Q : combine (map (at_R x0) (argsort x0)) (map (at_R y0) (argsort x0)) = combine x y).
    { apply sorted_pairs_unique.
      - rewrite combine_maps. rewrite (Permutation_map _ (argsort_perm x0)). rewrite combine_map_seq by exact H0. exact P.
      - rewrite fst_combine by now rewrite !map_length. apply map_sorted, argsort_sorted.
      - now rewrite fst_combine by now symmetry. }
    apply combine_inj in Q as [-> ->]; auto. now rewrite !map_length.
  - assert (Q : combine x0 y0 = combine x y).
    { apply sorted_pairs_unique; [exact P| |now rewrite fst_combine by now symmetry]. rewrite fst_combine by now symmetry.
      apply Sorted_StronglySorted; [intros ? ? ?; apply Rle_trans|].
      assert (G : forall i, (S i < List.length x0)%nat -> nth i x0 0 <= nth (S i) x0 0).
      { intros i Hi. pose proof (proj1 (exists_below_false _ _) E i ltac:(lia)) as K. unfold rlt in K. destruct (Rlt_dec (gap x0 i) 0); [discriminate|]. unfold gap, at_R in *. lra. }
      clear - G. induction x0 as [|a x IH]; constructor.
      - apply IH. intros i Hi. apply (G (S i)). cbn [List.length]. lia.
      - destruct x as [|b x]; constructor. apply (G 0%nat). cbn; lia. }
    apply combine_inj in Q as [-> ->]; auto.
Qed.
Lemma order_irrelevant x0 y0 x y var p lin s : List.length y0 = List.length x0 -> List.length y = List.length x ->
  Permutation (combine x0 y0) (combine x y) -> StronglySorted Rlt x ->
  smooth_spline x0 y0 var p lin s = smooth_spline x y var p lin s.
Proof.
  intros H0 H P Hs. unfold smooth_spline. rewrite (spacing_sorts x0 y0 x y) by assumption.
  rewrite (spacing_sorts x y x y) by (auto; reflexivity). reflexivity.
Qed.
