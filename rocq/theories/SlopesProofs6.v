From Coq Require Import Reals Lra Lia Sorted.
From Verif Require Import Base PolyModel PolySpec PolyProofs PolyProofs2 PPModel PPSpec PPProofs PPProofs2
  SplineModel SplineProofs SlopesModel SlopesSpec SlopesProofs SlopesProofs2 SlopesProofs3 SlopesProofs4.
Local Open Scope R_scope.

(* ---- Akima --------------------------------------------------------------------------------------- *)
Lemma ext_inner x y k : (2 <= k)%nat -> (k <= List.length x)%nat -> akima_ext x y k = secant x y (k - 2).
Proof.
  intros A B. unfold akima_ext, npts. destruct (Nat.eqb_spec k 0); [lia|]. destruct (Nat.eqb_spec k 1); [lia|].
  destruct (Nat.eqb_spec k (List.length x + 1)); [lia|]. destruct (Nat.eqb_spec k (List.length x + 2)); [lia|reflexivity].
Qed.
Lemma dm_inner x y k : (2 <= k)%nat -> (k < List.length x)%nat -> akima_dm x y k = Rabs (secant x y (k - 1) - secant x y (k - 2)).
Proof. intros A B. unfold akima_dm. rewrite !ext_inner by lia. now replace (k + 1 - 2)%nat with (k - 1)%nat by lia. Qed.
Lemma dm_bound x y D k : (3 <= List.length x)%nat -> (k < List.length x + 2)%nat ->
  (forall j, (S (S j) < List.length x)%nat -> Rabs (secant x y (S j) - secant x y j) <= D) -> akima_dm x y k <= D.
Proof.
  intros Hn Hk B. assert (B0 := B 0%nat ltac:(lia)). assert (BN := B (List.length x - 3)%nat ltac:(lia)).
  replace (S (List.length x - 3)) with (List.length x - 2)%nat in BN by lia.
  destruct (Nat.eq_dec k 0) as [->|N0]; [|destruct (Nat.eq_dec k 1) as [->|N1]; [|destruct (Nat.eq_dec k (List.length x)) as [E|N2]; [|destruct (Nat.eq_dec k (List.length x + 1)) as [E|N3]]]].
  - unfold akima_dm, akima_ext. cbn [Nat.add Nat.eqb]. set (a := secant x y 0) in *. set (b := secant x y 1) in *.
    replace (2 * a - b - (2 * (2 * a - b) - a)) with (b - a) by ring. exact B0.
  - unfold akima_dm. change (1 + 1)%nat with 2%nat. rewrite (ext_inner x y 2) by lia. unfold akima_ext. cbn [Nat.eqb Nat.sub].
    replace (secant x y 0 - (2 * secant x y 0 - secant x y 1)) with (secant x y 1 - secant x y 0) by ring. exact B0.
  - subst k. unfold akima_dm. rewrite (ext_inner x y (List.length x)) by lia. unfold akima_ext, npts.
    destruct (Nat.eqb_spec (List.length x + 1) 0); [lia|]. destruct (Nat.eqb_spec (List.length x + 1) 1); [lia|]. rewrite Nat.eqb_refl.
    replace (2 * secant x y (List.length x - 2) - secant x y (List.length x - 3) - secant x y (List.length x - 2)) with (secant x y (List.length x - 2) - secant x y (List.length x - 3)) by ring. exact BN.
  - subst k. unfold akima_dm, akima_ext, npts.
    destruct (Nat.eqb_spec (List.length x + 1 + 1) 0); [lia|]. destruct (Nat.eqb_spec (List.length x + 1 + 1) 1); [lia|].
    destruct (Nat.eqb_spec (List.length x + 1 + 1) (List.length x + 1)); [lia|]. destruct (Nat.eqb_spec (List.length x + 1 + 1) (List.length x + 2)); [|lia].
    destruct (Nat.eqb_spec (List.length x + 1) 0); [lia|]. destruct (Nat.eqb_spec (List.length x + 1) 1); [lia|]. rewrite Nat.eqb_refl.
    set (a := secant x y (List.length x - 2)) in *. set (b := secant x y (List.length x - 3)) in *. replace (2 * (2 * a - b) - a - (2 * a - b)) with (a - b) by ring. exact BN.
  - rewrite dm_inner by lia. specialize (B (k - 2)%nat ltac:(lia)). replace (S (k - 2)) with (k - 1)%nat in B by lia. exact B.
Qed.
Lemma max_bound x y D : (3 <= List.length x)%nat ->
  (forall j, (S (S j) < List.length x)%nat -> Rabs (secant x y (S j) - secant x y j) <= D) -> akima_max x y <= 2 * D.
Proof.
  intros Hn B. assert (F : forall k, (k < List.length x)%nat -> akima_f12 x y k <= 2 * D).
  { intros k Hk. unfold akima_f12. pose proof (dm_bound x y D k Hn ltac:(lia) B). pose proof (dm_bound x y D (k + 2) Hn ltac:(lia) B). lra. }
  unfold akima_max, npts. assert (forall l, (forall k, In k l -> (k < List.length x)%nat) ->
      fold_right (fun i v => Rmax (akima_f12 x y i) v) (akima_f12 x y 0) l <= 2 * D) as Z.
  { induction l as [|k l IH]; intros Hl; cbn [fold_right]; [apply F; lia|]. apply Rmax_lub; [apply F, Hl; now left|]. apply IH. intros; apply Hl; now right. }
  apply Z. intros k Hk. apply in_seq in Hk. lia.
Qed.
Lemma akima_value x y i : (2 <= i)%nat -> (S (S i) < List.length x)%nat ->
  let s := secant x y in
  let f1 := Rabs (s (i + 1)%nat - s i) in let f2 := Rabs (s (i - 1)%nat - s (i - 2)%nat) in
  akima_at x y i = if Rlt_dec (1 / 1000000000 * akima_max x y) (f1 + f2)
                   then (f1 * s (i - 1)%nat + f2 * s i) / (f1 + f2) else 1/2 * (s (i + 1)%nat + s (i - 2)%nat).
Proof.
  intros A B s f1 f2. unfold akima_at, akima_f12.
  rewrite (dm_inner x y (i + 2)) by lia. rewrite (dm_inner x y i) by lia. rewrite !ext_inner by lia.
  replace (i + 2 - 1)%nat with (i + 1)%nat by lia. replace (i + 2 - 2)%nat with i by lia. replace (i + 3 - 2)%nat with (i + 1)%nat by lia.
  replace (i + 1 - 2)%nat with (i - 1)%nat by lia. reflexivity.
Qed.
Lemma akima_between x y i lo hi : StronglySorted Rlt x -> (2 <= i)%nat -> (S (S i) < List.length x)%nat ->
  (forall k, (i <= k + 2)%nat -> (k <= i + 1)%nat -> lo <= chord x y k <= hi) ->
  exists yp, slopes Akima false x y = Ok yp /\ lo <= nth i yp 0 <= hi.
Proof.
  intros H A B K. eexists. split; [apply slopes_ok; auto; lia|]. cbv iota zeta. rewrite map_seq_nth by lia. cbn [slope_at].
  rewrite akima_value by lia. cbv zeta. set (s := secant x y).
  assert (K' : forall k, (i <= k + 2)%nat -> (k <= i + 1)%nat -> lo <= s k <= hi) by exact K.
  assert (MX : 0 <= akima_max x y).
  { unfold akima_max. assert (Z : forall k, 0 <= akima_f12 x y k) by (intros; unfold akima_f12, akima_dm; apply Rplus_le_le_0_compat; apply Rabs_pos).
    induction (seq 0 (npts x)); cbn [fold_right]; [apply Z|]. eapply Rle_trans; [|apply Rmax_r]. assumption. }
  destruct (K' (i + 1)%nat ltac:(lia) ltac:(lia)). destruct (K' i ltac:(lia) ltac:(lia)). destruct (K' (i - 1)%nat ltac:(lia) ltac:(lia)). destruct (K' (i - 2)%nat ltac:(lia) ltac:(lia)).
  set (f1 := Rabs (s (i + 1)%nat - s i)). set (f2 := Rabs (s (i - 1)%nat - s (i - 2)%nat)).
  assert (0 <= f1) by apply Rabs_pos. assert (0 <= f2) by apply Rabs_pos. clearbody f1 f2.
  destruct (Rlt_dec (1 / 1000000000 * akima_max x y) (f1 + f2)); [|lra].
  assert (0 < f1 + f2) by lra. split; apply (Rmult_le_reg_r (f1 + f2)); try lra; unfold Rdiv; rewrite ?Rmult_assoc, ?Rinv_l by lra; nra.
Qed.
Lemma akima_collinear x y i D : StronglySorted Rlt x -> (2 <= i)%nat -> (S (S i) < List.length x)%nat ->
  (forall j, (S (S j) < List.length x)%nat -> Rabs (chord x y (S j) - chord x y j) <= D) ->
  exists yp, slopes Akima false x y = Ok yp /\
   (chord x y (i - 2) = chord x y (i - 1) -> 2 / 1000000000 * D < Rabs (chord x y (i + 1) - chord x y i) -> nth i yp 0 = chord x y (i - 1)) /\
   (chord x y i = chord x y (i + 1) -> 2 / 1000000000 * D < Rabs (chord x y (i - 1) - chord x y (i - 2)) -> nth i yp 0 = chord x y i).
Proof.
  intros H A B K. eexists. split; [apply slopes_ok; auto; lia|]. cbv iota zeta. rewrite map_seq_nth by lia. cbn [slope_at].
  rewrite akima_value by lia. cbv zeta. pose proof (max_bound x y D ltac:(lia) K) as MB.
  change (chord x y) with (secant x y) in *.
  assert (D0 : 0 <= D). { eapply Rle_trans; [apply Rabs_pos|apply (K 0%nat); lia]. }
  split; intros E L.
  - rewrite E. replace (secant x y (i - 1) - secant x y (i - 1)) with 0 by ring. rewrite Rabs_R0.
    destruct (Rlt_dec _ _) as [|N]; [|lra]. field. lra.
  - rewrite <- E. replace (secant x y i - secant x y i) with 0 by ring. rewrite Rabs_R0.
    destruct (Rlt_dec _ _) as [|N]; [|lra]. field. lra.
Qed.
