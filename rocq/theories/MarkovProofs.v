From Coq Require Import Reals Lra.
From Verif Require Import Base MarkovModel MarkovSpec.
Local Open Scope R_scope.

Lemma csum_Rsum f k : csum f k = Rsum (range 0 (S k)) f.
Proof.
  unfold range, Rsum. rewrite Nat.sub_0_r.
  induction k as [|k IH]; [simpl; lra|]. cbn [csum]. rewrite IH.
  rewrite (seq_S (S k)), fold_right_app. cbn [fold_right Nat.add].
  generalize (seq 0 (S k)). intros l. induction l as [|a l IHl]; cbn [fold_right]; lra.
Qed.
Lemma sum_range_Rsum f : forall len a, sum_range f a len = Rsum (seq a len) f.
Proof. induction len as [|l IH]; intros a; [reflexivity|]. cbn. rewrite IH. reflexivity. Qed.

Lemma Rsum_ext l f g : (forall k, In k l -> f k = g k) -> Rsum l f = Rsum l g.
Proof.
  unfold Rsum. induction l as [|a l IH]; intros H; [reflexivity|]. cbn [fold_right].
  rewrite H by (left; auto). rewrite IH by (intros; apply H; right; auto). reflexivity.
Qed.
Lemma Rsum_app l1 l2 f : Rsum (l1 ++ l2) f = Rsum l1 f + Rsum l2 f.
Proof. unfold Rsum. induction l1 as [|a l IH]; cbn [app fold_right]; lra. Qed.
Lemma Rsum_rev l f : Rsum (rev l) f = Rsum l f.
Proof.
  induction l as [|a l IH]; [reflexivity|]. cbn [rev]. rewrite Rsum_app, IH. unfold Rsum. cbn. lra.
Qed.
Lemma Rsum_map l (h : nat -> nat) f : Rsum (map h l) f = Rsum l (fun k => f (h k)).
Proof. unfold Rsum. induction l as [|a l IH]; cbn; [|rewrite IH]; lra. Qed.
Lemma Rsum_add l f g : Rsum l (fun k => f k + g k) = Rsum l f + Rsum l g.
Proof. unfold Rsum. induction l as [|a l IH]; cbn; [|rewrite IH]; lra. Qed.
Lemma Rsum_sub l f g : Rsum l (fun k => f k - g k) = Rsum l f - Rsum l g.
Proof. unfold Rsum. induction l as [|a l IH]; cbn; [|rewrite IH]; lra. Qed.
Lemma Rsum_0 l : Rsum l (fun _ => 0) = 0.
Proof. unfold Rsum. induction l as [|a l IH]; cbn; [|rewrite IH]; lra. Qed.
Lemma Rsum_swap l1 l2 (f : nat -> nat -> R) :
  Rsum l1 (fun p => Rsum l2 (fun q => f p q)) = Rsum l2 (fun q => Rsum l1 (fun p => f p q)).
Proof.
  induction l1 as [|a l IH].
  - unfold Rsum at 1. cbn. symmetry. apply (Rsum_0 l2).
  - change (Rsum l2 (fun q => f a q) + Rsum l (fun p => Rsum l2 (fun q => f p q))
      = Rsum l2 (fun q => f a q + Rsum l (fun p => f p q))).
    rewrite IH, Rsum_add. reflexivity.
Qed.

(* sum from the right: flip, cumulate, flip *)
Lemma flipped_sum f w : forall j, (j < w)%nat ->
  Rsum (range 0 (S (w - 1 - j))) (fun q => f (w - 1 - q)%nat) = Rsum (range j w) f.
Proof.
  intros j Hj. unfold range. rewrite Nat.sub_0_r.
  rewrite <- (Rsum_map (seq 0 (S (w - 1 - j))) (fun q => (w - 1 - q)%nat)).
  rewrite <- (Rsum_rev (seq j (w - j))). f_equal.
  apply (nth_ext _ _ 0%nat 0%nat).
  - rewrite map_length, rev_length, !seq_length. lia.
  - rewrite map_length, seq_length. intros k Hk.
    rewrite (nth_indep _ 0%nat (w - 1 - 0)%nat) by (rewrite map_length, seq_length; lia).
    rewrite (map_nth (fun q => (w - 1 - q)%nat)). rewrite seq_nth by lia.
    rewrite rev_nth by (rewrite seq_length; lia). rewrite seq_length, seq_nth by lia. lia.
Qed.

Lemma range_shift f a b : Rsum (range (S a) (S b)) f = Rsum (range a b) (fun q => f (S q)).
Proof.
  unfold range. replace (S b - S a)%nat with (b - a)%nat by lia.
  rewrite <- seq_shift, Rsum_map. reflexivity.
Qed.

Lemma cmat2nt_spec n F kind : kind = 1%Z \/ kind = 11%Z ->
  exists nt, cmat2nt n F kind = Ok nt /\
    forall i j, (i < n)%nat -> (j < n)%nat -> nt i j = cycles_across n F i j.
Proof.
  intros Hk. unfold cmat2nt, cycles_across.
  assert (Edge : forall i j, (i < n)%nat -> (j < n)%nat ->
     ((1 <=? i)%nat && (i <? n)%nat && (j <? n - 1)%nat) = false ->
     Rsum (range 0 i) (fun p => Rsum (range (j + 1) n) (fun q => F p q)) = 0).
  { intros i j Hi Hj H. destruct (Nat.eq_dec i 0) as [->|Hi0]; [reflexivity|].
    assert (Hjn : j = (n - 1)%nat).
    { destruct (Nat.leb_spec 1 i), (Nat.ltb_spec i n), (Nat.ltb_spec j (n - 1)); simpl in H; try lia; discriminate. }
    rewrite (Rsum_ext _ _ (fun _ => 0)); [apply Rsum_0|]. intros p _.
    replace (range (j + 1) n) with (@nil nat); [reflexivity|]. unfold range.
    replace (n - (j + 1))%nat with 0%nat by lia. reflexivity. }
  destruct Hk as [->| ->]; cbn [Z.eqb Pos.eqb]; (eexists; split; [reflexivity|]); intros i j Hi Hj; cbv beta zeta.
  - destruct ((1 <=? i)%nat && (i <? n)%nat && (j <? n - 1)%nat) eqn:E; [|symmetry; apply Edge; auto].
    apply andb_prop in E. destruct E as [E E3]. apply andb_prop in E. destruct E as [E1 E2].
    apply Nat.leb_le in E1. apply Nat.ltb_lt in E3.
    unfold fliplr at 1, cumsum1. rewrite csum_Rsum. unfold fliplr, cumsum0.
    rewrite (Rsum_ext _ _ (fun q => Rsum (range 0 i) (fun p => F p (S (n - 1 - 1 - q))))).
    2:{ intros q Hq. rewrite csum_Rsum. replace (S (i - 1)) with i by lia.
        apply Rsum_ext. intros p _. f_equal; lia. }
    rewrite (flipped_sum (fun q => Rsum (range 0 i) (fun p => F p (S q))) (n - 1) j) by lia.
    rewrite Rsum_swap. replace (j + 1)%nat with (S j) by lia.
    rewrite (Rsum_ext (range 0 i) (fun p => Rsum (range (S j) n) (fun q => F p q))
               (fun p => Rsum (range j (n - 1)) (fun q => F p (S q)))).
    { reflexivity. }
    intros p _. replace n with (S (n - 1)) at 1 by lia. rewrite range_shift. reflexivity.
  - destruct ((1 <=? i)%nat && (i <? n)%nat && (j <? n - 1)%nat) eqn:E; [|symmetry; apply Edge; auto].
    unfold block_sum. rewrite sum_range_Rsum. unfold range. rewrite Nat.sub_0_r.
    apply Rsum_ext. intros p _. rewrite sum_range_Rsum. reflexivity.
Qed.

Lemma cmat2nt_kinds n F : exists a b, cmat2nt n F 1 = Ok a /\ cmat2nt n F 11 = Ok b /\ mat_eq n a b.
Proof.
  destruct (cmat2nt_spec n F 1 (or_introl eq_refl)) as [a [Ea Ha]].
  destruct (cmat2nt_spec n F 11 (or_intror eq_refl)) as [b [Eb Hb]].
  exists a, b. repeat split; auto. intros i j Hi Hj. rewrite Ha, Hb; auto.
Qed.

Lemma range_last f i : Rsum (range 0 (i + 1)) f = Rsum (range 0 i) f + f i.
Proof.
  unfold range. rewrite !Nat.sub_0_r. replace (i + 1)%nat with (S i) by lia.
  rewrite seq_S, Rsum_app. unfold Rsum at 2. cbn. lra.
Qed.
Lemma range_first f a b : (a < b)%nat -> Rsum (range a b) f = f a + Rsum (range (a + 1) b) f.
Proof.
  intros H. unfold range. replace (b - a)%nat with (S (b - (a + 1))) by lia.
  cbn [seq]. replace (S a) with (a + 1)%nat by lia. reflexivity.
Qed.

Lemma nt2cmat_eq n nt kind : kind = 1%Z \/ kind = 11%Z -> exists c, nt2cmat n nt kind = Ok c /\
  forall i j, (i < n)%nat -> (j < n)%nat ->
    c i j = if (i <? n - 1)%nat && (1 <=? j)%nat
            then nt (i + 1)%nat (j - 1)%nat - nt i (j - 1)%nat - nt (i + 1)%nat j + nt i j else 0.
Proof.
  intros [->| ->]; unfold nt2cmat; cbn [Z.eqb Pos.eqb]; (eexists; split; [reflexivity|]); intros i j Hi Hj; cbv beta zeta.
  - destruct j as [|j]; cbn [Nat.eqb].
    + destruct (i <? n - 1)%nat; reflexivity.
    + destruct (i <? n - 1)%nat; cbn [andb Nat.leb]; [|reflexivity].
      replace (S j - 1 + 1 - 1)%nat with (S j - 1)%nat by lia.
      replace (S j - 1 + 1)%nat with (S j) by lia. reflexivity.
  - replace (j <? n)%nat with true by (symmetry; apply Nat.ltb_lt; lia). rewrite andb_true_r. reflexivity.
Qed.

Lemma nt2cmat_cmat2nt n F kind kind' : kind = 1%Z \/ kind = 11%Z -> kind' = 1%Z \/ kind' = 11%Z ->
  (forall i, F i 0%nat = 0) -> (forall j, F (n - 1)%nat j = 0) ->
  exists nt G, cmat2nt n F kind = Ok nt /\ nt2cmat n nt kind' = Ok G /\ mat_eq n G F.
Proof.
  intros Hk Hk' H0 Hn. destruct (cmat2nt_spec n F kind Hk) as [nt [E1 Hnt]].
  destruct (nt2cmat_eq n nt kind' Hk') as [G [E2 HG]]. exists nt, G. repeat split; auto.
  intros i j Hi Hj. rewrite HG by auto.
  destruct (i <? n - 1)%nat eqn:Ei; cbn [andb].
  - apply Nat.ltb_lt in Ei. destruct (1 <=? j)%nat eqn:Ej.
    + apply Nat.leb_le in Ej. rewrite !Hnt by lia. unfold cycles_across. rewrite !range_last.
      replace (j - 1 + 1)%nat with j by lia. rewrite (range_first (fun q => F i q) j n) by lia. lra.
    + apply Nat.leb_gt in Ej. replace j with 0%nat by lia. symmetry. apply H0.
  - apply Nat.ltb_ge in Ei. replace i with (n - 1)%nat by lia. symmetry. apply Hn.
Qed.

(* the other direction *)
Lemma telescope_cols (g : nat -> R) : forall m a, 
  Rsum (seq (a + 1) m) (fun q => g (q - 1)%nat - g q) = g a - g (a + m)%nat.
Proof.
  induction m as [|m IH]; intros a; [cbn; rewrite Nat.add_0_r; lra|].
  cbn [seq]. change (g (a + 1 - 1)%nat - g (a + 1)%nat + Rsum (seq (S (a + 1)) m) (fun q => g (q - 1)%nat - g q)
     = g a - g (a + S m)%nat).
  replace (S (a + 1)) with (a + 1 + 1)%nat by lia. rewrite IH.
  replace (a + 1 - 1)%nat with a by lia. replace (a + 1 + m)%nat with (a + S m)%nat by lia. lra.
Qed.
Lemma telescope_rows (g : nat -> R) : forall m, Rsum (seq 0 m) (fun p => g (p + 1)%nat - g p) = g m - g 0%nat.
Proof.
  induction m as [|m IH]; [cbn; lra|]. rewrite seq_S, Rsum_app, IH. unfold Rsum. cbn.
  replace (m + 1)%nat with (S m) by lia. lra.
Qed.

Lemma cmat2nt_nt2cmat n nt kind kind' : kind = 1%Z \/ kind = 11%Z -> kind' = 1%Z \/ kind' = 11%Z ->
  (forall j, nt 0%nat j = 0) -> (forall i, nt i (n - 1)%nat = 0) ->
  exists F G, nt2cmat n nt kind = Ok F /\ cmat2nt n F kind' = Ok G /\ mat_eq n G nt.
Proof.
  intros Hk Hk' H0 Hn. destruct (nt2cmat_eq n nt kind Hk) as [F [E1 HF]].
  destruct (cmat2nt_spec n F kind' Hk') as [G [E2 HG]]. exists F, G. repeat split; auto.
  intros i j Hi Hj. rewrite HG by auto. unfold cycles_across.
  set (d := fun p => nt (p + 1)%nat j - nt p j).
  rewrite (Rsum_ext _ _ d).
  - unfold range, d. rewrite Nat.sub_0_r. rewrite (telescope_rows (fun p => nt p j)). rewrite H0. lra.
  - intros p Hp. unfold range in Hp. apply in_seq in Hp.
    rewrite (Rsum_ext _ _ (fun q => (fun q => nt (p + 1)%nat q - nt p q) (q - 1)%nat
                                    - (fun q => nt (p + 1)%nat q - nt p q) q)).
    + unfold range. rewrite (telescope_cols (fun q => nt (p + 1)%nat q - nt p q)). replace (j + (n - (j + 1)))%nat with (n - 1)%nat by lia.
      rewrite !Hn. unfold d. lra.
    + intros q Hq. unfold range in Hq. apply in_seq in Hq. rewrite HF by lia.
      replace (p <? n - 1)%nat with true by (symmetry; apply Nat.ltb_lt; lia).
      replace (1 <=? q)%nat with true by (symmetry; apply Nat.leb_le; lia). cbn [andb]. lra.
Qed.

Lemma kind_errors n F kind : kind <> 1%Z -> kind <> 11%Z ->
  cmat2nt n F kind = nt2cmat n F kind /\
  cmat2nt n F kind = Err (if Z.eq_dec kind 0 then NotImplementedError
                          else if Z.eq_dec kind (-1) then NotImplementedError else ValueError).
Proof.
  intros H1 H2. unfold cmat2nt, nt2cmat, kind_error.
  destruct (Z.eqb_spec kind 1); [lia|]. destruct (Z.eqb_spec kind 11); [lia|]. split; [reflexivity|].
  destruct (Z.eq_dec kind 0) as [->|]; [reflexivity|]. destruct (Z.eq_dec kind (-1)) as [->|]; [reflexivity|].
  destruct (Z.eqb_spec kind (-1)); [lia|]. destruct (Z.eqb_spec kind 0); [lia|]. reflexivity.
Qed.

(* ---- C23 ---- *)
Lemma fr2nt_fails n fr : (3 <= n)%nat -> fr2nt n n fr = Err IndexError.
Proof.
  intros Hn. unfold fr2nt. destruct (Nat.ltb_spec n 3); [lia|]. rewrite Nat.eqb_refl. reflexivity.
Qed.
Lemma fr2nt_always_fails n m fr : exists e, fr2nt n m fr = Err e.
Proof.
  unfold fr2nt. destruct (n <? 3)%nat; [eexists; reflexivity|].
  destruct (negb (n =? m)%nat); eexists; reflexivity.
Qed.

Lemma nt2fr_correct_iff n nt : (2 <= n)%nat ->
  (forall i j, (i < n - 1)%nat -> (j < n - 1)%nat -> nt2fr n nt 0 i j = mixed_diff nt i j) <->
  (forall i j, (i < n - 1)%nat -> (j < n - 1)%nat -> nt i j = nt j (n - 1)%nat).
Proof.
  intros Hn. unfold nt2fr, mixed_diff. cbn [Z.eqb].
  split; intros H i j Hi Hj; specialize (H i j Hi Hj).
  - apply Nat.ltb_lt in Hi, Hj. rewrite Hi, Hj in H. cbn [andb] in H. lra.
  - apply Nat.ltb_lt in Hi, Hj. rewrite Hi, Hj. cbn [andb]. lra.
Qed.
Lemma nt2fr_wrong : exists nt, nt2fr 2 nt 0 0%nat 0%nat <> mixed_diff nt 0 0.
Proof.
  exists (fun i j => if ((i =? 0) && (j =? 0))%nat then 1 else 0). cbn. unfold mixed_diff. cbn. lra.
Qed.

(* ---- C77 ---- *)
Lemma iter_loop_nonneg n f F0 eps : forall k M, 
  (k = O -> forall i j, 0 <= M i j) -> forall i j, 0 <= iter_loop n f F0 eps k M i j.
Proof.
  induction k as [|k IH]; intros M H i j; [apply H; reflexivity|]. cbn [iter_loop].
  set (new := fun i0 j0 => Rmax 0 (M i0 j0 + (F0 i0 j0 - f M i0 j0))).
  assert (Hnew : forall i j, 0 <= new i j) by (intros; apply Rmax_l).
  destruct (Rlt_dec eps (abs_sum n (mminus M new))); [apply IH; auto|apply Hnew].
Qed.

Lemma raw_iter_nonneg n f frfc fmM0 k eps : (1 <= k)%nat ->
  forall i j, 0 <= fst (raw_iter n f frfc fmM0 k eps) i j.
Proof.
  intros Hk i j. unfold raw_iter, fst. unfold fliplr at 1. apply iter_loop_nonneg. lia.
Qed.

Lemma fliplr_fliplr n A i j : (j < n)%nat -> fliplr n (fliplr n A) i j = A i j.
Proof. intros H. unfold fliplr. f_equal. lia. Qed.

(* the second component is the image of the first *)
Lemma raw_iter_consistent n f frfc fmM0 k eps i j : (j < n)%nat ->
  (forall A B, mat_eq n A B -> mat_eq n (f A) (f B)) -> (i < n)%nat ->
  snd (raw_iter n f frfc fmM0 k eps) i j
  = fliplr n (f (fliplr n (fst (raw_iter n f frfc fmM0 k eps)))) i j.
Proof.
  intros Hj Hf Hi. unfold raw_iter. cbn [fst snd].
  set (L := iter_loop _ _ _ _ _ _). unfold fliplr at 1 2.
  apply Hf; [|lia|lia]. intros p q Hp Hq. symmetry. apply fliplr_fliplr. lia.
Qed.

Lemma abs_sum_0 n A : (forall i j, (i < n)%nat -> (j < n)%nat -> A i j = 0) -> abs_sum n A = 0.
Proof.
  intros H. unfold abs_sum, block_sum. rewrite sum_range_Rsum, Nat.sub_0_r.
  rewrite (Rsum_ext _ _ (fun _ => 0)); [apply Rsum_0|]. intros p Hp. apply in_seq in Hp.
  rewrite sum_range_Rsum. rewrite (Rsum_ext _ _ (fun _ => 0)); [apply Rsum_0|].
  intros q Hq. apply in_seq in Hq. rewrite H by lia. apply Rabs_R0.
Qed.

(* a non-negative matrix whose rainflow matrix is the given one is returned unchanged,
   after one step *)
Lemma raw_iter_fixpoint n f frfc M k eps : (1 <= k)%nat -> 0 <= eps ->
  (forall i j, (i < n)%nat -> (j < n)%nat -> 0 <= M i j) ->
  mat_eq n (f (fliplr n M)) (fliplr n frfc) ->
  mat_eq n (fst (raw_iter n f frfc (Some M) k eps)) M.
Proof.
  intros Hk He HM Hf i j Hi Hj. unfold raw_iter. cbn [fst]. unfold fliplr at 1.
  destruct k as [|k]; [lia|]. cbn [iter_loop].
  set (new := fun i0 j0 => Rmax 0 (fliplr n M i0 j0 + (fliplr n frfc i0 j0 - f (fliplr n M) i0 j0))).
  assert (Hnew : forall i j, (i < n)%nat -> (j < n)%nat -> new i j = fliplr n M i j).
  { intros p q Hp Hq. unfold new. rewrite (Hf p q Hp Hq).
    replace (fliplr n M p q + (fliplr n frfc p q - fliplr n frfc p q)) with (fliplr n M p q) by lra.
    apply Rmax_right. unfold fliplr. apply HM; lia. }
  rewrite abs_sum_0.
  - destruct (Rlt_dec eps 0); [lra|]. rewrite Hnew by lia. apply fliplr_fliplr. lia.
  - intros p q Hp Hq. unfold mminus. rewrite Hnew by lia. lra.
Qed.

(* ---- C78 ---- *)
Lemma mktestmat_support n s g i j : (0 <= s)%Z -> (forall i j, 0 < g i j) ->
  mktestmat n s g i j <> 0 <->
  (Z.of_nat i < n - 1 - s /\ Z.of_nat i + s <= Z.of_nat j /\ Z.of_nat j < n)%Z.
Proof.
  intros Hs Hg. unfold mktestmat. specialize (Hg i j).
  destruct (Z.ltb_spec (Z.of_nat i) (Z.min (n - 1 - s) n)),
    (Z.leb_spec (Z.max (Z.of_nat i + s) 0) (Z.of_nat j)), (Z.ltb_spec (Z.of_nat j) n); cbn [andb];
  (split; [intros H2; try (exfalso; lra); lia|intros H2; try lra; exfalso; lia]).
Qed.
Lemma mktestmat_diagonal n g : (2 <= n)%Z -> (forall i j, 0 < g i j) -> mktestmat n 0 g 0%nat 0%nat <> 0.
Proof. intros Hn Hg. apply mktestmat_support; auto; simpl; lia. Qed.
