From Coq Require Import Sorting.Sorted.
From Verif Require Import Base IndexModel IndexSpec.
Local Open Scope Z_scope.

(* ---- index conversions -------------------------------------------------------------------------- *)
Lemma prod_nonneg s : Forall (fun d => 0 <= d) s -> 0 <= prodZ s.
Proof. induction 1; cbn; [lia|]. fold (prodZ l). nia. Qed.
Lemma prod_app a b : prodZ (a ++ b) = prodZ a * prodZ b.
Proof. induction a; [change (prodZ b = 1 * prodZ b); ring|]. change (a * prodZ (a0 ++ b) = a * prodZ a0 * prodZ b). rewrite IHa. ring. Qed.
Lemma prod_rev s : prodZ (rev s) = prodZ s.
Proof. induction s; [reflexivity|]. cbn [rev]. rewrite prod_app, IHs. change (prodZ s * (a * 1) = a * prodZ s). ring. Qed.
Lemma digits_ok s i : Forall (fun d => 0 <= d) s -> 0 <= i < prodZ s ->
  in_shape s (digits s i) /\ column_major s (digits s i) = i.
Proof.
  intros F. revert i. induction F as [|d s D F IH]; intros i H.
  - cbn in *. split; [constructor|lia].
  - pose proof (prod_nonneg s F) as P. change (prodZ (d :: s)) with (d * prodZ s) in H.
    assert (0 < d) by nia. assert (Q : 0 <= i / d < prodZ s) by (split; [apply Z.div_pos; lia|apply Z.div_lt_upper_bound; lia]).
    destruct (IH _ Q) as [I1 I2]. cbn [digits column_major]. split.
    + constructor; [apply Z.mod_pos_bound; lia|exact I1].
    + rewrite I2. pose proof (Z.div_mod i d ltac:(lia)). lia.
Qed.
Lemma undigits_ok s t : in_shape s t -> undigits s t = Ok (column_major s t) /\ 0 <= column_major s t < prodZ s.
Proof.
  induction 1 as [|d a s t B F [IH1 IH2]]; [cbn; split; [reflexivity|lia]|]. cbn [undigits column_major].
  replace ((0 <=? a) && (a <? d)) with true by (symmetry; apply andb_true_intro; split; [apply Z.leb_le|apply Z.ltb_lt]; lia).
  rewrite IH1. split; [reflexivity|]. change (prodZ (d :: s)) with (d * prodZ s). nia.
Qed.
Lemma undigits_bad s t : ~ in_shape s t -> undigits s t = Err ValueError.
Proof.
  revert t. induction s as [|d s IH]; intros [|a t] N; try reflexivity; [exfalso; apply N; constructor|].
  cbn [undigits]. destruct ((0 <=? a) && (a <? d)) eqn:E; [|reflexivity]. rewrite IH; [reflexivity|].
  intros H. apply N. constructor; [|exact H]. apply andb_prop in E. destruct E as [E1 E2]. apply Z.leb_le in E1. apply Z.ltb_lt in E2. lia.
Qed.
Lemma undigits_ok_inv s t i : undigits s t = Ok i -> in_shape s t.
Proof.
  revert t i. induction s as [|d s IH]; intros [|a t] i H; try discriminate; [constructor|]. cbn [undigits] in H.
  destruct ((0 <=? a) && (a <? d)) eqn:E; [|discriminate]. destruct (undigits s t) as [r|] eqn:U; [|discriminate].
  constructor; [|eapply IH; exact U]. apply andb_prop in E. destruct E as [E1 E2]. apply Z.leb_le in E1. apply Z.ltb_lt in E2. lia.
Qed.
Lemma column_app s t d a : length s = length t -> column_major (s ++ [d]) (t ++ [a]) = column_major s t + prodZ s * a.
Proof.
  revert t. induction s as [|e s IH]; intros [|b t] H; try discriminate; [cbn [app column_major]; change (prodZ []) with 1; ring|]. cbn [app column_major].
  rewrite IH by (cbn in H; lia). change (prodZ (e :: s)) with (e * prodZ s). ring.
Qed.
Lemma row_column s t : length s = length t -> row_major s t = column_major (rev s) (rev t).
Proof.
  revert t. induction s as [|d s IH]; intros [|a t] H; try discriminate; [reflexivity|]. cbn [rev row_major].
  rewrite column_app by (rewrite !rev_length; cbn in H; lia). rewrite prod_rev, IH by (cbn in H; lia). ring.
Qed.
Lemma shape_length s t : in_shape s t -> length s = length t.
Proof. induction 1; cbn; lia. Qed.
Lemma in_shape_rev s t : in_shape s t <-> in_shape (rev s) (rev t).
Proof.
  assert (G : forall s t, in_shape s t -> in_shape (rev s) (rev t)).
  { induction 1; [constructor|]. cbn [rev]. apply Forall2_app; [assumption|]. constructor; [assumption|constructor]. }
  split; [apply G|]. intros H. apply G in H. rewrite !rev_involutive in H. exact H.
Qed.
Lemma sub2index_ok s t o : in_shape s t -> sub2index s t o = Ok (position s t o) /\ 0 <= position s t o < prodZ s.
Proof.
  intros H. destruct o; cbn [sub2index position]; [|apply undigits_ok; exact H].
  rewrite row_column by (apply shape_length; exact H). rewrite <- (prod_rev s). apply undigits_ok. apply in_shape_rev in H. exact H.
Qed.
Lemma sub2index_bad s t o : ~ in_shape s t -> sub2index s t o = Err ValueError.
Proof. intros H. destruct o; cbn; apply undigits_bad; [rewrite <- in_shape_rev|]; exact H. Qed.
Lemma index2sub_ok s i o : Forall (fun d => 0 <= d) s -> 0 <= i < prodZ s ->
  exists t, index2sub s i o = Ok t /\ in_shape s t /\ position s t o = i.
Proof.
  intros F H. unfold index2sub. replace ((0 <=? i) && (i <? prodZ s)) with true by (symmetry; apply andb_true_intro; split; [apply Z.leb_le|apply Z.ltb_lt]; lia).
  eexists. split; [reflexivity|]. destruct o; cbn [position].
  - assert (F' : Forall (fun d => 0 <= d) (rev s)) by (apply Forall_rev; exact F).
    destruct (digits_ok (rev s) i F' ltac:(rewrite prod_rev; exact H)) as [D1 D2].
    assert (I : in_shape s (rev (digits (rev s) i))) by (rewrite in_shape_rev, rev_involutive; exact D1).
    split; [exact I|]. rewrite row_column by (apply shape_length; exact I). rewrite rev_involutive. exact D2.
  - apply digits_ok; assumption.
Qed.
Lemma index2sub_bad s i o : ~ 0 <= i < prodZ s -> index2sub s i o = Err ValueError.
Proof.
  intros H. unfold index2sub. destruct ((0 <=? i) && (i <? prodZ s)) eqn:E; [|reflexivity].
  apply andb_prop in E. destruct E as [E1 E2]. apply Z.leb_le in E1. apply Z.ltb_lt in E2. lia.
Qed.
Lemma sub_index_sub s i o t : Forall (fun d => 0 <= d) s -> index2sub s i o = Ok t -> sub2index s t o = Ok i.
Proof.
  intros F H. assert (B : 0 <= i < prodZ s).
  { destruct (Z_le_dec 0 i); [|rewrite index2sub_bad in H by lia; discriminate]. destruct (Z_lt_dec i (prodZ s)); [lia|rewrite index2sub_bad in H by lia; discriminate]. }
  destruct (index2sub_ok s i o F B) as (t' & E & I & P). rewrite E in H. inversion H; subst t'. destruct (sub2index_ok s t o I) as [-> _]. rewrite P. reflexivity.
Qed.
Lemma column_inj s t u : in_shape s t -> in_shape s u -> column_major s t = column_major s u -> t = u.
Proof.
  intros H. revert u. induction H as [|d a s t B F IH]; intros u G E; inversion G; subst; [reflexivity|]. cbn [column_major] in E.
  assert (a = y) by (apply (f_equal (fun v => v mod d)) in E; rewrite !(Z.mul_comm d), !Z_mod_plus_full, !Z.mod_small in E by lia; exact E).
  subst y. f_equal. apply IH; [assumption|]. nia.
Qed.
Lemma index_sub_index s t o i : sub2index s t o = Ok i -> Forall (fun d => 0 <= d) s -> index2sub s i o = Ok t.
Proof.
  intros H F. assert (I : in_shape s t). { destruct o; cbn in H; apply undigits_ok_inv in H; [apply in_shape_rev|]; exact H. }
  destruct (sub2index_ok s t o I) as [E B]. rewrite E in H. inversion H; subst i.
  destruct (index2sub_ok s _ o F B) as (u & U1 & U2 & U3). rewrite U1. f_equal. destruct o; cbn [position] in U3.
  - rewrite !row_column in U3 by (apply shape_length; assumption). apply column_inj in U3; [|apply in_shape_rev in U2; exact U2|apply in_shape_rev in I; exact I].
    rewrite <- (rev_involutive u), U3. apply rev_involutive.
  - apply (column_inj s); assumption.
Qed.

(* ---- findoutliers ------------------------------------------------------------------------------- *)
Lemma flatnonzero_in l i : In i (flatnonzero l) <-> nth i l false = true.
Proof.
  unfold flatnonzero. rewrite filter_In, in_seq. split; [tauto|]. intros H. split; [|exact H].
  destruct (lt_dec i (length l)); [lia|]. rewrite nth_overflow in H by lia. discriminate.
Qed.
Lemma odiff_some l : odiff (map Some l) = map Some (diff l).
Proof. induction l as [|a l IH]; [reflexivity|]. destruct l as [|b l]; [reflexivity|]. cbn [map odiff osub diff] in *. rewrite IH. reflexivity. Qed.
Lemma diff_length l : length (diff l) = (length l - 1)%nat.
Proof. induction l as [|a l IH]; [reflexivity|]. destruct l as [|b l]; [reflexivity|]. cbn [diff length] in *. rewrite IH. lia. Qed.
Lemma diff_nth l i : (S i < length l)%nat -> nth i (diff l) 0 = dz l i.
Proof.
  revert i. induction l as [|a l IH]; intros i H; [cbn in H; lia|]. destruct l as [|b l]; [cbn in H; lia|].
  destruct i as [|i]; [reflexivity|]. cbn [diff nth]. cbn [length] in H. rewrite IH by (cbn; lia). reflexivity.
Qed.
Lemma mask_nth (p : option Z -> bool) l i : nth i (map p (map Some l)) false = true <-> (i < length l)%nat /\ p (Some (nth i l 0)) = true.
Proof.
  rewrite map_map. split.
  - intros H. destruct (lt_dec i (length l)) as [L|L]; [|rewrite nth_overflow in H by (rewrite map_length; lia); discriminate].
    split; [exact L|]. rewrite (nth_indep _ false (p (Some 0))) in H by (rewrite map_length; exact L). rewrite (map_nth (fun v => p (Some v))) in H. exact H.
  - intros [L H]. rewrite (nth_indep _ false (p (Some 0))) by (rewrite map_length; exact L). rewrite (map_nth (fun v => p (Some v))). exact H.
Qed.
Lemma jumps_in l c j : In j (find_spurious_jumps (map Some l) c) <->
  (exists i, j = S i /\ (i < length l)%nat /\ nth i l 0 > c) \/ ((j < length l)%nat /\ nth j l 0 < - c).
Proof.
  unfold find_spurious_jumps. rewrite in_app_iff, in_map_iff, flatnonzero_in, mask_nth. cbn [lt_c]. rewrite Z.ltb_lt.
  split; (intros [H|H]; [left|right; exact H]).
  - destruct H as (i & <- & H). apply flatnonzero_in, mask_nth in H. cbn [gt_c] in H. rewrite Z.ltb_lt in H. exists i. repeat split; lia.
  - destruct H as (i & -> & H1 & H2). exists i. split; [reflexivity|]. apply flatnonzero_in, mask_nth. cbn [gt_c]. rewrite Z.ltb_lt. lia.
Qed.
Lemma bdiff_nth l i : nth i (bdiff l) false = true <-> (S i < length l)%nat /\ xorb (nth i l false) (nth (S i) l false) = true.
Proof.
  revert i. induction l as [|a l IH]; intros i; [cbn; destruct i; split; [discriminate|lia|discriminate|lia]|].
  destruct l as [|b l]; [cbn; destruct i; split; try discriminate; lia|]. change (bdiff (a :: b :: l)) with (xorb a b :: bdiff (b :: l)).
  destruct i as [|i]; [cbn [nth length]; split; [intros; split; [lia|assumption]|tauto]|].
  cbn [nth]. rewrite IH. cbn [length nth]. split; intros [H1 H2]; (split; [lia|exact H2]).
Qed.
Lemma small_nth z zc i : nth i (map (small_c zc) (map Some (diff z))) false = true <-> (S i < length z)%nat /\ small z zc i.
Proof.
  rewrite mask_nth, diff_length. cbn [small_c]. rewrite Z.leb_le. unfold small. split; intros [H1 H2].
  - rewrite diff_nth in H2 by lia. split; [lia|exact H2].
  - split; [lia|]. rewrite diff_nth by lia. exact H2.
Qed.
Lemma equal_in z zc j : In j (find_consecutive_equal (map Some (diff z)) zc) <->
  (exists i, j = S i /\ (S i < length z)%nat /\ small z zc i) \/ (exists k, run_edge z zc k /\ (S j = k \/ j = k \/ j = S k)).
Proof.
  unfold find_consecutive_equal. set (mask := map (small_c zc) (map Some (diff z))).
  assert (ML : length mask = (length z - 1)%nat) by (unfold mask; rewrite !map_length; apply diff_length).
  assert (SN : forall i, nth i mask false = true <-> (S i < length z)%nat /\ small z zc i) by (intros; apply small_nth).
  assert (ST : forall k, In k (map S (flatnonzero (bdiff mask))) <-> run_edge z zc k).
  { intros k. rewrite in_map_iff. split.
    - intros (i & <- & H). apply flatnonzero_in, bdiff_nth in H. destruct H as [H1 H2]. rewrite ML in H1. unfold run_edge.
      replace (S i - 1)%nat with i by lia. split; [lia|]. split; [lia|].
      destruct (nth i mask false) eqn:E1, (nth (S i) mask false) eqn:E2; try discriminate.
      + left. split; [apply SN; exact E1|]. intros S'. rewrite (proj2 (SN (S i))) in E2; [discriminate|split; [lia|exact S']].
      + right. split; [|apply SN; exact E2]. intros S'. rewrite (proj2 (SN i)) in E1; [discriminate|split; [lia|exact S']].
    - intros (H1 & H2 & H3). exists (k - 1)%nat. split; [lia|]. apply flatnonzero_in, bdiff_nth. rewrite ML. split; [lia|].
      replace (S (k - 1)) with k by lia. destruct H3 as [[A B]|[A B]].
      + rewrite (proj2 (SN (k - 1)%nat)) by (split; [lia|exact A]). destruct (nth k mask false) eqn:E; [|reflexivity]. apply SN in E. tauto.
      + rewrite (proj2 (SN k)) by (split; [lia|exact B]). destruct (nth (k - 1) mask false) eqn:E; [|reflexivity]. apply SN in E. tauto. }
  destruct (0 <? length (flatnonzero mask))%nat eqn:E.
  - rewrite !in_app_iff. rewrite ST. set (steps := map S (flatnonzero (bdiff mask))) in *. rewrite !in_map_iff. split.
    + intros [(k & K1 & K2)|[(i & <- & I)|[H|(k & <- & K2)]]].
      * right. apply ST in K2. exists k. split; [exact K2|]. destruct K2 as [K2 _]. lia.
      * left. apply flatnonzero_in, SN in I. exists i. tauto.
      * right. exists j. auto.
      * right. apply ST in K2. exists k. auto.
    + intros [(i & -> & I1 & I2)|(k & K & [Q|[Q|Q]])].
      * right. left. exists i. split; [reflexivity|]. apply flatnonzero_in, SN. tauto.
      * left. exists k. split; [lia|apply ST; exact K].
      * subst. auto.
      * right. right. right. exists k. split; [congruence|apply ST; exact K].
  - apply Nat.ltb_ge in E. assert (N : forall i, nth i mask false = true -> False).
    { intros i H. apply flatnonzero_in in H. destruct (flatnonzero mask); [exact H|cbn in E; lia]. }
    split.
    + intros H. exfalso. apply flatnonzero_in in H. eapply N; exact H.
    + intros [(i & -> & I1 & I2)|(k & (K1 & K2 & [[A _]|[_ A]]) & _)]; exfalso.
      * apply (N i). apply SN. tauto.
      * apply (N (k - 1)%nat). apply SN. split; [lia|exact A].
      * apply (N k). apply SN. split; [lia|exact A].
Qed.
Definition all_found (z : list Z) (zc dc ddc : Z) : list nat :=
  find_spurious_jumps (map Some (diff z)) dc ++ find_spurious_jumps (map Some (diff (diff z))) ddc ++ find_consecutive_equal (map Some (diff z)) zc.
Lemma found_in z zc dc ddc j : In j (all_found z zc dc ddc) <-> suspicious z zc dc ddc j.
Proof.
  unfold all_found, suspicious. rewrite !in_app_iff, !jumps_in, equal_in, !diff_length.
  assert (D2 : forall i, (S (S i) < length z)%nat -> nth i (diff (diff z)) 0 = ddz z i).
  { intros i Hi. rewrite diff_nth by (rewrite diff_length; lia). unfold dz at 1, at_Z. rewrite !diff_nth by lia. reflexivity. }
  split.
  - intros [[(i & H1 & H2 & H3)|[H1 H2]]|[[(i & H1 & H2 & H3)|[H1 H2]]|H]].
    + left. exists i. rewrite diff_nth in H3 by lia. repeat split; lia.
    + right; left. rewrite diff_nth in H2 by lia. split; [lia|exact H2].
    + right; right; left. exists i. rewrite D2 in H3 by lia. repeat split; lia.
    + right; right; right; left. rewrite D2 in H2 by lia. split; [lia|exact H2].
    + right; right; right; right. exact H.
  - intros [(i & H1 & H2 & H3)|[[H1 H2]|[(i & H1 & H2 & H3)|[[H1 H2]|H]]]].
    + left; left. exists i. rewrite diff_nth by lia. repeat split; lia.
    + left; right. rewrite diff_nth by lia. split; [lia|exact H2].
    + right; left; left. exists i. rewrite D2 by lia. repeat split; lia.
    + right; left; right. rewrite D2 by lia. split; [lia|exact H2].
    + right; right. exact H.
Qed.
Lemma suspicious_bound z zc dc ddc j : suspicious z zc dc ddc j -> (j < length z)%nat.
Proof.
  intros [(i & -> & H & _)|[[H _]|[(i & -> & H & _)|[[H _]|[(i & -> & H & _)|(k & (K1 & K2 & _) & Q)]]]]]; try lia.
Qed.
(* missing samples are replaced unless the only one is the first *)
Lemma filled_when x : (forall i, (0 < i)%nat -> nth i x (Some 0) <> None) -> nth 0 x (Some 0) <> None ->
  x = map Some (filled x).
Proof.
  intros H H0. unfold filled. rewrite map_map. rewrite <- (map_id x) at 1. apply map_ext_in. intros a Ha.
  apply (In_nth _ _ (Some 0)) in Ha. destruct Ha as (i & Hi & <-). destruct (nth i x (Some 0)) eqn:E; [reflexivity|].
  destruct i; [tauto|]. exfalso. apply (H (S i)); [lia|exact E].
Qed.
Lemma isnan_nth x i : nth i (map isnan x) false = true <-> nth i x (Some 0) = None.
Proof. change false with (isnan (Some 0)). rewrite map_nth. destruct (nth i x (Some 0)); cbn; split; congruence. Qed.
Lemma xn_filled x : replaced x ->
  (if existsb (fun i => negb (i =? 0)%nat) (flatnonzero (map isnan x))
   then map (fun a => match a with None => Some 0 | Some v => Some v end) x else x) = map Some (filled x).
Proof.
  intros H. destruct (existsb (fun i => negb (i =? 0)%nat) (flatnonzero (map isnan x))) eqn:E.
  - unfold filled. rewrite map_map. apply map_ext. intros [a|]; reflexivity.
  - destruct H as [H|(i & P & N)]; [apply filled_when; intros; apply H|].
    exfalso. apply isnan_nth, flatnonzero_in in N. assert (Q : existsb (fun i => negb (i =? 0)%nat) (flatnonzero (map isnan x)) = true).
    { apply existsb_exists. exists i. split; [exact N|]. apply negb_true_iff, Nat.eqb_neq. lia. }
    congruence.
Qed.
Lemma seq_filter_sorted p a n : StronglySorted lt (filter p (seq a n)).
Proof.
  revert a. induction n as [|n IH]; intros a; cbn [seq filter]; [constructor|]. destruct (p a); [|apply IH].
  constructor; [apply IH|]. apply Forall_forall. intros y Hy. apply filter_In in Hy. destruct Hy as [Hy _]. apply in_seq in Hy. lia.
Qed.
Lemma unique_in n l j : In j (unique_below n l) <-> (j < n)%nat /\ In j l.
Proof.
  unfold unique_below. rewrite filter_In, in_seq, existsb_exists. split.
  - intros [H (y & Y & E)]. apply Nat.eqb_eq in E. subst. split; [lia|exact Y].
  - intros [H Y]. split; [lia|]. exists j. split; [exact Y|apply Nat.eqb_refl].
Qed.
Lemma findoutliers_ok x zc dc ddc : (2 < length x)%nat -> replaced x ->
  exists inds indg, findoutliers x zc dc ddc = Ok (inds, indg) /\
    StronglySorted lt inds /\ StronglySorted lt indg /\
    (forall j, In j inds <-> suspicious (filled x) zc dc ddc j) /\
    (forall j, In j inds -> (j < length x)%nat) /\
    (length inds <> 1%nat -> forall j, In j indg <-> (j < length x)%nat /\ ~ In j inds) /\
    (forall j, (j < length x)%nat -> In j inds \/ In j indg).
Proof.
  intros HL HR. unfold findoutliers. replace (2 <? length x)%nat with true by (symmetry; apply Nat.ltb_lt; exact HL). cbv zeta. rewrite (xn_filled x HR).
  rewrite !odiff_some. set (z := filled x). assert (ZL : length z = length x) by (unfold z, filled; apply map_length).
  set (ind := find_spurious_jumps (map Some (diff z)) dc ++ find_spurious_jumps (map Some (diff (diff z))) ddc ++ find_consecutive_equal (map Some (diff z)) zc).
  assert (IN : forall j, In j ind <-> suspicious z zc dc ddc j) by (intros; apply found_in).
  assert (IB : forall j, In j ind -> (j < length x)%nat) by (intros j H; apply IN, suspicious_bound in H; lia).
  clearbody ind. destruct (1 <? length ind)%nat eqn:E.
  - eexists _, _. split; [reflexivity|]. split; [apply seq_filter_sorted|]. split; [apply seq_filter_sorted|].
    assert (U : forall j, In j (unique_below (length x) ind) <-> In j ind) by (intros j; rewrite unique_in; split; [tauto|]; intros H; split; [apply IB; exact H|exact H]).
    split; [intros j; rewrite U; apply IN|]. split; [intros j H; apply U in H; apply IB; exact H|].
    assert (G : forall j, In j (filter (fun i => negb (existsb (Nat.eqb i) (unique_below (length x) ind))) (seq 0 (length x))) <-> (j < length x)%nat /\ ~ In j (unique_below (length x) ind)).
    { intros j. rewrite filter_In, in_seq, negb_true_iff. split; intros [H1 H2]; (split; [lia|]).
      - intros H. assert (Q : existsb (Nat.eqb j) (unique_below (length x) ind) = true) by (apply existsb_exists; exists j; split; [exact H|apply Nat.eqb_refl]). congruence.
      - destruct (existsb (Nat.eqb j) (unique_below (length x) ind)) eqn:Q; [|reflexivity]. apply existsb_exists in Q. destruct Q as (y & Y & Q). apply Nat.eqb_eq in Q. subst. tauto. }
    split; [intros _; exact G|]. intros j Hj. destruct (in_dec Nat.eq_dec j (unique_below (length x) ind)) as [Y|Y]; [left; exact Y|right; apply G; tauto].
  - apply Nat.ltb_ge in E. exists ind, (seq 0 (length x)). split; [reflexivity|]. split.
    { destruct ind as [|a [|b ind]]; [constructor|repeat constructor|cbn in E; lia]. }
    split; [pose proof (seq_filter_sorted (fun _ => true) 0 (length x)) as Q; clear -Q; assert (F : filter (fun _ : nat => true) (seq 0 (length x)) = seq 0 (length x)) by (clear Q; induction (seq 0 (length x)) as [|q l IHl]; [reflexivity|cbn; rewrite IHl; reflexivity]); rewrite F in Q; exact Q|].
    split; [exact IN|]. split; [exact IB|]. split.
    + intros N j. rewrite in_seq. destruct ind as [|a [|b ind]]; [cbn; intuition lia|cbn in N; lia|cbn in E; lia].
    + intros j Hj. right. apply in_seq. lia.
Qed.
Lemma findoutliers_short x zc dc ddc : (length x <= 2)%nat -> findoutliers x zc dc ddc = Err ValueError.
Proof. intros H. unfold findoutliers. replace (2 <? length x)%nat with false by (symmetry; apply Nat.ltb_ge; exact H). reflexivity. Qed.
