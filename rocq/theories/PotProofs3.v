From Coq Require Import Sorted Permutation.
From Verif Require Import Base CrossModel CrossSpec ListFacts TpProofs SelectSpec PotModel PotSpec PotProofs PotProofs2.
Local Open Scope list_scope.
Local Open Scope Z_scope.

Lemma above_in data thresh i : In i (above data thresh) <-> exceeds data thresh i.
Proof. unfold above, exceeds. rewrite filter_In, in_seq, Z.ltb_lt. intuition lia. Qed.
Lemma above_NoDup data thresh : NoDup (above data thresh).
Proof. apply NoDup_filter, seq_NoDup. Qed.

Lemma take_at_pick t : forall ix, (forall i, In i ix -> (i < length t)%nat) -> take_at t ix = Ok (pick t ix).
Proof.
  induction ix as [|i ix IH]; intros H; [reflexivity|]. cbn [take_at pick map]. unfold geti.
  rewrite (nth_error_nth' t 0) by (apply H; now left). cbn [bind]. rewrite IH by (intros; apply H; now right). reflexivity.
Qed.

Lemma combine_above : forall data t thresh, length t = length data ->
  exceedance_times data t thresh = pick t (above data thresh).
Proof.
  intros data t thresh L. unfold exceedance_times, pick, above.
  assert (G : forall d t s, length t = length d -> forall D T, (forall k, nth k d 0 = nth (s + k) D 0) -> (forall k, nth k t 0 = nth (s + k) T 0) ->
    map snd (filter (fun p => thresh <? fst p) (combine d t)) = map (fun i => nth i T 0) (filter (fun i => thresh <? nth i D 0) (seq s (length d)))).
  { induction d as [|a d IH]; intros [|b r] s Lr D T HD HT; cbn in Lr; try lia; [reflexivity|].
    cbn [combine filter length seq fst]. pose proof (HD O) as H0. pose proof (HT O) as H1. cbn in H0, H1. rewrite Nat.add_0_r in H0, H1. rewrite <- H0.
    assert (IHs : map snd (filter (fun p => thresh <? fst p) (combine d r)) = map (fun i => nth i T 0) (filter (fun i => thresh <? nth i D 0) (seq (S s) (length d)))).
    { apply IH; [lia| |]; intros k; [specialize (HD (S k))|specialize (HT (S k))]; cbn in *; rewrite Nat.add_succ_r in *; cbn; assumption. }
    destruct (thresh <? a); cbn [map snd]; [rewrite <- H1; f_equal|]; exact IHs. }
  apply (G data t O L); reflexivity.
Qed.

Lemma diff_sorted : forall l, (forall d, In d (diff l) -> 0 <= d) -> Sorted Z.le l.
Proof.
  induction l as [|a [|b l] IH]; intros H; [constructor|constructor; constructor|].
  constructor; [|constructor; specialize (H (b - a)); cbn in H; lia]. apply IH. intros d Hd. apply H. cbn. now right.
Qed.
Lemma nth_sorted_le : forall l, (forall i j, (i < j)%nat -> (j < length l)%nat -> nth i l 0 <= nth j l 0) -> Sorted Z.le l.
Proof.
  induction l as [|a l IH]; intros H; constructor.
  - apply IH. intros i j Hij Hj. apply (H (S i) (S j)); cbn; lia.
  - destruct l; constructor. apply (H O 1%nat); cbn; lia.
Qed.
Lemma sorted_nth_le : forall l, Sorted Z.le l -> forall i j, (i <= j)%nat -> (j < length l)%nat -> nth i l 0 <= nth j l 0.
Proof.
  intros l H. apply Sorted_StronglySorted in H; [|intros x y z; lia].
  induction H as [|a l Hl IH Ha]; intros i j Hij Hj; [cbn in Hj; lia|].
  destruct i, j; cbn in *; try lia.
  - rewrite Forall_forall in Ha. apply Ha, nth_In. lia.
  - apply IH; lia.
Qed.

Lemma pick_length l i : length (pick l i) = length i.
Proof. apply map_length. Qed.
Lemma pick_pick t ix i : (forall k, In k i -> (k < length ix)%nat) -> pick (pick t ix) i = pick t (map (fun k => nth k ix O) i).
Proof. intros H. unfold pick at 1 3. rewrite map_map. apply map_ext_in. intros k Hk. apply pick_nth. now apply H. Qed.

Lemma perm_apply (ix i : list nat) : Permutation i (seq 0 (length ix)) -> Permutation (map (fun k => nth k ix O) i) ix.
Proof.
  intros P. transitivity (map (fun k => nth k ix O) (seq 0 (length ix))); [now apply Permutation_map|].
  replace (map (fun k => nth k ix O) (seq 0 (length ix))) with ix; [reflexivity|].
  clear P i. induction ix as [|x ix IH]; [reflexivity|]. cbn [length seq map nth]. f_equal. rewrite <- seq_shift, map_map. exact IH.
Qed.

Definition smalls tmin (ti : list Z) := map (fun d => d <=? tmin) (diff ti).

Lemma findpot_prepare m argsort data t thresh tmin : sorts argsort -> length t = length data ->
  exists ix, Permutation ix (above data thresh) /\ Sorted Z.le (pick t ix) /\
  (Sorted Z.le t -> ix = above data thresh) /\
  findpot m argsort data (Some t) thresh tmin =
    if (length ix <=? 1)%nat then Ok ix
    else if existsb (fun b => b) (smalls tmin (pick t ix)) then remove_close m argsort ix (smalls tmin (pick t ix)) (pick data ix) (pick t ix) tmin else Ok ix.
Proof.
  intros Hs L. unfold findpot. fold (above data thresh). set (a := above data thresh).
  rewrite take_at_pick by (intros i H; apply above_in in H as [H _]; lia). cbn [bind].
  set (ns := existsb (fun d => d <? 0) (diff (pick t a))).
  exists (if ns then map (fun k => nth k a O) (argsort (pick t a)) else a).
  destruct (Hs (pick t a)) as [P Q]. rewrite pick_length in P.
  assert (Pl : forall k, In k (argsort (pick t a)) -> (k < length a)%nat).
  { intros k H. eapply Permutation_in in H; [|exact P]. apply in_seq in H. lia. }
  rewrite pick_length.
  destruct ns eqn:E.
  - split; [now apply perm_apply|]. rewrite <- pick_pick by exact Pl. split; [|split].
    + apply nth_sorted_le. intros i j Hij Hj. rewrite pick_length in Hj. rewrite (pick_nth (pick t a) _ i), (pick_nth (pick t a) _ j) by lia. now apply Q.
    + intros St. exfalso. unfold ns in E. apply existsb_exists in E as (d & Hd & E). apply Z.ltb_lt in E.
      apply (In_nth _ _ 0) in Hd as (k & Hk & Ed). rewrite diff_length, pick_length in Hk.
      change (nth k (diff (pick t a)) 0) with (at_ (diff (pick t a)) k) in Ed. rewrite diff_nth in Ed by (rewrite pick_length; lia).
      unfold at_ in Ed. rewrite !pick_nth in Ed by lia.
      assert (I : increasing a) by (apply filter_seq_increasing). specialize (I k (S k) ltac:(lia)).
      assert (Hin : In (nth (S k) a O) a) by (apply nth_In; lia). apply above_in in Hin as [Hin _].
      pose proof (sorted_nth_le t St (nth k a O) (nth (S k) a O)). lia.
    + rewrite map_length. pose proof (Permutation_length P) as Lp. rewrite seq_length in Lp. rewrite Lp.
      rewrite pick_pick by exact Pl. rewrite pick_pick by exact Pl.
      destruct (Nat.leb_spec (length a) 1) as [La|La]; [|reflexivity]. exfalso. unfold ns in E.
      destruct a as [|x [|y l]]; cbn in La; try lia; cbn in E; discriminate.
  - split; [reflexivity|]. split; [|split; [reflexivity|reflexivity]].
    apply diff_sorted. intros d Hd. destruct (Z.ltb_spec d 0); [|assumption].
    exfalso. assert (ns = true); [|congruence]. apply existsb_exists. exists d. split; [exact Hd|now apply Z.ltb_lt].
Qed.

Lemma smalls_length tmin ti : length (smalls tmin ti) = (length ti - 1)%nat.
Proof. unfold smalls. now rewrite map_length, diff_length. Qed.
Lemma smalls_nth tmin ti k : sm (smalls tmin ti) k = true <-> short tmin ti k.
Proof.
  unfold sm, short. destruct (Nat.lt_ge_cases (S k) (length ti)) as [H|H].
  - unfold smalls. rewrite nth_indep with (d' := 0 <=? tmin) by (rewrite map_length, diff_length; lia).
    rewrite (map_nth (fun d => d <=? tmin)). change (nth k (diff ti) 0) with (at_ (diff ti) k). rewrite diff_nth by exact H. unfold at_. rewrite Z.leb_le. intuition lia.
  - rewrite nth_overflow by (rewrite smalls_length; lia). split; [discriminate|lia].
Qed.
Lemma sm_out small k : (length small <= k)%nat -> sm small k = false.
Proof. intros H. unfold sm. now apply nth_overflow. Qed.

Lemma far_apart tmin s i k j : Sorted Z.le s -> (i <= k < j)%nat -> (j < length s)%nat -> ~ short tmin s k -> ~ near tmin (nth i s 0) (nth j s 0).
Proof.
  intros St Hk Hj Hn Hc. apply Hn. split; [lia|]. unfold near in Hc.
  pose proof (sorted_nth_le s St i k ltac:(lia) ltac:(lia)). pose proof (sorted_nth_le s St (S k) j ltac:(lia) ltac:(lia)). lia.
Qed.

Lemma not_all_below (P : nat -> Prop) (dec : forall k, P k \/ ~ P k) i : forall j, (forall k, (i <= k < j)%nat -> P k) \/ exists k, (i <= k < j)%nat /\ ~ P k.
Proof.
  induction j as [|j [IH|(k & Hk & N)]]; [left; intros; lia| |right; exists k; split; [lia|exact N]].
  destruct (Nat.le_gt_cases i j) as [L|L]; [|left; intros; lia].
  destruct (dec j) as [D|D]; [left|right; exists j; split; [lia|exact D]].
  intros k Hk. destruct (Nat.eq_dec k j); [now subst|apply IH; lia].
Qed.
Lemma short_dec tmin s k : short tmin s k \/ ~ short tmin s k.
Proof. unfold short. lia. Qed.

(* positions: exactly one cluster *)
Lemma one_cluster_flags argsort di ti tmin a b : sorts argsort -> Sorted Z.le ti -> length di = length ti ->
  (a < b < length ti)%nat -> (forall k, short tmin ti k <-> (a <= k < b)%nat) ->
  declustered tmin di ti (fun k => (k < length ti)%nat) (fun k => (k < length ti)%nat /\ nth k (final_flags argsort (smalls tmin ti) di ti tmin) false = false).
Proof.
  intros Hs St L Hab Hc. set (small := smalls tmin ti).
  assert (Ls : length small = (length ti - 1)%nat) by apply smalls_length.
  assert (Sm : forall k, sm small k = true <-> (a <= k < b)%nat) by (intros; unfold small; rewrite smalls_nth; apply Hc).
  assert (Pv : forall k, prev small k = true <-> (a < k <= b)%nat).
  { intros [|k]; cbn [prev]; [split; [discriminate|lia]|]. change (nth k small false) with (sm small k). rewrite Sm. lia. }
  assert (Ne : small <> []) by (intros E; rewrite E in Ls; cbn in Ls; lia).
  assert (E : edges small = [a; b]).
  { apply increasing_unique; [apply edges_increasing| |].
    - apply increasing_cons. split; [intros ? [<-|[]]; lia|]. apply increasing_cons. split; [intros ? []|apply increasing_nil].
    - intros g. rewrite edges_in. specialize (Sm g). specialize (Pv g). cbn [In]. split.
      + intros [H1 H2]. destruct (prev small g), (sm small g); try (now contradiction H2); [right|]; left.
        * assert (~ (a <= g < b)%nat) by (rewrite <- Sm; discriminate). assert (a < g <= b)%nat by (now apply Pv). lia.
        * assert (~ (a < g <= b)%nat) by (rewrite <- Pv; discriminate). assert (a <= g < b)%nat by (now apply Sm). lia.
      + intros [<-|[<-|[]]]; (split; [lia|]).
        * replace (sm small a) with true by (symmetry; apply Sm; lia). intros X. apply Pv in X. lia.
        * replace (prev small b) with true by (symmetry; apply Pv; lia). intros X. symmetry in X. apply Sm in X. lia. }
  assert (F : forall k, (k < length ti)%nat -> (nth k (final_flags argsort small di ti tmin) false = false <->
    (~ (a <= k <= b)%nat \/ exists j, In j (find_ok_peaks argsort (slice a (S b) di) (slice a (S b) ti) tmin) /\ k = (a + j)%nat))).
  { intros k Hk. unfold final_flags. rewrite E. cbn [firstn map step2 skipn every2 combine fold_left]. rewrite unflag_nth.
    rewrite close_flags_nth by (auto; lia). rewrite orb_false_iff.
    assert (X : (prev small k = false /\ sm small k = false) <-> ~ (a <= k <= b)%nat); [|tauto].
    specialize (Sm k). specialize (Pv k). split.
    - intros [X1 X2] Y. rewrite X1 in Pv. rewrite X2 in Sm. destruct (Nat.eq_dec k a); [assert (false = true) by (apply Sm; lia); discriminate|assert (false = true) by (apply Pv; lia); discriminate].
    - intros X. split; [destruct (prev small k)|destruct (sm small k)]; auto; exfalso; apply X; [assert (a < k <= b)%nat by (now apply Pv)|assert (a <= k < b)%nat by (now apply Sm)]; lia. }
  assert (D : declustered tmin (slice a (S b) di) (slice a (S b) ti) (fun i => (i < length (slice a (S b) di))%nat) (fun i => In i (find_ok_peaks argsort (slice a (S b) di) (slice a (S b) ti) tmin))).
  { apply find_ok_peaks_spec; [exact Hs|]. rewrite !slice_length; lia. }
  rewrite slice_length in D by lia. destruct D as (D1 & D2 & D3).
  assert (Sym : forall u v, near tmin u v -> near tmin v u) by (unfold near; intros; lia).
  split; [intros i [H _]; exact H|]. split.
  - assert (W : forall i j, (i < j)%nat -> (j < length ti)%nat -> nth i (final_flags argsort small di ti tmin) false = false -> nth j (final_flags argsort small di ti tmin) false = false -> ~ near tmin (nth i ti 0) (nth j ti 0)).
    { intros i j Hij Hj Fi Fj.
      destruct (not_all_below (short tmin ti) (short_dec tmin ti) i j) as [A|(k & Hk & N)]; [|now apply (far_apart tmin ti i k j)].
      assert (a <= i < b)%nat by (apply Hc, A; lia). assert (a <= j - 1 < b)%nat by (apply Hc, A; lia).
      apply F in Fi; [|lia]. apply F in Fj; [|lia]. destruct Fi as [Fi|(i' & Ii & ->)]; [lia|]. destruct Fj as [Fj|(j' & Ij & ->)]; [lia|].
      specialize (D2 i' j' Ii Ij ltac:(lia)). pose proof (D1 i' Ii). pose proof (D1 j' Ij). rewrite !slice_nth in D2 by lia. exact D2. }
    intros i j [Hi Fi] [Hj Fj] Ne'. destruct (Nat.lt_gt_cases i j) as [LT _]. destruct (LT Ne'); [now apply W|]. intros X. apply Sym in X. revert X. now apply W.
  - intros i Hi Ni. assert (Fi : ~ (nth i (final_flags argsort small di ti tmin) false = false)) by tauto. rewrite F in Fi by exact Hi.
    assert (Ri : (a <= i <= b)%nat) by lia.
    destruct (D3 (i - a)%nat ltac:(lia)) as (j & Hj & H1 & H2); [intros X; apply Fi; right; exists (i - a)%nat; split; [exact X|lia]|].
    pose proof (D1 j Hj). exists (a + j)%nat. rewrite !slice_nth in H1, H2 by lia. replace (a + (i - a))%nat with i in * by lia.
    repeat split; auto; [lia|]. apply F; [lia|]. right. exists j. auto.
Qed.

Lemma declustered_positions tmin data t ix (r : list nat) thresh K : Permutation ix (above data thresh) ->
  declustered tmin (pick data ix) (pick t ix) (fun k => (k < length ix)%nat) K ->
  (forall i, In i r <-> exists k, (k < length ix)%nat /\ nth k ix O = i /\ K k) ->
  declustered tmin data t (exceeds data thresh) (fun i => In i r).
Proof.
  intros P (D1 & D2 & D3) R.
  assert (Mem : forall i, exceeds data thresh i <-> exists k, (k < length ix)%nat /\ nth k ix O = i).
  { intros i. rewrite <- above_in. split.
    - intros H. eapply Permutation_in in H; [|symmetry; exact P]. now apply In_nth.
    - intros (k & Hk & <-). eapply Permutation_in; [exact P|now apply nth_In]. }
  split; [|split].
  - intros i H. apply R in H as (k & Hk & E & _). apply Mem. eauto.
  - intros i j Hi Hj Ne. apply R in Hi as (k & Hk & <- & Kk). apply R in Hj as (l & Hl & <- & Kl).
    specialize (D2 k l Kk Kl ltac:(congruence)). rewrite !pick_nth in D2 by assumption. exact D2.
  - intros i Hi Ni. apply Mem in Hi as (k & Hk & <-).
    destruct (D3 k Hk) as (j & Kj & H1 & H2); [intros X; apply Ni, R; eauto|]. pose proof (D1 j Kj).
    exists (nth j ix O). rewrite !pick_nth in H1, H2 by assumption. split; [apply R; eauto|auto].
Qed.

Lemma findpot_one_cluster m argsort data t thresh tmin : sorts argsort -> length t = length data ->
  at_most_one_cluster tmin (exceedance_times data t thresh) ->
  exists r, findpot m argsort data (Some t) thresh tmin = Ok r /\ NoDup r /\ declustered tmin data t (exceeds data thresh) (fun i => In i r).
Proof.
  intros Hs L H1. destruct (findpot_prepare m argsort data t thresh tmin Hs L) as (ix & P & St & _ & E). rewrite E. clear E.
  assert (Nd : NoDup ix) by (eapply Permutation_NoDup; [symmetry; exact P|apply above_NoDup]).
  assert (Id : forall i, In i ix <-> exists k, (k < length ix)%nat /\ nth k ix O = i /\ (k < length ix)%nat).
  { intros i. split; [intros H; apply (In_nth _ _ O) in H as (k & ? & ?); eauto|intros (k & ? & <- & _); now apply nth_In]. }
  rewrite combine_above in H1 by exact L.
  destruct (H1 (pick t ix)) as (a & b & Hc); [apply Permutation_map; symmetry; exact P|exact St|]. rewrite pick_length in Hc.
  destruct (Nat.leb_spec (length ix) 1) as [Ls|Ls].
  { exists ix. split; [reflexivity|]. split; [exact Nd|]. eapply declustered_positions; [exact P| |exact Id].
    split; [auto|]. split; [intros; lia|]. intros i Hi Hn. contradiction. }
  destruct (existsb (fun b => b) (smalls tmin (pick t ix))) eqn:Ee.
  - apply existsb_exists in Ee as (v & Hv & ->). apply (In_nth _ _ false) in Hv as (k0 & Hk0 & Ek0). rewrite smalls_length, pick_length in Hk0.
    change (sm (smalls tmin (pick t ix)) k0 = true) in Ek0. apply smalls_nth in Ek0. pose proof Ek0 as [Hk1 Hk2]. rewrite pick_length in Hk1. apply Hc in Hk2; [|lia].
    destruct (remove_close_spec m argsort ix (smalls tmin (pick t ix)) (pick data ix) (pick t ix) tmin) as (r & E & Ndr & R).
    { intros X. apply (f_equal (@length bool)) in X. rewrite smalls_length, pick_length in X. cbn in X. lia. }
    { rewrite smalls_length, pick_length. lia. }
    { exact Nd. }
    exists r. split; [exact E|]. split; [exact Ndr|].
    pose proof (one_cluster_flags argsort (pick data ix) (pick t ix) tmin a (Nat.min b (length ix - 1)) Hs St) as D.
    rewrite !pick_length in D. specialize (D eq_refl ltac:(lia)).
    eapply declustered_positions; [exact P|apply D|].
    + intros k. unfold short. rewrite pick_length. specialize (Hc k). intuition lia.
    + intros i. rewrite R. split; intros (k & A1 & A2 & A3); exists k; tauto.
  - exists ix. split; [reflexivity|]. split; [exact Nd|]. eapply declustered_positions; [exact P| |exact Id].
    assert (Ns : forall k, ~ short tmin (pick t ix) k).
    { intros k Hk. pose proof Hk as [Hk1 _]. rewrite pick_length in Hk1. apply smalls_nth in Hk. assert (existsb (fun b => b) (smalls tmin (pick t ix)) = true); [|congruence].
      apply existsb_exists. exists true. split; [|reflexivity]. rewrite <- Hk. apply nth_In. rewrite smalls_length, pick_length. lia. }
    split; [auto|]. split; [|intros; contradiction].
    intros i j Hi Hj Ne N. destruct (Nat.lt_total i j) as [X|[X|X]]; [|contradiction|].
    + revert N. apply (far_apart tmin _ i i j); [exact St|lia|rewrite pick_length; lia|apply Ns].
    + assert (N' : near tmin (nth j (pick t ix) 0) (nth i (pick t ix) 0)) by (unfold near in *; lia). revert N'. apply (far_apart tmin _ j j i); [exact St|lia|rewrite pick_length; lia|apply Ns].
Qed.
