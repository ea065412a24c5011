From Coq Require Import Sorted Permutation.
From Verif Require Import Base CrossModel CrossSpec ListFacts TpProofs SelectSpec PotModel PotSpec PotProofs PotProofs2 PotProofs3.
Local Open Scope list_scope.
Local Open Scope Z_scope.

Lemma findpot_total m argsort data t thresh tmin : sorts argsort -> length t = length data ->
  exists r, findpot m argsort data (Some t) thresh tmin = Ok r /\ NoDup r /\ forall i, In i r -> exceeds data thresh i.
Proof.
  intros Hs L. destruct (findpot_prepare m argsort data t thresh tmin Hs L) as (ix & P & St & _ & E). rewrite E. clear E.
  assert (Nd : NoDup ix) by (eapply Permutation_NoDup; [symmetry; exact P|apply above_NoDup]).
  assert (Mem : forall i, In i ix -> exceeds data thresh i) by (intros i H; apply above_in; eapply Permutation_in; [exact P|exact H]).
  destruct (Nat.leb_spec (length ix) 1); [exists ix; auto|].
  destruct (existsb (fun b => b) (smalls tmin (pick t ix))) eqn:Ee; [|exists ix; auto].
  destruct (remove_close_spec m argsort ix (smalls tmin (pick t ix)) (pick data ix) (pick t ix) tmin) as (r & E & Ndr & R).
  { intros X. rewrite X in Ee. discriminate. }
  { rewrite smalls_length, pick_length. lia. }
  { exact Nd. }
  exists r. split; [exact E|]. split; [exact Ndr|]. intros i H1. apply R in H1 as (k & Hk & <- & _). apply Mem. now apply nth_In.
Qed.

(* for sorted times with a cluster the result is the one of the final flags *)
Lemma findpot_flags m argsort data t thresh tmin k0 : sorts argsort -> length t = length data -> Sorted Z.le t ->
  let ix := above data thresh in let s := exceedance_times data t thresh in short tmin s k0 ->
  exists r, findpot m argsort data (Some t) thresh tmin = Ok r /\
  forall k, (k < length ix)%nat -> (In (nth k ix O) r <-> nth k (final_flags argsort (smalls tmin s) (pick data ix) s tmin) false = false).
Proof.
  intros Hs L Ht ix s Hk. destruct (findpot_prepare m argsort data t thresh tmin Hs L) as (ix' & P & St & Ei & E). specialize (Ei Ht). subst ix'. fold ix in E, St. rewrite E. clear E.
  assert (Es : s = pick t ix) by (apply combine_above; exact L). rewrite <- Es in *.
  assert (Ls : length s = length ix) by (rewrite Es; apply pick_length).
  assert (Ee : existsb (fun b => b) (smalls tmin s) = true).
  { apply existsb_exists. exists true. split; [|reflexivity]. pose proof Hk as [Hk1 _]. apply smalls_nth in Hk. rewrite <- Hk. apply nth_In. rewrite smalls_length. lia. }
  destruct Hk as [Hk1 Hk2]. destruct (Nat.leb_spec (length ix) 1); [lia|]. rewrite Ee.
  assert (Nd : NoDup ix) by apply above_NoDup.
  destruct (remove_close_spec m argsort ix (smalls tmin s) (pick data ix) s tmin) as (r & E & Ndr & R).
  { intros X. rewrite X in Ee. discriminate. }
  { rewrite smalls_length. lia. }
  { exact Nd. }
  exists r. split; [exact E|]. intros k Hk. rewrite R. split.
  - intros (k' & H1 & H2 & H3). replace k with k'; [exact H3|]. eapply NoDup_nth; [exact Nd|exact H1|exact Hk|exact H2].
  - intros F. exists k. auto.
Qed.

Lemma increasing_split f : forall n s a b, (a < b)%nat -> (s <= a)%nat -> (b < s + n)%nat -> f a = true -> f b = true -> (forall k, (s <= k < a)%nat -> f k = false) -> (forall k, (a < k < b)%nat -> f k = false) ->
  filter f (seq s n) = a :: b :: filter f (seq (S b) (s + n - S b)).
Proof.
  intros n s a b Hab Hs Hb Fa Fb Z1 Z2.
  assert (Skip : forall n s, (forall k, (s <= k < s + n)%nat -> f k = false) -> filter f (seq s n) = []).
  { induction n0 as [|n0 IH]; intros s0 H; cbn; [reflexivity|]. rewrite H by lia. apply IH. intros k Hk. apply H. lia. }
  replace n with ((a - s) + (1 + ((b - S a) + (1 + (s + n - S b)))))%nat at 1 by lia.
  rewrite seq_app, filter_app, Skip by (intros; apply Z1; lia). cbn [app].
  replace (s + (a - s))%nat with a by lia. rewrite seq_app. cbn [seq]. cbn [filter app]. rewrite Fa. f_equal.
  rewrite seq_app, filter_app, Skip by (intros; apply Z2; lia). cbn [app].
  replace (a + 1 + (b - S a))%nat with b by lia. cbn [seq Nat.add]. cbn [filter]. rewrite Fb. reflexivity.
Qed.

Lemma cluster_edges tmin s a b : cluster tmin s a b ->
  (b <= length (smalls tmin s))%nat /\ edge (smalls tmin s) a = true /\ edge (smalls tmin s) b = true /\ forall k, (a < k < b)%nat -> edge (smalls tmin s) k = false.
Proof.
  intros (Hab & Hin & Hb & Ha). set (small := smalls tmin s).
  assert (Sh : forall k, sm small k = true <-> short tmin s k) by (intros; apply smalls_nth).
  assert (Shf : forall k, ~ short tmin s k -> sm small k = false) by (intros k H; rewrite <- Sh in H; now destruct (sm small k)).
  assert (Lb : (b <= length small)%nat).
  { destruct (Hin (b - 1)%nat ltac:(lia)) as [H _]. unfold small. rewrite smalls_length. lia. }
  assert (Pv : forall k, prev small (S k) = sm small k) by reflexivity.
  unfold edge. repeat split; auto.
  - rewrite (proj2 (Sh a)) by (apply Hin; lia). destruct a as [|a]; [reflexivity|]. rewrite Pv. rewrite Shf; [reflexivity|].
    destruct Ha as [Ha|Ha]; [lia|]. now rewrite Nat.sub_1_r in Ha.
  - rewrite Shf by exact Hb. destruct b as [|b]; [lia|]. rewrite Pv. rewrite (proj2 (Sh b)) by (apply Hin; lia). reflexivity.
  - intros [|k] Hk; [lia|]. rewrite Pv, (proj2 (Sh k)), (proj2 (Sh (S k))) by (apply Hin; lia). reflexivity.
Qed.

Lemma unflag_keeps argsort di ti tmin fl p j : nth j fl false = false -> nth j (unflag argsort di ti tmin fl p) false = false.
Proof. destruct p as [a b]. intros H. apply unflag_nth. now left. Qed.

Lemma findpot_last_kept m argsort data t thresh tmin a b : sorts argsort -> length t = length data -> Sorted Z.le t ->
  let ix := above data thresh in let s := exceedance_times data t thresh in
  cluster tmin s a b -> (forall k, (k < a)%nat -> ~ short tmin s k) -> (exists k, (b < k)%nat /\ short tmin s k) ->
  exists r, findpot m argsort data (Some t) thresh tmin = Ok r /\ In (nth b ix O) r.
Proof.
  intros Hs L Ht ix s Hc Hbef (k0 & Hk0 & Sk0).
  destruct (findpot_flags m argsort data t thresh tmin k0 Hs L Ht Sk0) as (r & E & R). cbv zeta in R. fold ix s in R. exists r. split; [exact E|]. clear E.
  set (small := smalls tmin s) in *.
  assert (Es : s = pick t ix) by (apply combine_above; exact L).
  assert (Ls : length s = length ix) by (rewrite Es; apply pick_length).
  assert (Ss : Sorted Z.le s).
  { destruct (findpot_prepare m argsort data t thresh tmin Hs L) as (ix' & _ & St & Ei & _). specialize (Ei Ht). subst ix'. fold ix in St. now rewrite <- Es in St. }
  destruct (cluster_edges _ _ _ _ Hc) as (Lb & Ea & Eb & Em). fold small in Lb, Ea, Eb, Em.
  assert (Lsm : length small = (length ix - 1)%nat) by (unfold small; rewrite smalls_length; lia).
  destruct Hc as (Hab & Hin & Hb & _).
  assert (Ed : edges small = a :: b :: filter (edge small) (seq (S b) (0 + S (length small) - S b))).
  { unfold edges. apply increasing_split; auto; try lia. intros k Hk. unfold edge.
    assert (F : forall j, (j < a)%nat -> sm small j = false) by (intros j Hj; destruct (sm small j) eqn:X; [apply smalls_nth in X; exfalso; now apply (Hbef j)|reflexivity]).
    rewrite (F k) by lia. destruct k as [|k]; [reflexivity|]. change (prev small (S k)) with (sm small k). now rewrite F by lia. }
  set (rest := filter (edge small) _) in Ed.
  assert (Rne : rest <> []).
  { intros X. assert (All : forall g, (b < g)%nat -> sm small g = false).
    { induction g as [|g IH]; intros Hg; [lia|]. destruct (Nat.lt_ge_cases (length small) (S g)); [apply sm_out; lia|].
      assert (Eg : edge small (S g) = false).
      { destruct (edge small (S g)) eqn:Y; [|reflexivity]. assert (In (S g) rest) by (apply filter_In; split; [apply in_seq; lia|exact Y]). rewrite X in H0. destruct H0. }
      unfold edge in Eg. change (prev small (S g)) with (sm small g) in Eg.
      assert (Sg : sm small g = false). { destruct (Nat.eq_dec g b); [|apply IH; lia]. subst. destruct (sm small b) eqn:Y; [apply smalls_nth in Y; contradiction|reflexivity]. }
      rewrite Sg in Eg. now destruct (sm small (S g)). }
    apply smalls_nth in Sk0. fold small in Sk0. rewrite All in Sk0 by lia. discriminate. }
  pose proof (edges_even small) as Ev. rewrite Ed in Ev. cbn [length] in Ev.
  destruct rest as [|a2 [|b2 rest']] eqn:Er; [easy|discriminate|]. clear Ev Rne.
  assert (Hb2 : (b < b2 <= length small)%nat).
  { assert (In b2 rest) by (rewrite Er; right; now left). apply filter_In in H as [H _]. apply in_seq in H. lia. }
  apply R; [lia|]. unfold final_flags. rewrite Ed. cbn [firstn map step2 skipn every2 combine fold_left].
  cbn [combine fold_left].
  apply unflag_nth. right. exists O. split; [|lia].
  set (y2 := slice b (S b2) (pick data ix)). set (t2 := slice b (S b2) s).
  assert (Ly : length y2 = (S b2 - b)%nat) by (apply slice_length; rewrite pick_length; lia).
  assert (Lt : length t2 = (S b2 - b)%nat) by (apply slice_length; lia).
  destruct (find_ok_peaks_spec argsort y2 t2 tmin Hs ltac:(lia)) as (D1 & _ & D3).
  destruct (in_dec Nat.eq_dec O (find_ok_peaks argsort y2 t2 tmin)) as [I|I]; [exact I|].
  destruct (D3 O ltac:(lia) I) as (j & Hj & Nr & _). pose proof (D1 j Hj). destruct j as [|j]; [contradiction|].
  unfold t2 in Nr. rewrite !slice_nth in Nr by lia. exfalso. revert Nr. rewrite Nat.add_0_r. apply (far_apart tmin s b b (b + S j)); auto; lia.
Qed.

Lemma increasing_nth_le : forall E, increasing E -> forall a b c d, In a E -> In b E -> In c E -> In d E -> (a < b < c)%nat -> (c < d)%nat ->
  (1 < length E)%nat /\ (3 < length E)%nat /\ (nth 1 E O <= d)%nat /\ (nth 3 E O <= d)%nat.
Proof.
  intros E I a b c d Ha Hb Hc Hd O1 O2.
  apply (In_nth _ _ O) in Ha as (ka & La & <-). apply (In_nth _ _ O) in Hb as (kb & Lb & <-). apply (In_nth _ _ O) in Hc as (kc & Lc & <-). apply (In_nth _ _ O) in Hd as (kd & Ld & <-).
  assert (M : forall i j, (i < length E)%nat -> (j < length E)%nat -> (nth i E O < nth j E O)%nat -> (i < j)%nat).
  { intros i j Hi Hj H. destruct (Nat.lt_total i j) as [X|[X|X]]; [exact X|subst; lia|]. specialize (I j i ltac:(lia)). lia. }
  pose proof (M ka kb La Lb ltac:(lia)). pose proof (M kb kc Lb Lc ltac:(lia)). pose proof (M kc kd Lc Ld ltac:(lia)).
  repeat split; try lia.
  - specialize (I 1%nat kd ltac:(lia)). lia.
  - destruct (Nat.eq_dec kd 3); [subst; lia|]. specialize (I 3%nat kd ltac:(lia)). lia.
Qed.

Lemma findpot_third_lost m argsort data t thresh tmin a1 b1 a2 b2 k : sorts argsort -> length t = length data -> Sorted Z.le t ->
  let ix := above data thresh in let s := exceedance_times data t thresh in
  cluster tmin s a1 b1 -> cluster tmin s a2 b2 -> (b1 < a2)%nat -> (b2 < k < length ix)%nat -> short tmin s k \/ short tmin s (k - 1) ->
  exists r, findpot m argsort data (Some t) thresh tmin = Ok r /\ ~ In (nth k ix O) r.
Proof.
  intros Hs L Ht ix s C1 C2 H12 Hk Sk.
  assert (Sk0 : short tmin s a1) by (destruct C1 as (H & H1 & _); apply H1; lia).
  destruct (findpot_flags m argsort data t thresh tmin a1 Hs L Ht Sk0) as (r & E & R). cbv zeta in R. fold ix s in R. exists r. split; [exact E|]. clear E.
  set (small := smalls tmin s) in *.
  assert (Es : s = pick t ix) by (apply combine_above; exact L).
  assert (Ls : length s = length ix) by (rewrite Es; apply pick_length).
  assert (Lsm : length small = (length ix - 1)%nat) by (unfold small; rewrite smalls_length; lia).
  destruct (cluster_edges _ _ _ _ C1) as (Lb1 & Ea1 & Eb1 & _). destruct (cluster_edges _ _ _ _ C2) as (Lb2 & Ea2 & Eb2 & _). fold small in Lb1, Ea1, Eb1, Lb2, Ea2, Eb2.
  destruct C1 as (O1 & _). destruct C2 as (O2 & _).
  assert (I : forall g, (g <= length small)%nat -> edge small g = true -> In g (edges small)) by (intros g H X; apply filter_In; split; [apply in_seq; lia|exact X]).
  destruct (increasing_nth_le (edges small) (edges_increasing small) a1 b1 a2 b2) as (_ & Le & N1 & N3); auto; try (apply I; auto; lia); try lia.
  rewrite R by lia. unfold final_flags. destruct (edges small) as [|e0 [|e1 [|e2 [|e3 rest]]]]; cbn [length] in Le; try lia. cbn [nth] in N1, N3.
  cbn [firstn map step2 skipn every2 combine fold_left].
  cbn [combine fold_left].
  rewrite !unflag_nth. intros [[F|(j & Hj & ->)]|(j & Hj & ->)].
  - rewrite close_flags_nth in F; [|intros X; rewrite X in Lsm; cbn in Lsm; lia|lia]. apply orb_false_iff in F as [F1 F2].
    destruct Sk as [Sk|Sk]; apply smalls_nth in Sk; fold small in Sk; [congruence|].
    destruct k as [|k]; [lia|]. rewrite Nat.sub_succ, Nat.sub_0_r in Sk. change (prev small (S k)) with (sm small k) in F1. congruence.
  - destruct (find_ok_peaks_spec argsort (slice e0 (S e1) (pick data ix)) (slice e0 (S e1) s) tmin Hs) as (D1 & _).
    { unfold slice. rewrite !skipn_length, !firstn_length, pick_length. lia. }
    apply D1 in Hj. unfold slice in Hj. rewrite skipn_length, firstn_length in Hj. lia.
  - destruct (find_ok_peaks_spec argsort (slice e1 (S e3) (pick data ix)) (slice e1 (S e3) s) tmin Hs) as (D1 & _).
    { unfold slice. rewrite !skipn_length, !firstn_length, pick_length. lia. }
    apply D1 in Hj. unfold slice in Hj. rewrite skipn_length, firstn_length in Hj. lia.
Qed.

Lemma decluster_spec m argsort data t thresh tmin : sorts argsort -> length t = length data ->
  exists r, findpot m argsort data (Some t) thresh tmin = Ok r /\
  decluster m argsort data (Some t) thresh tmin = Ok (map (fun i => nth i data 0) r, map (fun i => nth i t 0) r).
Proof.
  intros Hs L. destruct (findpot_total m argsort data t thresh tmin Hs L) as (r & E & _ & Ex). exists r. split; [exact E|].
  unfold decluster. rewrite E. cbn [bind]. rewrite !take_at_pick by (intros i Hi; destruct (Ex i Hi); lia). reflexivity.
Qed.
