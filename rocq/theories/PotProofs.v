From Coq Require Import Sorted Permutation.
From Verif Require Import Base CrossModel CrossSpec ListFacts SelectSpec PotModel PotSpec.
Local Open Scope list_scope.
Local Open Scope Z_scope.

Lemma pool_loop_length tmin tis : forall pool, length (pool_loop tmin tis pool) = length tis.
Proof. induction tis as [|a l IH]; intros; cbn; [reflexivity|]. now rewrite IH. Qed.

Lemma pool_loop_spec tmin : forall tis pool a, (a < length tis)%nat ->
  (nth a (pool_loop tmin tis pool) false = true <->
   (exists p, In p pool /\ fst p <= nth a tis 0 <= snd p) \/
   exists b, (b < a)%nat /\ nth b (pool_loop tmin tis pool) false = false /\ near tmin (nth a tis 0) (nth b tis 0)).
Proof.
  induction tis as [|ti l IH]; intros pool a Ha; [cbn in Ha; lia|].
  cbn [pool_loop]. set (c := existsb _ pool).
  assert (C : c = true <-> exists p, In p pool /\ fst p <= ti <= snd p).
  { unfold c. rewrite existsb_exists. split; intros (p & Hp & E); exists p; (split; [exact Hp|]).
    - apply andb_prop in E as [E1 E2]. apply Z.leb_le in E1, E2. lia.
    - apply andb_true_intro; split; apply Z.leb_le; lia. }
  destruct a as [|a]; cbn [nth].
  - rewrite C. split; [intros H; left; exact H|]. intros [H|(b & Hb & _)]; [exact H|lia].
  - cbn in Ha. rewrite IH by lia. clear IH. split.
    + intros [(p & Hp & E)|(b & Hb & E1 & E2)].
      * destruct c eqn:Ec; [left; exists p; auto|]. apply in_app_or in Hp as [Hp|[<-|[]]]; [left; exists p; auto|].
        right. exists O. cbn [nth fst snd] in *. repeat split; [lia|unfold near; lia].
      * right. exists (S b). cbn [nth]. repeat split; [lia|exact E1|exact E2].
    + intros [(p & Hp & E)|(b & Hb & E1 & E2)].
      * left. exists p. split; [|exact E]. destruct c; [exact Hp|apply in_or_app; auto].
      * destruct b as [|b]; cbn [nth] in E1, E2.
        -- left. rewrite E1. exists (ti + - tmin, ti + tmin). split; [apply in_or_app; right; left; reflexivity|]. unfold near in E2. cbn [fst snd]. lia.
        -- right. exists b. repeat split; [lia|exact E1|exact E2].
Qed.

Lemma put_length {A} (l : list A) : forall i v, length (put l i v) = length l.
Proof. induction l; intros [|i] v; cbn; auto. Qed.
Lemma put_nth {A} (l : list A) (d v : A) : forall i j, (i < length l)%nat -> nth j (put l i v) d = if Nat.eqb j i then v else nth j l d.
Proof.
  induction l as [|a l IH]; intros i j Hi; [cbn in Hi; lia|]. destruct i, j; cbn; auto.
  apply IH. cbn in Hi; lia.
Qed.
Lemma put_seq_spec {A} (d : A) : forall (ps : list (nat * A)) (l : list A) k,
  (forall p, In p ps -> (fst p < length l)%nat) -> NoDup (map fst ps) ->
  length (fold_left (fun o p => put o (fst p) (snd p)) ps l) = length l /\
  (~ In k (map fst ps) -> nth k (fold_left (fun o p => put o (fst p) (snd p)) ps l) d = nth k l d) /\
  (forall v, In (k, v) ps -> nth k (fold_left (fun o p => put o (fst p) (snd p)) ps l) d = v).
Proof.
  induction ps as [|[i v] ps IH]; intros l k Hp Nd; cbn [fold_left fst snd map].
  - split; [reflexivity|]. split; [reflexivity|intros v []].
  - cbn in Nd. inversion Nd as [|? ? Hn Nd']; subst.
    assert (Hi : (i < length l)%nat) by (apply (Hp (i, v)); now left).
    destruct (IH (put l i v) k) as (I1 & I2 & I3); [intros p Hpp; rewrite put_length; apply Hp; now right|exact Nd'|].
    rewrite put_length in I1. split; [exact I1|]. split.
    + intros Hk. rewrite I2; [|intro; apply Hk; now right]. rewrite put_nth by exact Hi. destruct (Nat.eqb_spec k i); [subst; exfalso; apply Hk; now left|reflexivity].
    + intros w [E|Hw]; [|now apply I3]. injection E as <- <-. rewrite I2 by exact Hn. rewrite put_nth by exact Hi. now rewrite Nat.eqb_refl.
Qed.

Lemma combine_seq_nth {A} (d : A) : forall l s a, (a < length l)%nat -> In (nth a l d, (s + a)%nat) (combine l (seq s (length l))).
Proof.
  induction l as [|x l IH]; intros s a Ha; [cbn in Ha; lia|]. destruct a; cbn.
  - left. now rewrite Nat.add_0_r.
  - right. replace (s + S a)%nat with (S s + a)%nat by lia. apply IH. cbn in Ha; lia.
Qed.

Lemma map_fst_combine {A B} : forall (l : list A) (r : list B), length l = length r -> map fst (combine l r) = l.
Proof. induction l as [|a l IH]; intros [|b r] E; cbn in *; try lia; [reflexivity|]. now rewrite IH by lia. Qed.

Lemma inverse_order_spec n i a : Permutation i (seq 0 n) -> (a < n)%nat -> nth (nth a i O) (inverse_order n i) O = a.
Proof.
  intros P Ha. pose proof (Permutation_length P) as L. rewrite seq_length in L. subst n. unfold inverse_order.
  assert (M : map fst (combine i (seq 0 (length i))) = i) by (apply map_fst_combine; now rewrite seq_length).
  destruct (put_seq_spec O (combine i (seq 0 (length i))) (repeat O (length i)) (nth a i O)) as (_ & _ & I3).
  - intros p Hp. rewrite repeat_length. assert (In (fst p) i) by (rewrite <- M; now apply in_map). eapply Permutation_in in H; [|exact P]. apply in_seq in H. lia.
  - rewrite M. eapply Permutation_NoDup; [symmetry; exact P|apply seq_NoDup].
  - apply I3. replace a with (0 + a)%nat at 2 by lia. now apply combine_seq_nth.
Qed.

Lemma pick_nth l ind a : (a < length ind)%nat -> nth a (pick l ind) 0 = nth (nth a ind O) l 0.
Proof. intros H. unfold pick. rewrite nth_indep with (d' := nth O l 0) by (now rewrite map_length). now rewrite (map_nth (fun i => nth i l 0)). Qed.

Lemma perm_pos n i k : Permutation i (seq 0 n) -> (k < n)%nat -> exists a, (a < n)%nat /\ nth a i O = k.
Proof.
  intros P Hk. assert (In k i) by (eapply Permutation_in; [symmetry; exact P|apply in_seq; lia]).
  apply (In_nth _ _ O) in H as (a & Ha & E). exists a. split; [|exact E]. apply Permutation_length in P. rewrite seq_length in P. lia.
Qed.

Lemma find_ok_peaks_in argsort y t tmin k : sorts argsort -> (k < length y)%nat ->
  let i := argsort (map Z.opp y) in
  exists a, (a < length y)%nat /\ nth a i O = k /\ (In k (find_ok_peaks argsort y t tmin) <-> nth a (pool_loop tmin (pick t i) []) false = false).
Proof.
  intros Hs Hk i. destruct (Hs (map Z.opp y)) as [P _]. fold i in P. rewrite map_length in P.
  destruct (perm_pos _ _ k P Hk) as (a & Ha & E). exists a. split; [exact Ha|]. split; [exact E|].
  unfold find_ok_peaks. fold i. rewrite filter_In, in_seq, negb_true_iff. rewrite <- E at 3. rewrite inverse_order_spec by auto. intuition lia.
Qed.

Lemma find_ok_peaks_spec argsort y t tmin : sorts argsort -> length t = length y ->
  declustered tmin y t (fun i => (i < length y)%nat) (fun i => In i (find_ok_peaks argsort y t tmin)).
Proof.
  intros Hs Lt. pose proof (fun k H => find_ok_peaks_in argsort y t tmin k Hs H) as K. cbv zeta in K.
  destruct (Hs (map Z.opp y)) as [P Q]. set (i := argsort (map Z.opp y)) in *. rewrite map_length in P.
  pose proof (Permutation_length P) as Li. rewrite seq_length in Li.
  assert (In_lt : forall k, In k (find_ok_peaks argsort y t tmin) -> (k < length y)%nat).
  { intros k H. unfold find_ok_peaks in H. apply filter_In in H as [H _]. apply in_seq in H. lia. }
  assert (Lp : length (pick t i) = length y) by (unfold pick; rewrite map_length; exact Li).
  assert (Inj : forall a b, (a < length y)%nat -> (b < length y)%nat -> nth a i O = nth b i O -> a = b).
  { intros a b Ha Hb E. assert (Nd : NoDup i) by (eapply Permutation_NoDup; [symmetry; exact P|apply seq_NoDup]).
    eapply NoDup_nth; [exact Nd|lia|lia|exact E]. }
  split; [exact In_lt|]. split.
  - intros k l Hk Hl Ne N.
    destruct (K k (In_lt k Hk)) as (a & Ha & Ea & Ka). destruct (K l (In_lt l Hl)) as (b & Hb & Eb & Kb).
    apply Ka in Hk. apply Kb in Hl. rewrite <- Ea, <- Eb in N.
    destruct (Nat.lt_total a b) as [L|[L|L]].
    + assert (X : nth b (pool_loop tmin (pick t i) []) false = true).
      { apply pool_loop_spec; [lia|]. right. exists a. split; [exact L|]. split; [exact Hk|]. rewrite !pick_nth by lia. unfold near in *. lia. }
      congruence.
    + subst. congruence.
    + assert (X : nth a (pool_loop tmin (pick t i) []) false = true).
      { apply pool_loop_spec; [lia|]. right. exists b. split; [exact L|]. split; [exact Hl|]. rewrite !pick_nth by lia. unfold near in *. lia. }
      congruence.
  - intros k Hk Nk. destruct (K k Hk) as (a & Ha & Ea & Ka).
    destruct (nth a (pool_loop tmin (pick t i) []) false) eqn:X; [|exfalso; apply Nk; now rewrite Ka].
    apply pool_loop_spec in X; [|lia]. destruct X as [(p & [] & _)|(b & Hb & E1 & E2)].
    assert (Hl : (nth b i O < length y)%nat).
    { assert (In (nth b i O) i) by (apply nth_In; lia). eapply Permutation_in in H; [|exact P]. apply in_seq in H. lia. }
    destruct (K (nth b i O) Hl) as (b' & Hb' & Eb & Kb). apply Inj in Eb; [|lia|lia]. subst b'.
    exists (nth b i O). split; [apply Kb, E1|]. rewrite !pick_nth in E2 by lia. rewrite Ea in E2. split; [exact E2|].
    specialize (Q b a Hb ltac:(lia)). rewrite Ea in Q.
    assert (Op : forall j, (j < length y)%nat -> nth j (map Z.opp y) 0 = - nth j y 0).
    { intros j Hj. rewrite nth_indep with (d' := Z.opp 0) by (now rewrite map_length). apply map_nth. }
    rewrite !Op in Q by lia. lia.
Qed.

Lemma filter_seq_increasing f : forall n s, increasing (filter f (seq s n)).
Proof.
  induction n as [|n IH]; intros s; cbn; [apply increasing_nil|].
  destruct (f s); [|apply IH]. apply increasing_cons. split; [|apply IH].
  intros b Hb. apply filter_In in Hb as [Hb _]. apply in_seq in Hb. lia.
Qed.
Lemma find_ok_peaks_increasing argsort y t tmin : increasing (find_ok_peaks argsort y t tmin).
Proof. apply filter_seq_increasing. Qed.
