From Coq Require Import Sorted Permutation.
From Verif Require Import Base CrossModel CrossSpec ListFacts TpProofs SelectSpec PotModel PotSpec PotProofs.
Local Open Scope list_scope.
Local Open Scope Z_scope.

Definition sm (small : list bool) (k : nat) : bool := nth k small false.
Definition prev (small : list bool) (k : nat) : bool := match k with O => false | S k' => nth k' small false end.
Definition edge (small : list bool) (g : nat) : bool := xorb (prev small g) (sm small g).
Definition edges (small : list bool) : list nat := filter (edge small) (seq 0 (S (length small))).

Lemma padded_at small k : at_ ([0; 0] ++ map b2z small ++ [0]) (S (S k)) = b2z (sm small k).
Proof.
  unfold at_, sm. cbn [app nth]. revert k. induction small as [|b l IH]; intros k; cbn.
  - now destruct k as [|[|k]].
  - destruct k; [reflexivity|apply IH].
Qed.
Lemma padded_at1 small g : at_ ([0; 0] ++ map b2z small ++ [0]) (S g) = b2z (prev small g).
Proof. destruct g; [reflexivity|apply padded_at]. Qed.
Lemma b2z_nonneg b : 0 <= b2z b <= 1.
Proof. destruct b; cbn; lia. Qed.
Lemma padded_range small k : 0 <= at_ ([0; 0] ++ map b2z small ++ [0]) k <= 1.
Proof. destruct k; [unfold at_; cbn; lia|]. rewrite padded_at1. apply b2z_nonneg. Qed.

Lemma edges_increasing small : increasing (edges small).
Proof. apply filter_seq_increasing. Qed.
Lemma edges_in small g : In g (edges small) <-> (g <= length small)%nat /\ prev small g <> sm small g.
Proof.
  unfold edges. rewrite filter_In, in_seq. unfold edge. split.
  - intros [H1 H2]. split; [lia|]. intros E. rewrite E in H2. now destruct (sm small g).
  - intros [H1 H2]. split; [lia|]. destruct (prev small g), (sm small g); auto; now contradiction H2.
Qed.

Lemma findextrema_edges m small :
  findextrema m ([0; 0] ++ map b2z small ++ [0]) = Ok (map S (edges small)).
Proof.
  set (x := [0; 0] ++ map b2z small ++ [0]).
  assert (Lx : List.length x = S (S (S (length small)))) by (unfold x; cbn; rewrite app_length, map_length; cbn; lia).
  destruct (findextrema_exact m x) as (l & E & Inc & Mem & _); [lia|]. rewrite E. f_equal.
  apply increasing_unique; [exact Inc|apply increasing_map_S, edges_increasing|].
  intros e. rewrite Mem. rewrite in_map_iff. split.
  - intros [H|H]; destruct H as (H0 & H1 & H2 & _); destruct e as [|g]; try lia; exists g; (split; [reflexivity|]); apply edges_in;
      unfold x in H2; rewrite (padded_at1 small g), (padded_at small g) in H2; (split; [lia|]); intros X; rewrite X in H2; lia.
  - intros (g & <- & H). apply edges_in in H as [H1 H2].
    destruct (sm small g) eqn:Es, (prev small g) eqn:Ep; try (now contradiction H2).
    + left. repeat split; [lia|lia| |]; unfold x; rewrite ?(padded_at1 small g), ?(padded_at small g), ?Es, ?Ep; [cbn; lia|].
      intros k _ _. apply padded_range.
    + right. repeat split; [lia|lia| |]; unfold x; rewrite ?(padded_at1 small g), ?(padded_at small g), ?Es, ?Ep; [cbn; lia|].
      intros k _ _. apply padded_range.
Qed.

(* an even number of edges *)
Fixpoint changes (p : bool) (l : list bool) : nat :=
  match l with [] => if p then 1%nat else O | c :: l' => ((if xorb p c then 1 else 0) + changes c l')%nat end.
Lemma changes_parity : forall l p, Nat.odd (changes p l) = p.
Proof.
  induction l as [|c l IH]; intros p; cbn [changes]; [now destruct p|].
  rewrite Nat.odd_add, IH. now destruct p, c.
Qed.
Lemma edges_changes_gen : forall l pre, length (filter (edge (pre ++ l)) (seq (length pre) (S (length l)))) = changes (prev (pre ++ l) (length pre)) l.
Proof.
  induction l as [|c l IH]; intros pre.
  - cbn [length seq filter changes]. unfold edge. unfold sm. rewrite app_nil_r. rewrite (nth_overflow pre) by lia. rewrite xorb_false_r. now destruct (prev pre (length pre)).
  - cbn [length]. cbn [seq]. cbn [filter].
    assert (Es : sm (pre ++ c :: l) (length pre) = c) by (unfold sm; rewrite app_nth2 by lia; now rewrite Nat.sub_diag).
    specialize (IH (pre ++ [c])). rewrite <- app_assoc in IH. cbn [app] in IH. rewrite app_length in IH. cbn [length] in IH.
    replace (length pre + 1)%nat with (S (length pre)) in IH by lia. cbn [seq] in IH.
    cbn [changes]. unfold edge at 1. rewrite Es.
    assert (Ep : prev (pre ++ c :: l) (S (length pre)) = c) by exact Es. rewrite Ep in IH.
    destruct (xorb (prev (pre ++ c :: l) (length pre)) c); [|exact IH]. cbn [length Nat.add]. f_equal. exact IH.
Qed.
Lemma edges_even small : Nat.even (length (edges small)) = true.
Proof.
  pose proof (edges_changes_gen small []) as H. cbn [app length prev] in H. fold (edges small) in H. rewrite H.
  pose proof (changes_parity small false) as P. rewrite <- Nat.negb_odd. now rewrite P.
Qed.

Fixpoint cf (p : bool) (l : list bool) : list bool :=
  match l with [] => [p] | c :: l' => (p || c) :: cf c l' end.
Lemma close_flags_cf a l : close_flags (a :: l) = cf false (a :: l).
Proof.
  unfold close_flags. cbn [hd cf orb tl]. f_equal.
  revert a. induction l as [|b l IH]; intros a; [reflexivity|].
  specialize (IH b). cbn [removelast]. cbn [removelast] in IH. cbn [combine map fst snd app]. cbn [cf]. f_equal.
  destruct l; [reflexivity|]. exact IH.
Qed.
Lemma cf_nth : forall l p k, (k <= length l)%nat -> nth k (cf p l) false = (match k with O => p | S k' => nth k' l false end) || nth k l false.
Proof.
  induction l as [|c l IH]; intros p k Hk.
  - cbn in Hk. replace k with O by lia. cbn. now rewrite orb_false_r.
  - destruct k; [reflexivity|]. cbn [cf nth]. cbn in Hk. rewrite IH by lia. destruct k; reflexivity.
Qed.
Lemma cf_length : forall l p, length (cf p l) = S (length l).
Proof. induction l; intros; cbn; auto. Qed.
Lemma close_flags_nth small k : small <> [] -> (k <= length small)%nat -> nth k (close_flags small) false = prev small k || sm small k.
Proof. intros Ne Hk. destruct small as [|a l]; [easy|]. rewrite close_flags_cf, cf_nth by exact Hk. now destruct k. Qed.
Lemma close_flags_length small : small <> [] -> length (close_flags small) = S (length small).
Proof. intros Ne. destruct small; [easy|]. rewrite close_flags_cf. apply cf_length. Qed.

Lemma fold_put_length : forall ks s (fl : list bool), length (fold_left (fun fl k => put fl (s + k)%nat false) ks fl) = length fl.
Proof. induction ks as [|k ks IH]; intros s fl; cbn; [reflexivity|]. rewrite IH. apply put_length. Qed.
Lemma put_out {A} : forall (l : list A) i v, (length l <= i)%nat -> put l i v = l.
Proof. induction l as [|a l IH]; intros [|i] v H; cbn in *; try lia; auto. now rewrite IH by lia. Qed.
Lemma fold_put_nth : forall ks s (fl : list bool) j,
  nth j (fold_left (fun fl k => put fl (s + k)%nat false) ks fl) false = if existsb (fun k => Nat.eqb j (s + k)) ks then false else nth j fl false.
Proof.
  induction ks as [|k ks IH]; intros s fl j; cbn; [reflexivity|]. rewrite IH.
  destruct (existsb _ ks) eqn:E; [now rewrite orb_true_r|]. rewrite orb_false_r.
  destruct (Nat.lt_ge_cases (s + k) (length fl)) as [L|L].
  - now rewrite put_nth by exact L.
  - rewrite put_out by exact L. destruct (Nat.eqb_spec j (s + k)); [|reflexivity]. subst. now apply nth_overflow.
Qed.
Lemma unflag_nth argsort di ti tmin fl a b j :
  nth j (unflag argsort di ti tmin fl (a, b)) false = false <->
  nth j fl false = false \/ exists k, In k (find_ok_peaks argsort (slice a b di) (slice a b ti) tmin) /\ j = (a + k)%nat.
Proof.
  unfold unflag. rewrite fold_put_nth. destruct (existsb _ _) eqn:E.
  - split; [|reflexivity]. intros _. right. apply existsb_exists in E as (k & Hk & E). exists k. split; [exact Hk|]. now apply Nat.eqb_eq in E.
  - split; [now left|]. intros [H|(k & Hk & ->)]; [exact H|]. exfalso. assert (X : existsb (fun k0 => Nat.eqb (a + k) (a + k0)) (find_ok_peaks argsort (slice a b di) (slice a b ti) tmin) = true).
    { apply existsb_exists. exists k. split; [exact Hk|apply Nat.eqb_refl]. } congruence.
Qed.

Lemma slice_nth {A} (d : A) a b l k : (a + k < b)%nat -> nth k (slice a b l) d = nth (a + k) l d.
Proof.
  intros H. unfold slice. revert a b k H. induction l as [|x l IH]; intros a b k H.
  - rewrite firstn_nil, skipn_nil. rewrite !nth_overflow by (cbn; lia). reflexivity.
  - destruct a; cbn [skipn Nat.add].
    + destruct b; [lia|]. cbn [firstn]. destruct k; [reflexivity|]. cbn. specialize (IH O b k). cbn [skipn Nat.add] in IH. apply IH. lia.
    + destruct b; [lia|]. cbn [firstn skipn nth]. apply IH. lia.
Qed.
Lemma slice_length {A} a b (l : list A) : (b <= length l)%nat -> length (slice a b l) = (b - a)%nat.
Proof. intros H. unfold slice. rewrite skipn_length, firstn_length. lia. Qed.

Lemma kept_in : forall (ix : list nat) (flags : list bool) i, length ix = length flags ->
  (In i (map fst (filter (fun p => negb (snd p)) (combine ix flags))) <-> exists k, (k < length ix)%nat /\ nth k ix O = i /\ nth k flags false = false).
Proof.
  induction ix as [|x ix IH]; intros [|f fl] i L; cbn in L; try lia.
  - cbn. split; [easy|]. intros (k & H & _). lia.
  - cbn [combine filter snd negb]. injection L as L. destruct f; cbn [negb map fst In].
    + rewrite IH by exact L. split.
      * intros (k & H1 & H2 & H3). exists (S k). cbn. repeat split; auto; lia.
      * intros ([|k] & H1 & H2 & H3); cbn in *; [discriminate|]. exists k. repeat split; auto; lia.
    + rewrite IH by exact L. split.
      * intros [<-|(k & H1 & H2 & H3)]; [exists O|exists (S k)]; cbn; repeat split; auto; lia.
      * intros ([|k] & H1 & H2 & H3); cbn in *; [now left|]. right. exists k. repeat split; auto; lia.
Qed.
Lemma kept_NoDup : forall (ix : list nat) (flags : list bool), NoDup ix -> NoDup (map fst (filter (fun p => negb (snd p)) (combine ix flags))).
Proof.
  induction ix as [|x ix IH]; intros fl Nd; [constructor|]. destruct fl as [|f fl]; [constructor|].
  inversion Nd; subst. cbn [combine filter snd]. destruct (negb f); [|now apply IH]. cbn. constructor; [|now apply IH].
  intros H. apply in_map_iff in H as ([u v] & E & H). cbn in E. subst u. apply filter_In in H as [H _]. apply in_combine_l in H. contradiction.
Qed.

(* the result of remove_close in terms of the final flags *)
Definition final_flags argsort small di ti tmin :=
  fold_left (unflag argsort di ti tmin) (combine (firstn 2 (edges small)) (step2 1 (map S (edges small)))) (close_flags small).
Lemma unflags_length argsort di ti tmin : forall ps fl, length (fold_left (unflag argsort di ti tmin) ps fl) = length fl.
Proof. induction ps as [|[a b] ps IH]; intros fl; cbn; [reflexivity|]. rewrite IH. apply fold_put_length. Qed.

Lemma remove_close_spec m argsort ix small di ti tmin : small <> [] -> length ix = S (length small) -> NoDup ix ->
  exists r, remove_close m argsort ix small di ti tmin = Ok r /\ NoDup r /\
  forall i, In i r <-> exists k, (k < length ix)%nat /\ nth k ix O = i /\ nth k (final_flags argsort small di ti tmin) false = false.
Proof.
  intros Ne L Nd. unfold remove_close. rewrite findextrema_edges. cbn [bind].
  replace (map Nat.pred (firstn 2 (map S (edges small)))) with (firstn 2 (edges small))
    by (rewrite firstn_map, map_map; symmetry; apply map_id).
  fold (final_flags argsort small di ti tmin). set (fl := final_flags argsort small di ti tmin).
  assert (Lf : length ix = length fl) by (unfold fl, final_flags; rewrite unflags_length, close_flags_length; auto).
  destruct (existsb (fun b => b) fl) eqn:E.
  - eexists. split; [reflexivity|]. split; [now apply kept_NoDup|]. intros i. now apply kept_in.
  - exists ix. split; [reflexivity|]. split; [exact Nd|]. intros i. split.
    + intros H. apply (In_nth _ _ O) in H as (k & Hk & Ek). exists k. repeat split; auto.
      destruct (nth k fl false) eqn:X; [|reflexivity]. exfalso. assert (existsb (fun b => b) fl = true); [|congruence].
      apply existsb_exists. exists true. split; [|reflexivity]. rewrite <- X. apply nth_In. lia.
    + intros (k & Hk & <- & _). now apply nth_In.
Qed.
