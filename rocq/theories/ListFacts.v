(* General lemmas on lists used by several proof files. *)
From Verif Require Import Base CrossSpec.

Lemma nth_error_middle {A} (pre : list A) a l :
  nth_error (pre ++ a :: l) (length pre) = Some a.
Proof. rewrite nth_error_app2, Nat.sub_diag by lia. reflexivity. Qed.

Lemma nth_error_middle' {A} (pre : list A) a l i :
  i = length pre -> nth_error (pre ++ a :: l) i = Some a.
Proof. intros ->. apply nth_error_middle. Qed.

Lemma cons_app_one {A} (pre : list A) a l : pre ++ a :: l = (pre ++ [a]) ++ l.
Proof. rewrite <- app_assoc. reflexivity. Qed.

Lemma increasing_nil : increasing [].
Proof. intros a b H. simpl in H. lia. Qed.

Lemma increasing_cons a l :
  increasing (a :: l) <-> (forall b, In b l -> a < b) /\ increasing l.
Proof.
  split.
  - intros H. split.
    + intros b Hb. destruct (In_nth _ _ 0 Hb) as [k [Hk Hn]].
      specialize (H 0 (S k)). simpl in H. rewrite Hn in H. apply H. lia.
    + intros i j Hij. specialize (H (S i) (S j)). simpl in H. apply H. lia.
  - intros [Ha Hl] i j Hij. simpl in Hij.
    destruct j as [|j]; [lia|]. destruct i as [|i]; simpl.
    + apply Ha. apply nth_In. lia.
    + apply Hl. lia.
Qed.

Lemma increasing_app l1 l2 :
  increasing (l1 ++ l2) <->
  increasing l1 /\ increasing l2 /\ (forall a b, In a l1 -> In b l2 -> a < b).
Proof.
  induction l1 as [|a l1 IH]; simpl.
  - split; [intros H; repeat split; auto using increasing_nil; easy | tauto].
  - rewrite !increasing_cons, IH. split.
    + intros [H1 [H2 [H3 H4]]]. repeat split; auto.
      * intros b Hb. apply H1. apply in_or_app. auto.
      * intros x b [->|Hx] Hb; [apply H1, in_or_app; auto | auto].
    + intros [[H1 H2] [H3 H4]]. repeat split; auto.
      intros b Hb. apply in_app_or in Hb. destruct Hb; auto.
Qed.

Lemma increasing_tl l : increasing l -> increasing (tl l).
Proof. destruct l; simpl; auto. rewrite increasing_cons. tauto. Qed.

Lemma increasing_map_S l : increasing (map S l) <-> increasing l.
Proof.
  induction l as [|a l IH]; simpl.
  - split; intros; apply increasing_nil.
  - rewrite !increasing_cons, IH. split; intros [H1 H2]; split; auto.
    + intros b Hb. specialize (H1 (S b)). rewrite in_map_iff in H1.
      assert (S a < S b) by (apply H1; eauto). lia.
    + intros b Hb. apply in_map_iff in Hb. destruct Hb as [c [<- Hc]].
      specialize (H1 c Hc). lia.
Qed.

Lemma increasing_unique l1 l2 :
  increasing l1 -> increasing l2 -> (forall i, In i l1 <-> In i l2) -> l1 = l2.
Proof.
  revert l2. induction l1 as [|a l1 IH]; intros [|b l2] H1 H2 Heq; auto.
  - exfalso. apply (proj2 (Heq b)). left. auto.
  - exfalso. apply (proj1 (Heq a)). left. auto.
  - apply increasing_cons in H1. apply increasing_cons in H2.
    destruct H1 as [H1a H1b], H2 as [H2a H2b].
    assert (a = b).
    { destruct (proj1 (Heq a) (or_introl eq_refl)) as [E|E]; auto.
      destruct (proj2 (Heq b) (or_introl eq_refl)) as [E'|E']; auto.
      specialize (H1a _ E'). specialize (H2a _ E). lia. }
    subst b. f_equal. apply IH; auto. intros i. split; intros Hi.
    + destruct (proj1 (Heq i) (or_intror Hi)) as [E|E]; auto.
      subst i. specialize (H1a _ Hi). lia.
    + destruct (proj2 (Heq i) (or_intror Hi)) as [E|E]; auto.
      subst i. specialize (H2a _ Hi). lia.
Qed.

Lemma alternating_impl {A} (P Q P' Q' : A -> Prop) l :
  (forall a, In a l -> P a -> P' a) -> (forall a, In a l -> Q a -> Q' a) ->
  alternating P Q l -> alternating P' Q' l.
Proof.
  revert P Q P' Q'. induction l as [|a l IH]; simpl; auto.
  intros P Q P' Q' HP HQ [H1 H2]. split; auto. apply (IH Q P); auto.
Qed.

Lemma list_ind2 {A} (P : list A -> Prop) :
  P [] -> (forall a, P [a]) -> (forall a b l, P l -> P (a :: b :: l)) -> forall l, P l.
Proof.
  intros H0 H1 H2. fix IH 1. intros [|a [|b l]].
  - exact H0.
  - apply H1.
  - apply H2. apply IH.
Qed.

Lemma every2_incl {A} (l : list A) a : In a (every2 l) -> In a l.
Proof.
  induction l as [|b|b c l IH] using list_ind2; simpl; auto.
  intros [->|H]; auto.
Qed.

Lemma every2_increasing l : increasing l -> increasing (every2 l).
Proof.
  induction l as [|b|b c l IH] using list_ind2; intros H; auto.
  change (every2 (b :: c :: l)) with (b :: every2 l).
  rewrite !increasing_cons in *. destruct H as [H1 [H2 H3]]. split; auto.
  intros d Hd. apply H1. right. apply every2_incl. exact Hd.
Qed.

Lemma every2_alternating {A} (P Q : A -> Prop) l a :
  (forall b, In b l -> P b -> Q b -> False) ->
  alternating P Q l -> (In a (every2 l) <-> In a l /\ P a).
Proof.
  induction l as [|b|b c l IH] using list_ind2; intros Hd H.
  - simpl. tauto.
  - simpl in *. destruct H as [H _]. split; [intros [<-|[]]; auto|intros [[<-|[]] _]; auto].
  - change (every2 (b :: c :: l)) with (b :: every2 l).
    simpl in H. destruct H as [Hb [Hc Hl]].
    assert (IHl : In a (every2 l) <-> In a l /\ P a).
    { apply IH; auto. intros d Hin. apply Hd. right. right. exact Hin. }
    simpl. rewrite IHl. split.
    + intros [<-|[H1 H2]]; auto.
    + intros [[<-|[<-|H1]] H2]; auto.
      exfalso. eapply Hd; eauto. right. left. auto.
Qed.

Lemma removelast_app_one {A} (l : list A) : l <> [] -> exists a, l = removelast l ++ [a].
Proof.
  intros H. destruct l as [|d l']; [congruence|].
  exists (last (d :: l') d). apply app_removelast_last. discriminate.
Qed.

Lemma removelast_length {A} (l : list A) : length (removelast l) = length l - 1.
Proof.
  induction l as [|a [|b l] IH]; auto.
  change (removelast (a :: b :: l)) with (a :: removelast (b :: l)).
  simpl length in *. rewrite IH. lia.
Qed.

Lemma firstn_S_snoc (y : list Z) j :
  j < length y -> firstn (S j) y = firstn j y ++ [at_ y j].
Proof.
  revert j. induction y as [|a y IH]; intros j H; simpl in H; [lia|].
  destruct j as [|j]; [reflexivity|].
  change (firstn (S (S j)) (a :: y)) with (a :: firstn (S j) y).
  rewrite IH by lia. reflexivity.
Qed.

Lemma diff_length l : length (diff l) = length l - 1.
Proof.
  induction l as [|a [|b l] IH]; auto.
  change (diff (a :: b :: l)) with ((b - a)%Z :: diff (b :: l)).
  simpl length in *. rewrite IH. lia.
Qed.

Lemma diff_nth l k : S k < length l -> at_ (diff l) k = (at_ l (S k) - at_ l k)%Z.
Proof.
  revert k. induction l as [|a [|b l] IH]; intros k H; simpl length in H; try lia.
  change (diff (a :: b :: l)) with ((b - a)%Z :: diff (b :: l)).
  destruct k as [|k]; [reflexivity|].
  unfold at_ in *. simpl nth. rewrite IH by (simpl; lia). reflexivity.
Qed.
