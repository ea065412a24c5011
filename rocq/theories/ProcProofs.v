From Coq Require Import Reals Lra Lia Psatz Permutation.
From Coquelicot Require Import Coquelicot.
From Verif Require Import Base PolyModel FilterModel GridModel WaveModel KdeModel ProcModel ProcSpec.
Local Open Scope R_scope.

(* ---- floor and ceil ---- *)
Lemma floor_spec : forall u, IZR (floor u) <= u < IZR (floor u) + 1.
Proof. intros u. unfold floor. destruct (base_Int_part u) as [A B]. lra. Qed.
Lemma floor_unique : forall u k, IZR k <= u < IZR k + 1 -> floor u = k.
Proof.
  intros u k H. pose proof (floor_spec u) as F.
  assert (A : (k < floor u + 1)%Z) by (apply lt_IZR; rewrite plus_IZR; lra).
  assert (B : (floor u < k + 1)%Z) by (apply lt_IZR; rewrite plus_IZR; lra). lia.
Qed.
Lemma ceil_spec : forall u, IZR (ceil u) - 1 < u <= IZR (ceil u).
Proof. intros u. unfold ceil. rewrite opp_IZR. pose proof (floor_spec (- u)) as F. unfold floor in F. lra. Qed.
Lemma ceil_unique : forall u k, IZR k - 1 < u <= IZR k -> ceil u = k.
Proof.
  intros u k H. pose proof (ceil_spec u) as F.
  assert (A : (k < ceil u + 1)%Z) by (apply lt_IZR; rewrite plus_IZR; lra).
  assert (B : (ceil u < k + 1)%Z) by (apply lt_IZR; rewrite plus_IZR; lra). lia.
Qed.

(* ---- minR, maxR ---- *)
Lemma fold_min : forall l a, (fold_left Rmin l a <= a) /\ (forall t, In t l -> fold_left Rmin l a <= t) /\ (fold_left Rmin l a = a \/ In (fold_left Rmin l a) l).
Proof.
  induction l as [|b l IH]; intros a; cbn [fold_left In].
  - split; [lra|]. split; [tauto|]. left. reflexivity.
  - destruct (IH (Rmin a b)) as (A & B & C). pose proof (Rmin_l a b). pose proof (Rmin_r a b).
    split; [lra|]. split.
    + intros t [<-|Ht]; [lra|apply B; exact Ht].
    + destruct C as [C|C]; [|right; right; exact C].
      rewrite C. unfold Rmin. destruct (Rle_dec a b); [left|right; left]; reflexivity.
Qed.
Lemma fold_max : forall l a, (a <= fold_left Rmax l a) /\ (forall t, In t l -> t <= fold_left Rmax l a) /\ (fold_left Rmax l a = a \/ In (fold_left Rmax l a) l).
Proof.
  induction l as [|b l IH]; intros a; cbn [fold_left In].
  - split; [lra|]. split; [tauto|]. left. reflexivity.
  - destruct (IH (Rmax a b)) as (A & B & C). pose proof (Rmax_l a b). pose proof (Rmax_r a b).
    split; [lra|]. split.
    + intros t [<-|Ht]; [lra|apply B; exact Ht].
    + destruct C as [C|C]; [|right; right; exact C].
      rewrite C. unfold Rmax. destruct (Rle_dec a b); [right; left|left]; reflexivity.
Qed.
Lemma minR_spec : forall l, l <> [] -> In (minR l) l /\ (forall t, In t l -> minR l <= t).
Proof.
  intros [|a l] H; [congruence|]. unfold minR. destruct (fold_min l a) as (A & B & C). split.
  - destruct C as [C|C]; [left; symmetry; exact C|right; exact C].
  - intros t [<-|Ht]; auto.
Qed.
Lemma maxR_spec : forall l, l <> [] -> In (maxR l) l /\ (forall t, In t l -> t <= maxR l).
Proof.
  intros [|a l] H; [congruence|]. unfold maxR. destruct (fold_max l a) as (A & B & C). split.
  - destruct C as [C|C]; [left; symmetry; exact C|right; exact C].
  - intros t [<-|Ht]; auto.
Qed.
Lemma minR_unique : forall l m, In m l -> (forall t, In t l -> m <= t) -> minR l = m.
Proof. intros l m H B. assert (N : l <> []) by (destruct l; [destruct H|discriminate]). destruct (minR_spec l N) as [A C]. apply Rle_antisym; auto. Qed.
Lemma maxR_unique : forall l m, In m l -> (forall t, In t l -> t <= m) -> maxR l = m.
Proof. intros l m H B. assert (N : l <> []) by (destruct l; [destruct H|discriminate]). destruct (maxR_spec l N) as [A C]. apply Rle_antisym; auto. Qed.

(* ---- increasing tables ---- *)
Lemma increasing_tl : forall a x, increasing (a :: x) -> increasing x.
Proof. intros a x H i Hi. exact (H (S i) ltac:(cbn [length]; lia)). Qed.
Lemma increasing_le : forall x i j, increasing x -> (i <= j)%nat -> (j < length x)%nat -> at_ x i <= at_ x j.
Proof.
  intros x i j H Hij Hj. induction Hij as [|j Hij IH]; [lra|]. specialize (IH ltac:(lia)). pose proof (H j Hj). lra.
Qed.
Lemma increasing_lt : forall x i j, increasing x -> (i < j)%nat -> (j < length x)%nat -> at_ x i < at_ x j.
Proof.
  intros x i j H Hij Hj. pose proof (H i ltac:(lia)). pose proof (increasing_le x (S i) j H ltac:(lia) Hj). lra.
Qed.
Lemma nondecreasing_le : forall x i j, nondecreasing x -> (i <= j)%nat -> (j < length x)%nat -> at_ x i <= at_ x j.
Proof.
  intros x i j H Hij Hj. induction Hij as [|j Hij IH]; [lra|]. specialize (IH ltac:(lia)). pose proof (H j Hj). lra.
Qed.
Lemma increasing_head : forall a x t, increasing (a :: x) -> In t x -> a < t.
Proof.
  intros a x t H Ht. destruct (In_nth x t 0 Ht) as (i & Hi & E).
  pose proof (increasing_lt (a :: x) 0 (S i) H ltac:(lia) ltac:(cbn [length]; lia)) as Q. unfold at_ in Q. cbn [nth] in Q. rewrite E in Q. exact Q.
Qed.

Lemma insert_low : forall p l, (forall q, In q l -> fst p < fst q) -> insert_row p l = p :: l.
Proof.
  intros p [|q l] H; auto. cbn [insert_row]. destruct (Rle_dec (fst p) (fst q)) as [|N]; auto.
  exfalso. apply N. left. apply H. left. reflexivity.
Qed.
Lemma sort_rows_sorted : forall l, increasing (map fst l) -> sort_rows l = l.
Proof.
  induction l as [|p l IH]; intros H; auto. cbn [sort_rows]. rewrite IH by exact (increasing_tl _ _ H).
  apply insert_low. intros q Hq. apply (increasing_head _ _ _ H). apply in_map. exact Hq.
Qed.
Lemma insert_perm : forall p l, Permutation (insert_row p l) (p :: l).
Proof.
  intros p l. induction l as [|q l IH]; cbn [insert_row]; auto. destruct (Rle_dec (fst p) (fst q)); auto.
  eapply perm_trans; [apply perm_skip; exact IH|]. apply perm_swap.
Qed.
Lemma sort_perm : forall l, Permutation (sort_rows l) l.
Proof. induction l as [|p l IH]; cbn [sort_rows]; auto. eapply perm_trans; [apply insert_perm|]. auto. Qed.
(* rows in strictly increasing order *)
Lemma insert_swap : forall p q l, fst p < fst q -> insert_row p (insert_row q l) = insert_row q (insert_row p l).
Proof.
  intros p q l H. induction l as [|r l IH]; cbn [insert_row].
  - destruct (Rle_dec (fst p) (fst q)); [|lra]. destruct (Rle_dec (fst q) (fst p)); [lra|]. reflexivity.
  - destruct (Rle_dec (fst q) (fst r)) as [Q|Q].
    + cbn [insert_row]. destruct (Rle_dec (fst p) (fst q)); [|lra]. destruct (Rle_dec (fst p) (fst r)); [|lra].
      cbn [insert_row]. destruct (Rle_dec (fst q) (fst p)); [lra|]. destruct (Rle_dec (fst q) (fst r)); [|lra]. reflexivity.
    + cbn [insert_row]. destruct (Rle_dec (fst p) (fst r)) as [P|P].
      * cbn [insert_row]. destruct (Rle_dec (fst q) (fst p)); [lra|]. destruct (Rle_dec (fst q) (fst r)); [lra|]. reflexivity.
      * cbn [insert_row]. destruct (Rle_dec (fst q) (fst r)); [lra|]. rewrite IH. reflexivity.
Qed.
Lemma sort_rows_perm : forall l l', Permutation l l' -> NoDup (map fst l) -> sort_rows l = sort_rows l'.
Proof.
  intros l l' P. induction P as [|p l l' P IH|p q l|l l2 l3 P1 IH1 P2 IH2]; intros N; auto.
  - cbn [sort_rows]. inversion N as [|? ? _ N']. rewrite (IH N'). reflexivity.
  - cbn [sort_rows]. inversion N as [|? ? N1 N2]; subst. destruct (Rtotal_order (fst p) (fst q)) as [H|[H|H]].
    + symmetry. apply insert_swap. exact H.
    + exfalso. apply N1. cbn [map]. left. exact H.
    + apply insert_swap. exact H.
  - rewrite (IH1 N). apply IH2. apply (Permutation_NoDup (Permutation_map fst P1) N).
Qed.
Lemma map_fst_combine : forall (x f : list R), length x = length f -> map fst (combine x f) = x.
Proof. induction x as [|a x IH]; intros [|b f] H; cbn in *; auto; try discriminate. rewrite IH by lia. reflexivity. Qed.
Lemma map_snd_combine : forall (x f : list R), length x = length f -> map snd (combine x f) = f.
Proof. induction x as [|a x IH]; intros [|b f] H; cbn in *; auto; try discriminate. rewrite IH by lia. reflexivity. Qed.

Lemma diffR_nth : forall l i, (S i < length l)%nat -> nth i (diffR l) 0 = at_ l (S i) - at_ l i.
Proof.
  induction l as [|a [|b l] IH]; intros i Hi; cbn [length] in Hi; try lia. destruct i as [|i]; [reflexivity|].
  change (nth i (diffR (b :: l)) 0 = at_ (b :: l) (S i) - at_ (b :: l) i). apply IH. cbn [length]. lia.
Qed.
Lemma diffR_length : forall l, length (diffR l) = (length l - 1)%nat.
Proof. induction l as [|a [|b l] IH]; auto. change (S (length (diffR (b :: l))) = (S (S (length l)) - 1)%nat). rewrite IH. cbn [length]. lia. Qed.
Lemma no_duplicates : forall x, increasing x -> existsb (fun d => if Rlt_dec 0 d then false else true) (diffR x) = false.
Proof.
  intros x H. apply Bool.not_true_is_false. intros E. apply existsb_exists in E as (d & Hd & E).
  destruct (In_nth _ _ 0 Hd) as (i & Hi & <-). rewrite diffR_length in Hi. rewrite diffR_nth in E by lia.
  pose proof (H i ltac:(lia)). destruct (Rlt_dec 0 (at_ x (S i) - at_ x i)); [discriminate|lra].
Qed.
Lemma minR_increasing : forall x, increasing x -> x <> [] -> minR x = at_ x 0.
Proof.
  intros x H N. apply minR_unique.
  - apply nth_In. destruct x; [congruence|cbn; lia].
  - intros t Ht. destruct (In_nth x t 0 Ht) as (i & Hi & <-). apply (increasing_le x 0 i H); lia.
Qed.
Lemma maxR_increasing : forall x, increasing x -> x <> [] -> maxR x = at_ x (length x - 1).
Proof.
  intros x H N. assert (0 < length x)%nat by (destruct x; [congruence|cbn; lia]). apply maxR_unique.
  - apply nth_In. lia.
  - intros t Ht. destruct (In_nth x t 0 Ht) as (i & Hi & <-). apply (increasing_le x i (length x - 1) H); lia.
Qed.
Lemma geti_nth : forall (l : list R) i, (i < length l)%nat -> geti l i = Ok (at_ l i).
Proof. intros l i H. unfold geti, at_. rewrite (nth_error_nth' l 0 H). reflexivity. Qed.
Lemma from_end_nth : forall l k, (1 <= k)%nat -> (k <= length l)%nat -> from_end l k = Ok (at_ l (length l - k)).
Proof.
  intros l k H1 H2. unfold from_end, getz. destruct (0 <=? - Z.of_nat k)%Z eqn:E; [lia|].
  destruct (- Z.of_nat (length l) <=? - Z.of_nat k)%Z eqn:E2; [|lia].
  replace (Z.to_nat (Z.of_nat (length l) + - Z.of_nat k)) with (length l - k)%nat by lia. apply geti_nth. lia.
Qed.
Lemma getz_nth : forall (l : list R) i, (0 <= i)%Z -> (Z.to_nat i < length l)%nat -> getz l i = Ok (at_ l (Z.to_nat i)).
Proof. intros l i H1 H2. unfold getz. destruct (0 <=? i)%Z eqn:E; [|lia]. apply geti_nth. exact H2. Qed.
Lemma hd_at : forall l : list R, hd 0 l = at_ l 0.
Proof. intros [|a l]; reflexivity. Qed.
Lemma last_at : forall l : list R, last l 0 = at_ l (length l - 1).
Proof.
  induction l as [|a [|b l] IH]; auto. change (last (b :: l) 0 = at_ (a :: b :: l) (length (a :: b :: l) - 1)).
  rewrite IH. cbn [length]. unfold at_. rewrite !Nat.sub_succ, !Nat.sub_0_r. reflexivity.
Qed.

(* ---- uniform tables ---- *)
Lemma uniform_length : forall a h n, length (uniform a h n) = n.
Proof. intros. unfold uniform. rewrite map_length, seq_length. reflexivity. Qed.
Lemma uniform_at : forall a h n i, (i < n)%nat -> at_ (uniform a h n) i = a + INR i * h.
Proof.
  intros a h n i H. unfold uniform, at_. pose (g := fun i => a + INR i * h).
  transitivity (nth i (map g (seq 0 n)) (g 0%nat)); [apply nth_indep; rewrite map_length, seq_length; lia|].
  rewrite map_nth, seq_nth by lia. reflexivity.
Qed.
Lemma uniform_increasing : forall a h n, 0 < h -> increasing (uniform a h n).
Proof. intros a h n H i Hi. rewrite uniform_length in Hi. rewrite !uniform_at by lia. rewrite S_INR. nra. Qed.
Lemma at_ext : forall l l' : list R, length l = length l' -> (forall i, (i < length l)%nat -> at_ l i = at_ l' i) -> l = l'.
Proof. intros l l' H E. apply (nth_ext l l' 0 0 H). exact E. Qed.
