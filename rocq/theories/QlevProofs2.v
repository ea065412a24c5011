From Coq Require Import Reals ZArith Lra Lia List Bool Psatz Permutation Sorted.
From Verif Require Import Base PolyModel FilterModel GridModel WaveModel KdeModel ProcModel ProcSpec ProcProofs ProcProofs2 ProcProofs3 KernelModel TkdeModel QlevModel QlevSpec QlevProofs.
Import ListNotations.
Local Open Scope R_scope.

(* ---- the indices that are kept ---- *)
Lemma filter_first (P : nat -> bool) n : forall s d, filter P (seq s n) <> [] -> forall j, (s <= j)%nat -> (j < nth 0 (filter P (seq s n)) d)%nat -> P j = false.
Proof.
  induction n as [|n IH]; intros s d Hn j H1 H2; [now cbn in Hn|]. cbn [seq filter] in *. destruct (P s) eqn:E; [cbn [nth] in H2; lia|]. destruct (Nat.eq_dec j s) as [-> |]; [exact E|]. apply (IH (S s) d Hn); [lia|exact H2].
Qed.
Lemma filter_next (P : nat -> bool) n : forall s i, (S i < List.length (filter P (seq s n)))%nat -> let a := nth i (filter P (seq s n)) 0%nat in let b := nth (S i) (filter P (seq s n)) 0%nat in (a < b)%nat /\ forall j, (a < j < b)%nat -> P j = false.
Proof.
  induction n as [|n IH]; intros s i Hi; [cbn in Hi; lia|]. cbn [seq filter] in *. destruct (P s) eqn:E; [|exact (IH (S s) i Hi)]. cbn [List.length] in Hi. destruct i as [|i].
  - cbn [nth]. assert (Hn : filter P (seq (S s) n) <> []) by (destruct (filter P (seq (S s) n)); [cbn in Hi; lia|discriminate]). split.
    + assert (I : In (nth 0 (filter P (seq (S s) n)) 0%nat) (filter P (seq (S s) n))) by (apply nth_In; lia). apply filter_In in I as [I _]. apply in_seq in I. lia.
    + intros j Hj. apply (filter_first P n (S s) 0%nat Hn j); lia.
  - exact (IH (S s) i ltac:(lia)).
Qed.
Lemma filter_top (P : nat -> bool) n : P n = true -> nth (List.length (filter P (seq 0 (S n))) - 1) (filter P (seq 0 (S n))) 0%nat = n.
Proof. intros H. rewrite seq_S, filter_app. cbn [filter plus]. rewrite H, app_length. cbn [List.length]. rewrite app_nth2 by lia. replace (_ - _)%nat with 0%nat by lia. reflexivity. Qed.

Record rising (cdf : list R) : Prop := Rising { r_len : (1 <= List.length cdf)%nat; r_mono : forall i, (S i < List.length cdf)%nat -> at_ cdf i <= at_ cdf (S i); r_last : at_ cdf (List.length cdf - 1) < 1 }.
Lemma rising_le cdf i j : rising cdf -> (i <= j)%nat -> (j < List.length cdf)%nat -> at_ cdf i <= at_ cdf j.
Proof. intros H. apply nondecreasing_le. exact (r_mono cdf H). Qed.
Lemma at_snoc cdf i : (i < List.length cdf)%nat -> at_R (cdf ++ [1]) i = at_ cdf i.
Proof. intros H. unfold at_R, at_. now rewrite app_nth1. Qed.
Lemma at_snoc_last cdf : at_R (cdf ++ [1]) (List.length cdf) = 1.
Proof. unfold at_R. rewrite app_nth2, Nat.sub_diag by lia. reflexivity. Qed.
Lemma keep_in cdf i : In i (increments cdf) -> (i < List.length cdf)%nat.
Proof. intros H. unfold increments in H. apply filter_In in H as [H _]. apply in_seq in H. lia. Qed.
Lemma keep_lt cdf i : In i (increments cdf) -> (S i < List.length cdf)%nat -> at_ cdf i < at_ cdf (S i).
Proof. intros H L. unfold increments in H. apply filter_In in H as [_ H]. rewrite !at_snoc in H by lia. destruct (Rlt_dec _ _); [easy|discriminate]. Qed.
Lemma keep_not cdf i : rising cdf -> (S i < List.length cdf)%nat -> (if Rlt_dec (at_R (cdf ++ [1]) i) (at_R (cdf ++ [1]) (S i)) then true else false) = false -> at_ cdf (S i) = at_ cdf i.
Proof. intros H L E. rewrite !at_snoc in E by lia. destruct (Rlt_dec _ _) as [|N]; [discriminate|]. pose proof (r_mono cdf H i L). lra. Qed.
Lemma flat_run cdf a b : rising cdf -> (a <= b)%nat -> (b < List.length cdf)%nat -> (forall j, (a <= j < b)%nat -> (if Rlt_dec (at_R (cdf ++ [1]) j) (at_R (cdf ++ [1]) (S j)) then true else false) = false) -> at_ cdf b = at_ cdf a.
Proof.
  intros H Hab Hb F. replace b with (a + (b - a))%nat in * by lia. generalize dependent (b - a)%nat. clear b. induction n as [|k IH]; intros Hab Hb F; [now rewrite Nat.add_0_r|]. rewrite Nat.add_succ_r in *. rewrite (keep_not cdf (a + k) H ltac:(lia)) by (apply F; lia). apply IH; [lia|lia|intros; apply F; lia].
Qed.
Lemma keep_nonempty cdf : rising cdf -> increments cdf <> [].
Proof.
  intros H E. assert (I : In (List.length cdf - 1)%nat (increments cdf)); [|rewrite E in I; destruct I]. pose proof (r_len cdf H). pose proof (r_last cdf H). unfold increments. apply filter_In. split; [apply in_seq; lia|]. rewrite at_snoc by lia. replace (S (List.length cdf - 1)) with (List.length cdf) by lia. rewrite at_snoc_last. destruct (Rlt_dec _ _); [reflexivity|lra].
Qed.
Lemma keep_last cdf : rising cdf -> nth (List.length (increments cdf) - 1) (increments cdf) 0%nat = (List.length cdf - 1)%nat.
Proof.
  intros H. pose proof (r_len cdf H). pose proof (r_last cdf H). unfold increments. destruct (List.length cdf) as [|n] eqn:E; [lia|]. replace (S n - 1)%nat with n in * by lia. apply filter_top. rewrite at_snoc by lia. rewrite <- E, at_snoc_last. destruct (Rlt_dec _ _); [reflexivity|lra].
Qed.
Lemma map_at {A} (d : A) (g : A -> R) l i : (i < List.length l)%nat -> at_ (map g l) i = g (nth i l d).
Proof. intros H. unfold at_. rewrite (nth_indep _ 0 (g d)) by now rewrite map_length. apply map_nth. Qed.
Lemma keep_first_value cdf : rising cdf -> at_ (map (at_R cdf) (increments cdf)) 0 = at_ cdf 0.
Proof.
  intros H. pose proof (keep_nonempty cdf H) as N. assert (L : (0 < List.length (increments cdf))%nat) by (destruct (increments cdf); [congruence|cbn; lia]). rewrite (map_at 0%nat) by easy. change (at_ cdf (nth 0 (increments cdf) 0%nat) = at_ cdf 0). apply flat_run; [exact H|lia|apply keep_in, nth_In; exact L|]. intros j Hj. apply (filter_first (fun i => if Rlt_dec (at_R (cdf ++ [1]) i) (at_R (cdf ++ [1]) (S i)) then true else false) (List.length cdf) 0 0%nat N); [lia|exact (proj2 Hj)].
Qed.
Lemma keep_last_value cdf : rising cdf -> at_ (map (at_R cdf) (increments cdf)) (List.length (increments cdf) - 1) = at_ cdf (List.length cdf - 1).
Proof.
  intros H. pose proof (keep_nonempty cdf H) as N. assert (L : (0 < List.length (increments cdf))%nat) by (destruct (increments cdf); [congruence|cbn; lia]). rewrite (map_at 0%nat) by lia. now rewrite keep_last.
Qed.
Lemma keep_step cdf k : rising cdf -> (S k < List.length (increments cdf))%nat -> let a := nth k (increments cdf) 0%nat in let b := nth (S k) (increments cdf) 0%nat in
  (a < b < List.length cdf)%nat /\ at_ cdf a < at_ cdf b /\ at_ cdf b = at_ cdf (S a).
Proof.
  intros H Hk a b. destruct (filter_next _ (List.length cdf) 0 k Hk) as [A B]. fold (increments cdf) in A, B. fold a in A, B. fold b in A, B. assert (Hb : (b < List.length cdf)%nat) by (apply keep_in, nth_In; exact Hk). assert (E : at_ cdf b = at_ cdf (S a)). { apply flat_run; [exact H|lia|exact Hb|]. intros j Hj. apply B. lia. }
  split; [lia|]. split; [|exact E]. rewrite E. apply keep_lt; [apply nth_In; lia|lia].
Qed.
Lemma keep_increasing cdf : rising cdf -> increasing (map (at_R cdf) (increments cdf)).
Proof. intros H k Hk. rewrite map_length in Hk. rewrite !(map_at 0%nat) by lia. exact (proj1 (proj2 (keep_step cdf k H Hk))). Qed.
Lemma keep_down cdf s : rising cdf -> List.length s = List.length cdf -> nonincreasing s -> nonincreasing (map (at_R s) (increments cdf)).
Proof.
  intros H L F k Hk. rewrite map_length in Hk. rewrite !(map_at 0%nat) by lia. destruct (keep_step cdf k H Hk) as (A & _). set (a := nth k (increments cdf) 0%nat) in *. set (b := nth (S k) (increments cdf) 0%nat) in *. change (at_ s b <= at_ s a).
  assert (G : forall j, (a + j < List.length s)%nat -> at_ s (a + j) <= at_ s a). { induction j as [|j IH]; intros Hj; [rewrite Nat.add_0_r; lra|]. rewrite Nat.add_succ_r in *. pose proof (F (a + j)%nat Hj). specialize (IH ltac:(lia)). lra. } replace b with (a + (b - a))%nat by lia. apply G. lia.
Qed.
(* the number of kept indices *)
Lemma keep_count cdf : rising cdf -> List.length (increments cdf) = S (List.length (filter (fun i => if Rlt_dec (at_ cdf i) (at_ cdf (S i)) then true else false) (seq 0 (List.length cdf - 1)))).
Proof.
  intros H. pose proof (r_len cdf H) as L1. pose proof (r_last cdf H) as L2. unfold increments. destruct (List.length cdf) as [|n] eqn:E; [lia|]. replace (S n - 1)%nat with n in * by lia. rewrite seq_S, filter_app, app_length. cbn [plus filter]. rewrite (at_snoc cdf n) by lia. assert (E1 : at_R (cdf ++ [1]) (S n) = 1) by (rewrite <- E; apply at_snoc_last). rewrite E1. destruct (Rlt_dec (at_ cdf n) 1); [|lra]. cbn [List.length]. rewrite Nat.add_1_r. f_equal. f_equal. apply filter_ext_in. intros i Hi. apply in_seq in Hi. now rewrite !at_snoc by lia.
Qed.

(* ---- partial sums ---- *)
Lemma cumsum_length l : forall s, List.length (cumsum s l) = List.length l.
Proof. induction l as [|v l IH]; intros s; cbn; [reflexivity|now rewrite IH]. Qed.
Lemma cumsum_at l : forall s i, (i < List.length l)%nat -> at_ (cumsum s l) i = s + total (firstn (S i) l).
Proof.
  induction l as [|v l IH]; intros s i Hi; [cbn in Hi; lia|]. destruct i as [|i]; [unfold at_; cbn; lra|]. cbn [cumsum]. change (at_ (cumsum (s + v) l) i = s + total (firstn (S (S i)) (v :: l))). rewrite IH by (cbn in Hi; lia). cbn [firstn total fold_right]. unfold total. cbn. lra.
Qed.
Lemma total_app a b : total (a ++ b) = total a + total b.
Proof. unfold total. induction a as [|v a IH]; cbn; lra. Qed.
Lemma total_nonneg l : Forall (fun v => 0 <= v) l -> 0 <= total l.
Proof. unfold total. induction 1; cbn; lra. Qed.
Lemma firstn_total_le l k : Forall (fun v => 0 <= v) l -> total (firstn k l) <= total l.
Proof. intros H. rewrite <- (firstn_skipn k l) at 2. rewrite total_app. assert (0 <= total (skipn k l)); [|lra]. apply total_nonneg. rewrite Forall_forall in *. intros v Hv. apply H. rewrite <- (firstn_skipn k l). apply in_or_app. now right. Qed.
Lemma firstn_S_total l : forall k, (k < List.length l)%nat -> total (firstn (S k) l) = total (firstn k l) + at_ l k.
Proof. induction l as [|v l IH]; intros k Hk; [cbn in Hk; lia|]. destruct k as [|k]; [unfold total, at_; cbn; lra|]. cbn [firstn]. cbn [List.length] in Hk. specialize (IH k ltac:(lia)). unfold total in *. cbn [fold_right firstn] in *. unfold at_ in *. cbn [nth]. lra. Qed.
Lemma total_perm l m : Permutation l m -> total l = total m.
Proof. unfold total. induction 1; cbn; lra. Qed.

(* ---- shares of the mass, from the sorted cells ---- *)
Definition ge_part (L : R) (l : list (R * R)) : R := total (map (fun q => if Rle_dec L (fst q) then snd q else 0) l).
Definition gt_part (L : R) (l : list (R * R)) : R := total (map (fun q => if Rlt_dec L (fst q) then snd q else 0) l).
Lemma ge_sorted l : StronglySorted (fun a b => fst b <= fst a) l -> Forall (fun q => 0 <= snd q) l -> forall j L, (j < List.length l)%nat -> L <= fst (nth j l (0, 0)) -> total (firstn (S j) (map snd l)) <= ge_part L l.
Proof.
  induction 1 as [|a l HS IH HF]; intros HN j L Hj HL; [cbn in Hj; lia|]. inversion HN as [|? ? N1 N2]; subst. cbn [map firstn]. unfold ge_part. cbn [map]. assert (HA : L <= fst a). { destruct j as [|j]; [exact HL|]. cbn [nth] in HL. rewrite Forall_forall in HF. cbn in Hj. specialize (HF (nth j l (0, 0)) ltac:(apply nth_In; lia)). lra. }
  destruct (Rle_dec L (fst a)) as [_|]; [|lra]. destruct j as [|j].
  - cbn [firstn]. unfold total. cbn [fold_right]. assert (0 <= ge_part L l). { unfold ge_part. apply total_nonneg. rewrite Forall_map. apply Forall_impl with (2 := N2). intros q Hq. destruct (Rle_dec _ _); lra. } unfold ge_part, total in H. lra.
  - cbn [nth] in HL. cbn in Hj. specialize (IH N2 j L ltac:(lia) HL). unfold ge_part, total in *. cbn [fold_right]. lra.
Qed.
Lemma gt_sorted l : StronglySorted (fun a b => fst b <= fst a) l -> Forall (fun q => 0 <= snd q) l -> forall j L, (j < List.length l)%nat -> fst (nth j l (0, 0)) <= L -> gt_part L l <= total (firstn (S j) (map snd l)).
Proof.
  induction 1 as [|a l HS IH HF]; intros HN j L Hj HL; [cbn in Hj; lia|]. inversion HN as [|? ? N1 N2]; subst. cbn [map firstn]. unfold gt_part. cbn [map]. destruct j as [|j].
  - cbn [nth] in HL. cbn [firstn]. unfold total. cbn [fold_right]. destruct (Rlt_dec L (fst a)); [lra|]. assert (E : fold_right Rplus 0 (map (fun q => if Rlt_dec L (fst q) then snd q else 0) l) = 0). { rewrite Forall_forall in HF. clear - HF HL. induction l as [|b l IHl]; [reflexivity|]. cbn. pose proof (HF b (or_introl eq_refl)). destruct (Rlt_dec L (fst b)); [lra|]. rewrite IHl; [lra|]. intros x Hx. apply HF. now right. } rewrite E. lra.
  - cbn [nth] in HL. cbn in Hj. specialize (IH N2 j L ltac:(lia) HL). unfold gt_part, total in *. cbn [fold_right]. destruct (Rlt_dec L (fst a)); lra.
Qed.
Lemma ge_down l L M : Forall (fun q => 0 <= snd q) l -> L <= M -> ge_part M l <= ge_part L l.
Proof. intros H HL. unfold ge_part, total. induction H as [|a l Ha H IH]; cbn; [lra|]. destruct (Rle_dec M (fst a)), (Rle_dec L (fst a)); lra. Qed.
Lemma gt_down l L M : Forall (fun q => 0 <= snd q) l -> L <= M -> gt_part M l <= gt_part L l.
Proof. intros H HL. unfold gt_part, total. induction H as [|a l Ha H IH]; cbn; [lra|]. destruct (Rlt_dec M (fst a)), (Rlt_dec L (fst a)); lra. Qed.
