From Coq Require Import Reals ZArith Lra Lia Sorted Permutation.
From Verif Require Import Base PolyModel FilterModel FilterProofs2 GridModel GridSpec GridProofs GridProofs3 GridProofs4 GridProofs5 KdeModel KdeSpec KdeProofs5 StatsModel StatsSpec StatsProofs StatsProofs2.
Local Open Scope R_scope.

(* ---- default thresholds of reslife ---- *)
Lemma sorted_strict : forall l, StronglySorted Rle l -> NoDup l -> forall i j, (i < j < List.length l)%nat -> nth i l 0 < nth j l 0.
Proof.
  intros l St Nd i j H. destruct (ssorted_nth l St i j ltac:(lia)) as [L|E]; [exact L|]. exfalso.
  assert (i = j) by (eapply NoDup_nth; [exact Nd|lia|lia|exact E]). lia.
Qed.
Lemma linspace_le a b n u : a <= b -> In u (linspace a b n) -> a <= u <= b.
Proof.
  intros Hab H. unfold linspace in H. apply in_map_iff in H as (i & <- & Hi). apply in_seq in Hi.
  destruct (Nat.eq_dec n 1) as [->|Hn]; [replace i with O by lia; cbn [INR]; lra|].
  assert (0 < INR (n - 1)) by (apply lt_0_INR; lia). assert (0 <= INR i <= INR (n - 1)) by (split; [apply pos_INR|apply le_INR; lia]).
  assert (0 <= INR i / INR (n - 1) <= 1).
  { split; [apply Rmult_le_pos; [lra|apply Rlt_le, Rinv_0_lt_compat; lra]|]. apply Rmult_le_reg_r with (INR (n - 1)); [lra|]. unfold Rdiv. rewrite Rmult_assoc, Rinv_l; lra. }
  replace (INR i * ((b - a) / INR (n - 1))) with (INR i / INR (n - 1) * (b - a)) by (field; lra).
  assert (0 <= INR i / INR (n - 1) * (b - a)) by (apply Rmult_le_pos; lra).
  assert (INR i / INR (n - 1) * (b - a) <= 1 * (b - a)) by (apply Rmult_le_compat_r; lra). lra.
Qed.
Lemma count_ge {A} (d : A) (f : A -> bool) l k : (forall j, (k <= j < List.length l)%nat -> f (nth j l d) = true) -> (List.length l - k <= count f l)%nat.
Proof.
  intros H. rewrite <- (firstn_skipn k l) at 2. rewrite count_app. rewrite (count_all f (skipn k l)); [rewrite skipn_length; lia|].
  intros v Hv. apply (In_nth _ _ d) in Hv as (j & Hj & <-). rewrite skipn_length in Hj.
  replace (nth j (skipn k l) d) with (nth (k + j) l d); [apply H; lia|].
  clear. revert l. induction k; intros l; [reflexivity|]. destruct l; [now destruct j|]. cbn. apply IHk.
Qed.
Lemma check_default data nmin : (1 <= nmin <= List.length data)%nat ->
  check_umin_umax data None None nmin = Ok (nth 0 (sortR data) 0, nth (List.length data - nmin) (sortR data) 0).
Proof.
  intros H. unfold check_umin_umax. pose proof (Permutation_length (sortR_perm data)) as L. unfold getz.
  destruct (Z.leb_spec 0 (- Z.of_nat nmin)); [lia|]. rewrite <- L. destruct (Z.leb_spec (- Z.of_nat (List.length data)) (- Z.of_nat nmin)); [|lia].
  unfold geti. replace (Z.to_nat (Z.of_nat (List.length data) + - Z.of_nat nmin)) with (List.length data - nmin)%nat by lia.
  rewrite (nth_error_nth' _ 0) by lia. cbn [bind Z.leb Z.compare]. rewrite (nth_error_nth' _ 0) by (cbn; lia). reflexivity.
Qed.
Lemma reslife_default_counts data nmin : NoDup data -> (2 <= nmin <= List.length data)%nat ->
  exists us, reslife_default data nmin = Ok us /\ List.length us = Nat.min (List.length data - nmin) 100 /\
  forall u, In u us -> (nmin - 1 <= count (fun v => Rltb u v) data)%nat /\ minR data <= u.
Proof.
  intros Nd Hn. unfold reslife_default. replace (Nat.max nmin 1) with nmin by lia. rewrite check_default by lia. cbn [bind]. eexists. split; [reflexivity|].
  split; [unfold linspace; now rewrite map_length, seq_length|].
  pose proof (sortR_perm data) as P. pose proof (sortR_sorted data) as St. pose proof (Permutation_length P) as L.
  assert (Nds : NoDup (sortR data)) by (eapply Permutation_NoDup; [exact P|exact Nd]).
  intros u Hu. apply linspace_le in Hu; [|apply ssorted_nth; [exact St|lia]]. split.
  - rewrite (count_perm _ _ _ P). transitivity (List.length (sortR data) - (List.length data - nmin + 1))%nat; [lia|]. apply (count_ge 0).
    intros j Hj. unfold Rltb. destruct (Rlt_dec _ _) as [X|X]; [reflexivity|]. exfalso. apply X.
    pose proof (sorted_strict _ St Nds (List.length data - nmin) j ltac:(lia)). lra.
  - destruct (min_max_spec data) as (_ & _ & B); [intros ->; cbn in Hn; lia|].
    specialize (B (nth 0 (sortR data) 0)). assert (In (nth 0 (sortR data) 0) data) by (eapply Permutation_in; [symmetry; exact P|apply nth_In; lia]). specialize (B H). lra.
Qed.
Lemma reslife_ties : exists us, reslife_default [0; 1; 2; 2; 2] 3 = Ok us /\ reslife [0; 1; 2; 2; 2] us = [(Some (7 / 4), 4%nat); (None, O)].
Proof.
  assert (E : sortR [0; 1; 2; 2; 2] = [0; 1; 2; 2; 2]).
  { cbn [sortR]. repeat (cbn [insertR]; try (destruct Rle_dec; [|exfalso; lra])). reflexivity. }
  unfold reslife_default. change (Nat.max 3 1) with 3%nat. rewrite check_default by (cbn; lia). rewrite E. cbn [bind]. eexists. split; [reflexivity|].
  change (Nat.min (List.length [0; 1; 2; 2; 2] - 3) 100) with 2%nat. cbn [List.length Nat.sub nth]. unfold linspace. cbn [seq map Nat.sub].
  replace (0 + INR 0 * ((2 - 0) / INR 1)) with 0 by (cbn; lra). replace (0 + INR 1 * ((2 - 0) / INR 1)) with 2 by (cbn; field).
  unfold reslife, mean_excess. cbn [map filter].
  destruct (Rlt_dec 0 0); [lra|]. destruct (Rlt_dec 0 1); [|lra]. destruct (Rlt_dec 0 2); [|lra]. destruct (Rlt_dec 2 0); [lra|]. destruct (Rlt_dec 2 1); [lra|]. destruct (Rlt_dec 2 2); [lra|].
  cbn [map List.length]. repeat f_equal. unfold mean, npsum. cbn [fold_right List.length]. replace (INR 4) with 4 by (cbn; lra). field.
Qed.

(* ---- dispersion index ---- *)
Lemma int_part_block first tb t b : 0 < tb -> (Int_part ((t - first) / tb) = Z.of_nat b <-> in_block first tb b t = true).
Proof.
  intros Hb. unfold in_block, Rleb, Rltb. set (x := (t - first) / tb). assert (E : t = first + x * tb) by (unfold x; field; lra).
  rewrite S_INR. rewrite !INR_IZR_INZ. split.
  - intros H. destruct (base_Int_part x) as [B1 B2]. rewrite H in B1, B2.
    assert (IZR (Z.of_nat b) * tb <= x * tb) by (apply Rmult_le_compat_r; lra).
    assert (x * tb < (IZR (Z.of_nat b) + 1) * tb) by (apply Rmult_lt_compat_r; lra).
    destruct (Rle_dec _ _); [|lra]. destruct (Rlt_dec _ _); [reflexivity|lra].
  - destruct (Rle_dec _ _) as [H1|]; [|discriminate]. destruct (Rlt_dec _ _) as [H2|]; [|discriminate]. intros _.
    assert (IZR (Z.of_nat b) <= x) by (apply Rmult_le_reg_r with tb; lra). assert (x < IZR (Z.of_nat b) + 1) by (apply Rmult_lt_reg_r with tb; lra).
    unfold Int_part. assert (up x = Z.of_nat b + 1)%Z; [|lia]. symmetry. apply tech_up; rewrite plus_IZR; lra.
Qed.
Lemma zmax_ge l z : In z l -> (z <= zmax l)%Z.
Proof.
  destruct l as [|a l]; [easy|]. cbn [zmax]. intros [<-|H]; induction l as [|b l IH]; cbn; try lia; try easy.
  destruct H as [<-|H]; [lia|]. specialize (IH H). lia.
Qed.
Lemma zmin_in l : l <> [] -> In (zmin l) l.
Proof.
  destruct l as [|a l]; [easy|]. intros _. cbn [zmin]. induction l as [|b l IH]; [now left|]. cbn [fold_right].
  destruct (Z.min_spec b (fold_right Z.min a l)) as [[_ E]|[_ E]]; rewrite E; [right; now left|]. destruct IH as [IH|IH]; [now left|right; now right].
Qed.
Lemma zmin_le l z : In z l -> (zmin l <= z)%Z.
Proof.
  destruct l as [|a l]; [easy|]. cbn [zmin]. intros [<-|H]; induction l as [|b l IH]; cbn; try lia; try easy.
  destruct H as [<-|H]; [lia|]. specialize (IH H). lia.
Qed.
Lemma npsum_indicator {A} (f : A -> bool) l : npsum (map (fun p => b2R (f p)) l) = INR (count f l).
Proof. unfold count. induction l as [|a l IH]; [reflexivity|]. cbn [map filter]. unfold npsum in *. cbn [fold_right]. rewrite IH. destruct (f a); cbn [b2R List.length]; [rewrite S_INR|]; lra. Qed.
Lemma combine_map_r {A B C} (f : B -> C) (l : list A) : forall m, combine l (map f m) = map (fun p => (fst p, f (snd p))) (combine l m).
Proof. induction l as [|x l IH]; intros [|y m]; cbn; [reflexivity..|]. now rewrite IH. Qed.
Lemma count_map {A B} (g : A -> B) f l : count f (map g l) = count (fun x => f (g x)) l.
Proof. unfold count. induction l as [|a l IH]; [reflexivity|]. cbn. destruct (f (g a)); cbn; auto. Qed.
Lemma count_ext {A} (f g : A -> bool) l : (forall x, In x l -> f x = g x) -> count f l = count g l.
Proof. unfold count. induction l as [|a l IH]; intros H; [reflexivity|]. cbn. rewrite H by now left. destruct (g a); cbn; rewrite IH by (intros; apply H; now right); reflexivity. Qed.

Lemma block_counts_spec data t tb thresh M : 0 < tb ->
  block_counts data (block_numbers t tb) M thresh = map (fun b => INR (block_count data t (minR t) tb thresh b)) (seq 0 M).
Proof.
  intros Hb. unfold block_counts. apply map_ext. intros b. rewrite npsum_indicator. f_equal. unfold block_count, block_numbers.
  rewrite combine_map_r, count_map. apply count_ext. intros [v w] _. cbn [fst snd].
  pose proof (int_part_block (minR t) tb w b Hb) as I. fold (Rltb thresh v). destruct (Z.eqb_spec (Int_part ((w - minR t) / tb)) (Z.of_nat b)) as [E|E].
  - rewrite (proj1 I E). now rewrite andb_true_r.
  - destruct (in_block (minR t) tb b w); [exfalso; now apply E, I|]. now rewrite andb_false_r.
Qed.

Lemma sum_blocks {A} (ex : A -> bool) (blk : A -> nat) M : forall l, (forall p, In p l -> (blk p < M)%nat) ->
  sumR (map (fun b => INR (count (fun p => ex p && Nat.eqb (blk p) b) l)) (seq 0 M)) = INR (count ex l).
Proof.
  induction l as [|p l IH]; intros H.
  - cbn. rewrite sumR_map_0; [reflexivity|]. reflexivity.
  - specialize (IH (fun q Hq => H q (or_intror Hq))).
    transitivity (sumR (map (fun b => (if Nat.eqb (blk p) b then b2R (ex p) else 0) * 1) (seq 0 M)) + sumR (map (fun b => INR (count (fun p => ex p && Nat.eqb (blk p) b) l)) (seq 0 M))).
    + rewrite <- sumR_map_add. apply sumR_ext. intros b _. unfold count. cbn [filter]. destruct (ex p), (Nat.eqb (blk p) b); cbn [andb b2R List.length]; rewrite ?S_INR; lra.
    + rewrite sumR_pick by (apply H; now left). rewrite IH. unfold count. cbn [filter]. destruct (ex p); cbn [b2R List.length]; rewrite ?S_INR; lra.
Qed.

Lemma dispersion_spec data t tb thresh : t <> [] -> List.length t = List.length data -> 0 < tb ->
  exists M, (0 < M)%nat /\ (forall v, In v t -> exists b, (b < M)%nat /\ in_block (minR t) tb b v = true) /\
  let counts := map (fun b => INR (block_count data t (minR t) tb thresh b)) (seq 0 M) in
  sumR counts = INR (count (fun v => Rltb thresh v) data) /\ dispersion data t tb thresh = variance counts / average counts.
Proof.
  intros Hn L Hb. destruct (min_max_spec t Hn) as (Mi & _ & B).
  assert (NN : forall v, In v t -> (0 <= Int_part ((v - minR t) / tb))%Z).
  { intros v Hv. assert (0 <= (v - minR t) / tb) by (apply Rmult_le_pos; [specialize (B v Hv); lra|apply Rlt_le, Rinv_0_lt_compat; lra]).
    destruct (base_Int_part ((v - minR t) / tb)) as [B1 B2]. assert (X : -1 < IZR (Int_part ((v - minR t) / tb))) by lra. apply lt_IZR in X. lia. }
  assert (Z0 : zmin (block_numbers t tb) = 0%Z).
  { assert (I0 : In 0%Z (block_numbers t tb)).
    { apply in_map_iff. exists (minR t). split; [|exact Mi]. replace ((minR t - minR t) / tb) with 0 by (field; lra).
      unfold Int_part. assert (E : up 0 = 1%Z) by (symmetry; apply tech_up; lra). rewrite E. reflexivity. }
    pose proof (zmin_le _ _ I0). assert (In (zmin (block_numbers t tb)) (block_numbers t tb)) by (apply zmin_in; intros E; rewrite E in I0; destruct I0).
    apply in_map_iff in H0 as (v & E & Hv). specialize (NN v Hv). lia. }
  set (M := Z.to_nat (zmax (block_numbers t tb) - zmin (block_numbers t tb) + 1)).
  assert (Blk : forall v, In v t -> (Z.to_nat (Int_part ((v - minR t) / tb)) < M)%nat).
  { intros v Hv. specialize (NN v Hv). assert (Int_part ((v - minR t) / tb) <= zmax (block_numbers t tb))%Z by (apply zmax_ge, in_map_iff; exists v; auto). unfold M. rewrite Z0. lia. }
  assert (HM : (0 < M)%nat) by (specialize (Blk _ Mi); lia).
  exists M. split; [exact HM|]. split.
  { intros v Hv. exists (Z.to_nat (Int_part ((v - minR t) / tb))). split; [now apply Blk|]. apply int_part_block; [exact Hb|]. rewrite Z2Nat.id; [reflexivity|now apply NN]. }
  intros counts.
  assert (Sc : sumR counts = INR (count (fun v => Rltb thresh v) data)).
  { unfold counts, block_count.
    transitivity (sumR (map (fun b => INR (count (fun p => Rltb thresh (fst p) && Nat.eqb (Z.to_nat (Int_part ((snd p - minR t) / tb))) b) (combine data t))) (seq 0 M))).
    - apply sumR_ext. intros b _. f_equal. apply count_ext. intros [v w] Hp. apply in_combine_r in Hp. cbn [fst snd]. f_equal.
      pose proof (int_part_block (minR t) tb w b Hb) as I. specialize (NN w Hp). destruct (Nat.eqb_spec (Z.to_nat (Int_part ((w - minR t) / tb))) b) as [E|E].
      + apply I. lia.
      + destruct (in_block (minR t) tb b w); [|reflexivity]. exfalso. apply E. rewrite (proj2 I eq_refl). lia.
    - rewrite (sum_blocks (fun p => Rltb thresh (fst p)) (fun p => Z.to_nat (Int_part ((snd p - minR t) / tb)))).
      + f_equal. rewrite <- (count_map fst). f_equal. revert L. clear. revert t. induction data as [|a d IH]; intros [|b t] L; cbn in *; try lia; [reflexivity|]. f_equal. apply IH. lia.
      + intros [v w] Hp. apply in_combine_r in Hp. now apply Blk. }
  split; [exact Sc|]. unfold dispersion. fold M. cbv zeta. rewrite block_counts_spec by exact Hb. fold counts.
  assert (Lc : List.length counts = M) by (unfold counts; now rewrite map_length, seq_length).
  replace (npsum (map (fun d => b2R (if Rlt_dec thresh d then true else false)) data)) with (sumR counts) by (rewrite Sc; symmetry; apply (npsum_indicator (fun v => Rltb thresh v))).
  unfold average. rewrite Lc. reflexivity.
Qed.
