(* Sums over the spacings of a sample. *)
From Coq Require Import Reals Lra Lia.
From Verif Require Import Base MoranModel MoranSpec.
Local Open Scope R_scope.

Lemma total_ext n f g : (forall i, (i < n)%nat -> f i = g i) -> total n f = total n g.
Proof. induction n as [|n IH]; intros H; [reflexivity|]. cbn [total]. rewrite IH by (intros; apply H; lia). rewrite (H n) by lia. reflexivity. Qed.
Lemma total_first n f : total (S n) f = f 0%nat + total n (fun i => f (S i)).
Proof. induction n as [|n IH]; [cbn; ring|]. change (total (S (S n)) f) with (total (S n) f + f (S n)). rewrite IH. cbn [total]. ring. Qed.
Lemma total_le n f g : (forall i, (i < n)%nat -> f i <= g i) -> total n f <= total n g.
Proof. induction n as [|n IH]; intros H; [cbn; lra|]. cbn [total]. specialize (IH ltac:(intros; apply H; lia)). specialize (H n ltac:(lia)). lra. Qed.
Lemma total_le_eq n f g : (forall i, (i < n)%nat -> f i <= g i) -> total n f = total n g -> forall i, (i < n)%nat -> f i = g i.
Proof.
  induction n as [|n IH]; intros H E i I; [lia|]. cbn [total] in E. assert (A := total_le n f g ltac:(intros; apply H; lia)). assert (B := H n ltac:(lia)).
  destruct (Nat.eq_dec i n) as [->|N]; [lra|]. apply IH; [intros; apply H; lia|lra|lia].
Qed.
Lemma total_telescope n (h : nat -> R) : total n (fun j => h (S j) - h j) = h n - h 0%nat.
Proof. induction n as [|n IH]; [cbn; ring|]. cbn [total]. rewrite IH. ring. Qed.
Lemma total_lin n f a b : total n (fun i => a * f i + b) = a * total n f + INR n * b.
Proof. induction n as [|n IH]; [cbn; ring|]. cbn [total]. rewrite IH, S_INR. ring. Qed.

(* the list of differences, entry by entry *)
Lemma rdiff_nth l : forall i, (S i < List.length l)%nat -> nth i (rdiff l) 0 = nth (S i) l 0 - nth i l 0.
Proof.
  induction l as [|a [|b l] IH]; intros i I; cbn [List.length] in I; try lia.
  destruct i as [|i]; [reflexivity|]. change (nth (S i) (rdiff (a :: b :: l)) 0) with (nth i (rdiff (b :: l)) 0). rewrite IH by (cbn; lia). reflexivity.
Qed.
Lemma rdiff_length l : List.length (rdiff l) = (List.length l - 1)%nat.
Proof. induction l as [|a [|b l] IH]; try reflexivity. cbn [rdiff List.length] in *. rewrite IH. lia. Qed.
Lemma rsum_total l : rsum l = total (List.length l) (fun i => nth i l 0).
Proof. induction l as [|a l IH]; [reflexivity|]. unfold rsum. cbn [fold_right List.length]. fold (rsum l). rewrite total_first. cbn [nth]. rewrite IH. reflexivity. Qed.

Definition row (F : R -> R) (x : list R) : list R := 0 :: map F x ++ [1].
Lemma row_nth F x j : (j < List.length x + 2)%nat -> nth j (row F x) 0 = level F x j.
Proof.
  intros I. unfold row, level. destruct j as [|i]; [reflexivity|]. cbn [nth]. destruct (Nat.ltb_spec i (List.length x)) as [L|L].
  - rewrite app_nth1 by (rewrite map_length; exact L). rewrite (nth_indep _ 0 (F 0)) by (rewrite map_length; exact L). apply map_nth.
  - rewrite app_nth2 by (rewrite map_length; exact L). rewrite map_length. replace (i - List.length x)%nat with 0%nat by lia. reflexivity.
Qed.
Lemma row_length F x : List.length (row F x) = (List.length x + 2)%nat.
Proof. unfold row. cbn [List.length]. rewrite app_length, map_length. cbn. lia. Qed.
Lemma gaps_length F x : List.length (rdiff (row F x)) = (List.length x + 1)%nat.
Proof. rewrite rdiff_length, row_length. lia. Qed.
Lemma gaps_nth F x j : (j < List.length x + 1)%nat -> nth j (rdiff (row F x)) 0 = spacing F x j.
Proof. intros I. rewrite rdiff_nth by (rewrite row_length; lia). unfold spacing. rewrite !row_nth by lia. reflexivity. Qed.

Lemma level_mono F x j : distribution_function F -> increasing x -> (j <= List.length x)%nat -> level F x j <= level F x (S j).
Proof.
  intros [M B] X I. unfold level. destruct j as [|i].
  - destruct (Nat.ltb_spec 0 (List.length x)); [apply B|lra].
  - destruct (Nat.ltb_spec i (List.length x)) as [_|?]; [|lia]. destruct (Nat.ltb_spec (S i) (List.length x)) as [L|L]; [|apply B].
    apply M. left. apply X. exact L.
Qed.
Lemma spacing_nonneg F x j : distribution_function F -> increasing x -> (j <= List.length x)%nat -> 0 <= spacing F x j.
Proof. intros D X I. unfold spacing. assert (H := level_mono F x j D X I). lra. Qed.
Lemma spacing_sum F x : total (List.length x + 1) (spacing F x) = 1.
Proof.
  unfold spacing. rewrite (total_telescope (List.length x + 1) (level F x)). unfold level at 2.
  replace (List.length x + 1)%nat with (S (List.length x)) by lia. cbn [level]. destruct (Nat.ltb_spec (List.length x) (List.length x)); [lia|lra].
Qed.

(* the tangent of the logarithm *)
Lemma ln_tangent c y : 0 < c -> 0 < y -> ln y <= ln c + (y - c) / c /\ (ln y = ln c + (y - c) / c -> y = c).
Proof.
  intros Pc Py. assert (Q : 0 < y / c) by (apply Rmult_lt_0_compat; [lra|apply Rinv_0_lt_compat; lra]).
  assert (L : ln y = ln c + ln (y / c)). { rewrite <- ln_mult by lra. f_equal. field. lra. }
  assert (K : (y - c) / c = y / c - 1) by (field; lra). rewrite K, L.
  assert (E := exp_ineq1 (ln (y / c))). rewrite exp_ln in E by exact Q.
  destruct (Req_dec (ln (y / c)) 0) as [Z|Z].
  - assert (H : y / c = 1) by (apply ln_inv; [lra|lra|rewrite ln_1; exact Z]). split; [rewrite Z; lra|]. intros _.
    replace y with (y / c * c) by (field; lra). rewrite H. lra.
  - specialize (E Z). split; [lra|]. intros H. exfalso. lra.
Qed.

Lemma log_bound n (D : nat -> R) e : 0 < e -> (forall j, (j < n)%nat -> 0 <= D j) -> total n D = 1 -> (0 < n)%nat ->
  total n (fun j => ln (D j + e)) <= INR n * ln (/ INR n + e) /\
  (total n (fun j => ln (D j + e)) = INR n * ln (/ INR n + e) <-> forall j, (j < n)%nat -> D j = / INR n).
Proof.
  intros Pe ND S Pn. assert (NP : 0 < INR n) by (apply lt_0_INR; exact Pn). assert (IP : 0 < / INR n) by (apply Rinv_0_lt_compat; exact NP).
  set (c := / INR n + e). assert (Pc : 0 < c) by (unfold c; lra).
  assert (T : forall j, (j < n)%nat -> ln (D j + e) <= / c * D j + (ln c + (e - c) / c)).
  { intros j I. destruct (ln_tangent c (D j + e) Pc ltac:(specialize (ND j I); lra)) as [A _]. replace (/ c * D j + (ln c + (e - c) / c)) with (ln c + (D j + e - c) / c) by (field; lra). exact A. }
  assert (SUM : total n (fun j => / c * D j + (ln c + (e - c) / c)) = INR n * ln c).
  { rewrite total_lin, S. assert (K : INR n * / INR n = 1) by (field; lra). assert (G : / c * 1 + INR n * ((e - c) / c) = 0) by (unfold Rdiv; replace (/ c * 1 + INR n * ((e - c) * / c)) with (/ c * (1 - INR n * / INR n + (INR n * (e + / INR n - c)))) by ring; rewrite K; unfold c; ring).
    rewrite Rmult_plus_distr_l. lra. }
  split; [rewrite <- SUM; apply total_le; exact T|]. split.
  - intros E j I. rewrite <- SUM in E. assert (H := total_le_eq n _ _ T E j I). cbv beta in H.
    destruct (ln_tangent c (D j + e) Pc ltac:(specialize (ND j I); lra)) as [_ B].
    assert (D j + e = c). { apply B. rewrite H. field. lra. } unfold c in *. lra.
  - intros H. rewrite (total_ext n _ (fun _ => ln c)) by (intros j I; rewrite H by exact I; reflexivity).
    generalize (ln c) as k. intros k. clear. induction n as [|n IH]; [cbn; ring|]. cbn [total]. rewrite IH, S_INR. ring.
Qed.
