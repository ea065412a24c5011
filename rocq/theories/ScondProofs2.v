(* Prediction of missing values: the theorems. *)
From Coq Require Import Reals List ZArith Lra Lia Bool.
From Verif Require Import Base PolyModel SpectModel SpectProofs7 ArSpec ArProofs2 CsimModel CsimProofs CsimProofs3 ScondModel ScondSpec ScondProofs.
Import ListNotations.
Local Open Scope R_scope.

Lemma series_nth n miss x i : nth i (series n miss x) None = if (i <? n)%nat then if miss i then None else Some (x i) else None.
Proof. unfold series. destruct (Nat.ltb_spec i n) as [H|H]; [rewrite map_seq_nth' by exact H; reflexivity|apply nth_overflow; rewrite map_length, seq_length; exact H]. Qed.
Lemma series_length n miss x : List.length (series n miss x) = n. Proof. unfold series. rewrite map_length, seq_length. reflexivity. Qed.
Lemma is_missing_series n miss x i : (i < n)%nat -> is_missing (series n miss x) i = miss i.
Proof. intros H. unfold is_missing. rewrite series_nth. destruct (Nat.ltb_spec i n); [|lia]. destruct (miss i); reflexivity. Qed.
Lemma val_series n miss x i : (i < n)%nat -> miss i = false -> val (series n miss x) i = x i.
Proof. intros H M. unfold val. rewrite series_nth, M. destruct (Nat.ltb_spec i n); [reflexivity|lia]. Qed.
Lemma filter_seq_ext f g n : (forall i, (i < n)%nat -> f i = g i) -> filter f (seq 0 n) = filter g (seq 0 n).
Proof. intros H. apply filter_ext_in. intros i I. apply in_seq in I. apply H. lia. Qed.
Lemma missing_series n miss x : filter (is_missing (series n miss x)) (seq 0 n) = missing n miss.
Proof. apply filter_seq_ext. intros i H. apply is_missing_series, H. Qed.
Lemma present_series n miss x : filter (fun i => negb (is_missing (series n miss x) i)) (seq 0 n) = present n miss.
Proof. apply filter_seq_ext. intros i H. rewrite is_missing_series by exact H. reflexivity. Qed.
Lemma present_in n miss i : In i (present n miss) <-> (i < n)%nat /\ miss i = false.
Proof. unfold present. rewrite filter_In, in_seq, negb_true_iff. split; intros [A B]; split; try lia; assumption. Qed.
Lemma missing_in n miss i : In i (missing n miss) <-> (i < n)%nat /\ miss i = true.
Proof. unfold missing. rewrite filter_In, in_seq. split; intros [A B]; split; try lia; assumption. Qed.
Lemma counts n miss : (List.length (missing n miss) + List.length (present n miss) = n)%nat.
Proof. unfold missing, present. rewrite <- (seq_length n 0) at 3. induction (seq 0 n) as [|a l IH]; [reflexivity|]. cbn [filter List.length]. destruct (miss a); cbn [negb List.length]; lia. Qed.

(* means, deviations and covariances *)
Lemma predicted_ok r n solve sigma K U x : semidefinite r n -> (forall i j, (i < n)%nat -> (j < n)%nat -> sigma i j = r (distance i j)) -> (forall i, In i K -> (i < n)%nat) -> (forall i, In i U -> (i < n)%nat) -> predicts solve r K U ->
  let w := weights solve sigma K U in let s := left_over sigma w K U in
  exists sd, deviations s (List.length U) = Ok sd /\ predicted r n (fun i => In i K) U (fun u => spread K (fun j => w j u)) x (means w K U x) sd s.
Proof.
  intros SD SG IK IU WK w s. assert (SO : solution_of (List.length K) (List.length U) (fun i j => 2 * r (distance (nth i K 0%nat) (nth j K 0%nat))) (fun i u => 2 * r (distance (nth i K 0%nat) (nth u U 0%nat))) w).
  { assert (NK : forall j, (j < List.length K)%nat -> (nth j K 0 < n)%nat) by (intros j J; apply IK, nth_In, J). assert (NU : forall j, (j < List.length U)%nat -> (nth j U 0 < n)%nat) by (intros j J; apply IU, nth_In, J). apply WK; intros i j I J; [rewrite !SG by (apply NK; assumption); rewrite (distance_sym (nth j K 0%nat)); ring|rewrite SG by (try (apply NK; assumption); apply NU; assumption); reflexivity]. }
  destruct (conditional r n solve sigma K U SG IK IU SO) as [M [Z L]]. fold w in M, Z, L. fold s in L.
  assert (NEG : forall u, (u < List.length U)%nat -> 0 <= s u u) by (intros u Hu; rewrite L by assumption; apply SD).
  exists (map (fun u => sqrt (s u u)) (seq 0 (List.length U))). split.
  - unfold deviations. destruct (existsb _ _) eqn:E; [|reflexivity]. apply existsb_exists in E. destruct E as [u [I Q]]. apply in_seq in I. unfold neg in Q. destruct (Rlt_dec (s u u) 0) as [G|]; [|discriminate]. pose proof (NEG u ltac:(lia)). lra.
  - split; [unfold means; rewrite map_length, seq_length; reflexivity|]. split; [rewrite map_length, seq_length; reflexivity|]. intros u Hu. split; [apply optimal; [exact SD|intros i I; apply spread_out, I|intros i I1 I2; apply Z; assumption|exact IK]|]. split; [apply M, Hu|]. split; [rewrite map_seq_nth' by exact Hu; rewrite Nat.add_0_l, L by exact Hu; reflexivity|]. intros v Hv. apply L; assumption.
Qed.
Lemma means_ext w K U v v' : (forall i, In i K -> v i = v' i) -> means w K U v = means w K U v'.
Proof. intros H. unfold means. apply map_ext. intros u. f_equal. apply map_ext_in. intros j J. apply in_seq in J. rewrite H by (apply nth_In; lia). reflexivity. Qed.
Lemma get_lag_le data : (get_lag data <= List.length data)%nat.
Proof. unfold get_lag. destruct (filter _ _); [lia|apply Nat.le_min_r]. Qed.
Lemma get_acf_ok data : data <> [] -> (forall k, (k < List.length data)%nat -> nth k data 0 <= nth 0 data 0) -> get_acf data = Ok (firstn (get_lag data) data).
Proof. intros NE H. unfold get_acf. rewrite valid_argmax by assumption. reflexivity. Qed.
Lemma acf_length data : List.length (firstn (get_lag data) data) = get_lag data.
Proof. rewrite firstn_length. pose proof (get_lag_le data). lia. Qed.
Lemma last_in (l : list nat) d : l <> [] -> In (last l d) l.
Proof. induction l as [|a [|b l] IH]; intros H; [contradiction|left; reflexivity|]. right. apply IH. discriminate. Qed.
Lemma get_lag_pos data : 0 < nth 0 data 0 -> (0 < get_lag data)%nat.
Proof. intros H. unfold get_lag. assert (L : (0 < List.length data)%nat) by (destruct data; [cbn in H; lra|cbn; lia]). destruct (filter _ _) as [|k ks]; [exact L|]. apply Nat.min_glb_lt; lia. Qed.
(* beyond the lag the autocovariances are insignificant *)
Lemma seq_filter_last f n k : (k < n)%nat -> f k = true -> (k <= last (filter f (seq 0 n)) 0)%nat.
Proof.
  induction n as [|n IH]; intros K F; [lia|]. rewrite seq_S, filter_app. cbn [filter Nat.add]. destruct (f n) eqn:E; [rewrite last_last; lia|]. rewrite app_nil_r. apply IH; [|exact F]. destruct (Nat.eq_dec k n); [subst; congruence|lia].
Qed.
Lemma lag_small data k : let n := List.length data in (get_lag data <= k)%nat -> (k < n)%nat -> (2 <= k)%nat ->
  Rabs (nth k data 0) <= 1 / 10 * sqrt ((nth 0 data 0 ^ 2 + 2 * sum_to (k - 1) (fun i => nth (S i) data 0 ^ 2)) / INR n).
Proof.
  intros n GK KN K2. unfold get_lag in GK. fold n in GK. set (f := fun k => gtR _ _) in GK. destruct (f k) eqn:E.
  - exfalso. pose proof (seq_filter_last f n k KN E) as Q. assert (I : In k (filter f (seq 0 n))) by (apply filter_In; split; [apply in_seq; lia|exact E]). destruct (filter f (seq 0 n)) as [|a l]; [destruct I|]. pose proof (Nat.min_spec (last (a :: l) 0%nat + 3) n). lia.
  - unfold f, gtR in E. destruct (Rlt_dec _ _) as [|G] in E; [discriminate|]. apply Rnot_lt_le in G. eapply Rle_trans; [exact G|]. apply Req_le. f_equal. destruct k as [|[|k]]; [lia|lia|]. cbn [map nth].
    set (sq := map (fun v => v ^ 2) (firstn (n - 2) (skipn 1 data))). assert (LS : List.length sq = (n - 2)%nat) by (unfold sq; rewrite map_length, firstn_length, skipn_length; unfold n in *; lia).
    assert (NS : forall i, (i < n - 2)%nat -> nth i sq 0 = nth (S i) data 0 ^ 2). { intros i I. unfold sq. rewrite (nth_indep _ 0 (0 ^ 2)) by (rewrite map_length, firstn_length, skipn_length; unfold n in *; lia). rewrite (map_nth (fun v => v ^ 2)). f_equal. rewrite nth_firstn_lt by exact I. destruct data; [destruct i; reflexivity|reflexivity]. }
    unfold cumsum. rewrite LS. rewrite !map_map. rewrite (nth_indep _ 0 (sqrt ((nth 0 data 0 ^ 2 + 2 * total (firstn 1 sq)) / INR n))) by (rewrite map_length, seq_length; lia). rewrite (map_nth (fun x => sqrt ((nth 0 data 0 ^ 2 + 2 * total (firstn (S x) sq)) / INR n)) (seq 0 (n - 2)) 0%nat k). rewrite seq_nth by lia. rewrite Nat.add_0_l. do 5 f_equal. replace (S (S k) - 1)%nat with (S k) by lia.
    assert (FS : forall m, (m <= n - 2)%nat -> total (firstn m sq) = sum_to m (fun i => nth (S i) data 0 ^ 2)). { induction m as [|m IH]; intros M; [reflexivity|]. cbn [sum_to]. rewrite <- IH by lia. rewrite <- NS by lia. clear - M LS. revert m M LS. generalize (n - 2)%nat. induction sq as [|a sq IH]; intros p m M L; [cbn in L; lia|]. cbn [List.length] in L. destruct m as [|m]; [cbn; ring|]. destruct p as [|p]; [lia|]. change (a + total (firstn (S m) sq) = a + total (firstn m sq) + nth m sq 0). rewrite (IH p) by lia. ring. }
    apply FS. lia.
Qed.

Lemma toeplitz_cut data m n i j : (m <= List.length data)%nat -> toeplitz (firstn m data ++ repeat 0 (n - m)) i j = cut m data (distance i j).
Proof. intros H. unfold toeplitz. fold (distance i j). apply cut_list, H. Qed.
Lemma upd0_cut data m n f : (0 < m)%nat -> (m <= List.length data)%nat -> forall k, nth k (upd (firstn m data) 0 (nth 0 (firstn m data) 0 * f) ++ repeat 0 (n - m)) 0 = raised f (cut m data) k.
Proof.
  intros M L k. destruct data as [|a data]; [cbn in L; lia|]. destruct m as [|m]; [lia|]. unfold upd. cbn [firstn skipn nth app]. destruct k as [|k]; [cbn; ring|]. cbn [raised nth]. rewrite <- (cut_list (a :: data) (S m) n (S k)) by exact L. reflexivity.
Qed.
Lemma missing_length n miss : (exists i, (i < n)%nat /\ miss i = true) -> (List.length (missing n miss) <> 0)%nat.
Proof. intros [i [A B]] E. apply length_zero_iff_nil in E. assert (I : In i (missing n miss)) by (apply missing_in; split; assumption). rewrite E in I. destruct I. Qed.
Lemma present_length n miss : (exists i, (i < n)%nat /\ miss i = false) -> (List.length (missing n miss) <> n)%nat.
Proof. intros [i [A B]] E. pose proof (counts n miss) as C. assert (E' : List.length (present n miss) = 0%nat) by lia. apply length_zero_iff_nil in E'. assert (I : In i (present n miss)) by (apply present_in; split; assumption). rewrite E' in I. destruct I. Qed.
(* the exact method *)
Lemma exact_dense solve draw simall data n miss : let lag := get_lag data in let r := cut lag data in
  (forall k, (k < List.length data)%nat -> nth k data 0 <= nth 0 data 0) -> data <> [] -> (lag <= n)%nat -> (3 * n < 10 * lag)%nat -> (exists i, (i < n)%nat /\ miss i = true) -> (exists i, (i < n)%nat /\ miss i = false) ->
  semidefinite r n -> predicts solve r (present n miss) (missing n miss) ->
  exists P, forall x, exists mu sd C, predicted r n (fun i => In i (present n miss)) (missing n miss) P x mu sd C /\
  simcond solve draw simall data (series n miss x) Exact None = Outcome (Ok (draw mu C, mu, sd)) data (series n miss x).
Proof.
  intros lag r MX NE LN DN EM EP SD PR. set (K := present n miss) in *. set (U := missing n miss) in *. set (c := firstn lag data ++ repeat 0 (n - lag)). exists (fun u => spread K (fun j => weights solve (toeplitz c) K U j u)). intros x. assert (LL : (lag <= List.length data)%nat) by apply get_lag_le.
  destruct (predicted_ok r n solve (toeplitz c) K U x SD) as [sd [D PD]]; [intros i j _ _; apply toeplitz_cut, LL|intros i I; apply present_in in I; tauto|intros i I; apply missing_in in I; tauto|exact PR|].
  do 3 eexists. split; [exact PD|]. unfold simcond. rewrite get_acf_ok by assumption. rewrite series_length, acf_length. fold lag. cbv zeta. rewrite missing_series, present_series. fold K U.
  destruct (Nat.eqb_spec (List.length U) 0) as [E|_]; [exfalso; exact (missing_length n miss EM E)|]. destruct (Nat.eqb_spec (List.length U) n) as [E|_]; [exfalso; exact (present_length n miss EP E)|].
  destruct (Nat.ltb_spec (3 * n) (10 * lag)); [|lia]. destruct (Nat.ltb_spec n lag); [lia|]. fold c. rewrite D. cbn [bind]. rewrite (means_ext _ K U (val (series n miss x)) x) by (intros i I; apply present_in in I; destruct I; apply val_series; assumption). reflexivity.
Qed.
Lemma exact_sparse solve draw simall data n miss : let lag := get_lag data in let f := 100001 / 100000 in let r := raised f (cut lag data) in
  (forall k, (k < List.length data)%nat -> nth k data 0 <= nth 0 data 0) -> 0 < nth 0 data 0 -> (10 * lag <= 3 * n)%nat -> (2 <= List.length (missing n miss))%nat -> (exists i, (i < n)%nat /\ miss i = false) ->
  semidefinite r n -> predicts solve r (present n miss) (missing n miss) ->
  exists P, forall x, exists mu sd C, predicted r n (fun i => In i (present n miss)) (missing n miss) P x mu sd C /\
  simcond solve draw simall data (series n miss x) Exact None = Outcome (Ok (draw mu C, mu, sd)) (upd data 0 (nth 0 data 0 * f)) (series n miss x).
Proof.
  intros lag f r MX P0 LN EM EP SD PR. assert (NE : data <> []) by (intros ->; cbn in P0; lra). set (K := present n miss) in *. set (U := missing n miss) in *. assert (LL : (lag <= List.length data)%nat) by apply get_lag_le. pose proof (get_lag_pos data P0) as LP. fold lag in LP. set (c := upd (firstn lag data) 0 (nth 0 (firstn lag data) 0 * f) ++ repeat 0 (n - lag)).
  assert (NC : forall k, nth k c 0 = raised f (cut lag data) k) by (apply upd0_cut; assumption). assert (C0 : nth 0 c 0 <> 0) by (rewrite NC; cbn [raised]; unfold cut; destruct (Nat.ltb_spec 0 lag); [unfold f; lra|lia]).
  destruct (sptoeplitz_spec c C0) as [sigma [ES SP]]. exists (fun u => spread K (fun j => weights solve sigma K U j u)). intros x.
  destruct (predicted_ok r n solve sigma K U x SD) as [sd [D PD]]; [intros i j _ _; rewrite SP; apply NC|intros i I; apply present_in in I; tauto|intros i I; apply missing_in in I; tauto|exact PR|].
  do 3 eexists. split; [exact PD|]. unfold simcond. rewrite get_acf_ok by assumption. rewrite series_length, acf_length. fold lag. cbv zeta. rewrite missing_series, present_series. fold K U.
  destruct (Nat.eqb_spec (List.length U) 0) as [E|_]; [lia|]. destruct (Nat.eqb_spec (List.length U) n) as [E|_]; [exfalso; exact (present_length n miss EP E)|].
  destruct (Nat.ltb_spec (3 * n) (10 * lag)); [lia|]. destruct (Nat.ltb_spec n lag); [lia|]. fold f. fold c. rewrite ES, D. cbn [bind]. rewrite (means_ext _ K U (val (series n miss x)) x) by (intros i I; apply present_in in I; destruct I; apply val_series; assumption). reflexivity.
Qed.
