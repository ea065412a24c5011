(* Prediction of missing values: the approximate method, errors, and what happens to the arguments. *)
From Coq Require Import Reals List ZArith Lra Lia Bool.
From Verif Require Import Base PolyModel SpectModel SpectProofs7 ArSpec ArProofs2 CsimModel CsimProofs CsimProofs3 ScondModel ScondSpec ScondProofs ScondProofs2.
Import ListNotations.
Local Open Scope R_scope.

Lemma first_missing n miss u : (u < n)%nat -> miss u = true -> (forall i, (i < u)%nat -> miss i = false) -> nth 0 (missing n miss) 0%nat = u.
Proof.
  intros U M F. unfold missing. replace n with (u + S (n - S u))%nat by lia. rewrite seq_app, filter_app. rewrite Nat.add_0_l. cbn [seq]. replace (filter miss (seq 0 u)) with (@nil nat); [cbn [app filter]; rewrite M; reflexivity|]. symmetry.
  assert (G : forall l, (forall i, In i l -> miss i = false) -> filter miss l = []) by (intros l; induction l as [|a l IH]; intros H; [reflexivity|]; cbn [filter]; rewrite H by (left; reflexivity); apply IH; intros i I; apply H; right; exact I). apply G. intros i I. apply in_seq in I. apply F. lia.
Qed.
Lemma least_missing n miss : (exists i, (i < n)%nat /\ miss i = true) -> exists u, (u < n)%nat /\ miss u = true /\ forall i, (i < u)%nat -> miss i = false.
Proof.
  intros [i [A B]]. induction i as [i IH] using (well_founded_induction lt_wf). destruct (existsb miss (seq 0 i)) eqn:E.
  - apply existsb_exists in E. destruct E as [j [J M]]. apply in_seq in J. apply (IH j); [lia|lia|exact M].
  - exists i. split; [exact A|]. split; [exact B|]. intros j J. destruct (miss j) eqn:Q; [|reflexivity]. assert (existsb miss (seq 0 i) = true) by (apply existsb_exists; exists j; split; [apply in_seq; lia|exact Q]). congruence.
Qed.
(* if the window reaches the end of the series, the approximate method is the exact method for the window *)
Lemma approx_window solve draw simall data n miss x : let lag := get_lag data in let k := Nat.min (2 * lag) n in let start := (n - k)%nat in
  (forall k, (k < List.length data)%nat -> nth k data 0 <= nth 0 data 0) -> 0 < nth 0 data 0 -> (lag <= n)%nat -> (exists i, (i < n)%nat /\ miss i = true) -> (exists i, (start <= i < n)%nat /\ miss i = false) ->
  (forall i, (i < n)%nat -> miss i = true -> start = 0%nat \/ (start + k / 4 <= i)%nat) ->
  simcond solve draw simall data (series n miss x) Approx None = Outcome (ret (simcond solve draw simall data (series k (fun t => miss (start + t)%nat) (fun t => x (start + t)%nat)) Exact None)) data (series n miss x).
Proof.
  intros lag k start MX P0 LN EM EP FAR. assert (NE : data <> []) by (intros ->; cbn in P0; lra). pose proof (get_lag_pos data P0) as LP. fold lag in LP. destruct (least_missing n miss EM) as [u [UN [UM UF]]]. pose proof (first_missing n miss u UN UM UF) as U0. pose proof (FAR u UN UM) as FU. assert (KN : (k <= n)%nat) by apply Nat.le_min_r. assert (KL : (lag <= k)%nat) by (unfold k; lia). assert (K4 : (k / 4 < k)%nat) by (apply Nat.div_lt; lia).
  assert (US : (start <= u)%nat) by (destruct FU; lia).
  assert (ST : Nat.min (u - k / 4) (n - k) = start) by (fold start; destruct FU as [Q|Q]; [rewrite Q; lia|lia]).
  unfold simcond. rewrite get_acf_ok by assumption. rewrite !series_length, acf_length. fold lag. cbv zeta. rewrite ?missing_series, ?present_series. fold k. rewrite U0, ST.
  destruct (Nat.eqb_spec (List.length (missing n miss)) 0) as [E|_]; [exfalso; exact (missing_length n miss EM E)|]. destruct (Nat.eqb_spec (List.length (missing n miss)) n) as [E|_]; [exfalso; refine (present_length n miss _ E); destruct EP as [i [A B]]; exists i; split; [lia|exact B]|].
  set (miss' := fun t => miss (start + t)%nat) in *. set (x' := fun t => x (start + t)%nat).
  destruct (Nat.eqb_spec (List.length (missing k miss')) 0) as [E|_]. { exfalso. refine (missing_length k miss' _ E). exists (u - start)%nat. split; [unfold start; lia|]. unfold miss'. replace (start + (u - start))%nat with u by lia. exact UM. }
  destruct (Nat.eqb_spec (List.length (missing k miss')) k) as [E|_]. { exfalso. refine (present_length k miss' _ E). destruct EP as [i [A B]]. exists (i - start)%nat. split; [unfold start in *; lia|]. unfold miss'. replace (start + (i - start))%nat with i by lia. exact B. }
  destruct (Nat.ltb_spec k lag); [lia|]. destruct (Nat.ltb_spec (3 * k) (10 * lag)); [|unfold k in *; lia].
  rewrite (filter_seq_ext (fun t => is_missing (series n miss x) (start + t)) miss' k) by (intros t T; cbv beta; rewrite is_missing_series by (unfold start; lia); reflexivity).
  rewrite (filter_seq_ext (fun t => negb (is_missing (series n miss x) (start + t))) (fun t => negb (miss' t)) k) by (intros t T; rewrite is_missing_series by (unfold start; lia); reflexivity). fold (missing k miss'). fold (present k miss').
  rewrite (means_ext _ (present k miss') (missing k miss') (fun t => val (series n miss x) (start + t)) x') by (intros t I; apply present_in in I; destruct I as [A B]; cbv beta; rewrite val_series; [reflexivity|unfold start; lia|exact B]).
  rewrite (means_ext _ (present k miss') (missing k miss') (val (series k miss' x')) x') by (intros t I; apply present_in in I; destruct I as [A B]; apply val_series; assumption). cbn [ret].
  destruct (Nat.eqb_spec (start + k) n) as [_|Q]; [|unfold start in Q; lia]. destruct (deviations _ _); reflexivity.
Qed.
(* otherwise it fails *)
Lemma approx_fails solve draw simall data n miss x : let lag := get_lag data in let k := Nat.min (2 * lag) n in
  (forall k, (k < List.length data)%nat -> nth k data 0 <= nth 0 data 0) -> data <> [] -> (lag <= n)%nat -> (exists i, (i < n - k + k / 4)%nat /\ (i < n)%nat /\ miss i = true) -> (exists i, (i < n)%nat /\ miss i = false) -> (k < n)%nat ->
  let r := ret (simcond solve draw simall data (series n miss x) Approx None) in r = Err ValueError \/ r = Err TypeError.
Proof.
  intros lag k MX NE LN EM EP KN r. assert (EM' : exists i, (i < n)%nat /\ miss i = true) by (destruct EM as [i [_ Q]]; exists i; exact Q). destruct (least_missing n miss EM') as [u [UN [UM UF]]]. pose proof (first_missing n miss u UN UM UF) as U0. assert (UK : (u < n - k + k / 4)%nat) by (destruct EM as [i [A [B C]]]; destruct (Nat.lt_ge_cases i u) as [G|G]; [rewrite UF in C by exact G; discriminate|lia]).
  unfold r, simcond. rewrite get_acf_ok by assumption. rewrite !series_length, acf_length. fold lag. cbv zeta. rewrite ?missing_series, ?present_series. fold k. rewrite U0.
  destruct (Nat.eqb_spec (List.length (missing n miss)) 0) as [E|_]; [exfalso; exact (missing_length n miss EM' E)|]. destruct (Nat.eqb_spec (List.length (missing n miss)) n) as [E|_]; [exfalso; exact (present_length n miss EP E)|].
  destruct (Nat.ltb_spec k lag); [left; reflexivity|]. unfold deviations. destruct (existsb _ _); [left; reflexivity|]. destruct (Nat.eqb_spec (Nat.min (u - k / 4) (n - k) + k) n) as [Q|_]; [lia|]. right. reflexivity.
Qed.
(* too short a series *)
Lemma too_short solve draw simall data n miss x m : (forall k, (k < List.length data)%nat -> nth k data 0 <= nth 0 data 0) -> data <> [] -> (n < get_lag data)%nat -> (exists i, (i < n)%nat /\ miss i = true) -> (exists i, (i < n)%nat /\ miss i = false) -> m = Exact \/ m = Approx ->
  ret (simcond solve draw simall data (series n miss x) m None) = Err ValueError.
Proof.
  intros MX NE LN EM EP MM. unfold simcond. rewrite get_acf_ok by assumption. rewrite !series_length, ?acf_length. cbv zeta. rewrite ?missing_series, ?present_series.
  destruct (Nat.eqb_spec (List.length (missing n miss)) 0) as [E|_]; [exfalso; exact (missing_length n miss EM E)|]. destruct (Nat.eqb_spec (List.length (missing n miss)) n) as [E|_]; [exfalso; exact (present_length n miss EP E)|].
  destruct MM as [-> | ->]; [destruct (Nat.ltb_spec n (get_lag data)); [reflexivity|lia]|]. destruct (Nat.ltb_spec (Nat.min (2 * get_lag data) n) (get_lag data)); [reflexivity|lia].
Qed.
Lemma not_valid solve draw simall data x m iu k : (k < List.length data)%nat -> nth 0 data 0 < nth k data 0 -> simcond solve draw simall data x m iu = Outcome (Err ValueError) data x.
Proof. intros L H. unfold simcond, get_acf. rewrite (invalid_argmax data k L H). reflexivity. Qed.
Lemma none_missing solve draw simall data n x m : (forall k, (k < List.length data)%nat -> nth k data 0 <= nth 0 data 0) -> data <> [] -> simcond solve draw simall data (series n (fun _ => false) x) m None = Outcome (Ok ([], [], [])) data (series n (fun _ => false) x).
Proof.
  intros MX NE. unfold simcond. rewrite get_acf_ok by assumption. rewrite !series_length, ?acf_length. cbv zeta. rewrite ?missing_series, ?present_series. replace (missing n (fun _ => false)) with (@nil nat); [reflexivity|]. symmetry. unfold missing. induction (seq 0 n) as [|a l IH]; [reflexivity|exact IH].
Qed.
Lemma firstn_nth0 (l : list R) m : (0 < m)%nat -> nth 0 (firstn m l) 0 = nth 0 l 0. Proof. intros H. apply nth_firstn_lt, H. Qed.
Lemma all_missing solve draw simall data n x m s : (forall k, (k < List.length data)%nat -> nth k data 0 <= nth 0 data 0) -> 0 < nth 0 data 0 -> (0 < n)%nat -> simall n = Ok s ->
  simcond solve draw simall data (series n (fun _ => true) x) m None = Outcome (Ok (s, repeat 0 n, repeat (sqrt (nth 0 data 0)) n)) data (series n (fun _ => true) x).
Proof.
  intros MX P0 N S. assert (NE : data <> []) by (intros ->; cbn in P0; lra). unfold simcond. rewrite get_acf_ok by assumption. rewrite !series_length, ?acf_length. cbv zeta. rewrite ?missing_series, ?present_series. replace (List.length (missing n (fun _ => true))) with n. 2: { unfold missing. rewrite <- (seq_length n 0) at 1. induction (seq 0 n) as [|a l IH]; [reflexivity|]. cbn. rewrite IH at 1. reflexivity. }
  destruct (Nat.eqb_spec n 0); [lia|]. rewrite Nat.eqb_refl, S. cbn [bind]. rewrite firstn_nth0 by (apply get_lag_pos, P0). reflexivity.
Qed.
Lemma other_method solve draw simall data n miss x : (forall k, (k < List.length data)%nat -> nth k data 0 <= nth 0 data 0) -> data <> [] -> (exists i, (i < n)%nat /\ miss i = true) -> (exists i, (i < n)%nat /\ miss i = false) ->
  let z := repeat 0 (List.length (missing n miss)) in simcond solve draw simall data (series n miss x) Other None = Outcome (Ok (z, z, z)) data (series n miss x).
Proof.
  intros MX NE EM EP z. unfold simcond. rewrite get_acf_ok by assumption. rewrite !series_length, ?acf_length. cbv zeta. rewrite ?missing_series, ?present_series.
  destruct (Nat.eqb_spec (List.length (missing n miss)) 0) as [E|_]; [exfalso; exact (missing_length n miss EM E)|]. destruct (Nat.eqb_spec (List.length (missing n miss)) n) as [E|_]; [exfalso; exact (present_length n miss EP E)|]. reflexivity.
Qed.
(* places given by the user *)
Lemma marked solve draw simall data n miss x m l : (forall i, In i l -> (i < n)%nat) -> (forall k, (k < List.length data)%nat -> nth k data 0 <= nth 0 data 0) -> data <> [] ->
  simcond solve draw simall data (series n miss x) m (Some l) = simcond solve draw simall data (series n (fun i => miss i || existsb (Nat.eqb i) l) x) m None.
Proof.
  intros IL MX NE. assert (E : mark (series n miss x) l = series n (fun i => miss i || existsb (Nat.eqb i) l) x). { unfold mark. rewrite series_length. unfold series at 2. apply map_ext_in. intros i I. apply in_seq in I. rewrite series_nth. destruct (Nat.ltb_spec i n); [|lia]. destruct (miss i); destruct (existsb (Nat.eqb i) l); reflexivity. }
  unfold simcond. rewrite get_acf_ok by assumption. rewrite E, !series_length. destruct (existsb (fun i => (n <=? i)%nat) l) eqn:Q; [|reflexivity]. apply existsb_exists in Q. destruct Q as [i [A B]]. apply IL in A. apply Nat.leb_le in B. lia.
Qed.
Lemma short_lag data : (List.length data <= 3)%nat -> get_lag data = List.length data.
Proof. intros H. unfold get_lag. destruct (filter _ _) as [|k ks]; [reflexivity|]. apply Nat.min_r. lia. Qed.

(* cases *)
Definition two : list R := [2; 1].
Lemma two_max : forall k, (k < List.length two)%nat -> nth k two 0 <= nth 0 two 0. Proof. intros [|[|k]] K; cbn in *; try lra; lia. Qed.
Lemma two_lag : get_lag two = 2%nat. Proof. apply (short_lag two). cbn. lia. Qed.
Definition quotient : solver := fun p q A B j u => B 0%nat u / A 0%nat 0%nat.
(* one of two values is missing *)
Lemma two_cut k : cut (get_lag two) two k = nth k two 0.
Proof. rewrite two_lag. unfold cut. destruct k as [|[|k]]; [reflexivity|reflexivity|]. cbn. destruct k; reflexivity. Qed.
Lemma two_case : let miss i := (i =? 1)%nat in semidefinite (cut (get_lag two) two) 2 /\ predicts quotient (cut (get_lag two) two) (present 2 miss) (missing 2 miss) /\
  forall simall a, simcond quotient (fun mu _ => mu) simall two [Some a; None] Exact None = Outcome (Ok ([a / 2], [a / 2], [sqrt (3 / 2)])) two [Some a; None].
Proof.
  intros miss. split; [|split].
  - intros v. unfold cov. cbn [sum_to]. rewrite !two_cut. cbn. nra.
  - unfold predicts. change (present 2 miss) with [0%nat]. change (missing 2 miss) with [1%nat]. intros A B HA HB i u I U. cbn [List.length] in *. assert (i = 0%nat) by lia. assert (u = 0%nat) by lia. subst. unfold quotient. cbn [sum_to]. rewrite (HA 0%nat 0%nat), (HB 0%nat 0%nat) by lia. rewrite !two_cut. cbn. field.
  - intros simall a. unfold simcond. rewrite get_acf_ok by (exact two_max || discriminate). rewrite two_lag. unfold weights, means, left_over, deviations, quotient, toeplitz, neg, total, val, is_missing. cbn. replace (2 * 1 / (2 + 2)) with (1 / 2) by field. destruct (Rlt_dec _ 0) as [G|G]; [lra|]. cbn. replace (1 / 2 * a + 0) with (a / 2) by field. replace (2 - (1 / 2 * 1 + 0)) with (3 / 2) by field. reflexivity.
Qed.
(* white noise *)
Definition zero : solver := fun _ _ _ _ _ _ => 0.
Definition first (i : nat) : bool := (i =? 0)%nat.
Lemma one_max : forall k, (k < List.length [1])%nat -> nth k [1] 0 <= nth 0 [1] 0. Proof. intros [|k] K; cbn in *; try lra; lia. Qed.
Lemma one_lag : get_lag [1] = 1%nat. Proof. apply (short_lag [1]). cbn. lia. Qed.
Lemma one_cut k : cut (get_lag [1]) [1] k = if (k =? 0)%nat then 1 else 0.
Proof. rewrite one_lag. unfold cut. destruct k; reflexivity. Qed.
Lemma sum_diag n v : sum_to n (fun i => sum_to n (fun j => v i * v j * (if (distance i j =? 0)%nat then 1 else 0))) = sum_to n (fun i => v i * v i).
Proof. apply sum_ext. intros i I. rewrite (sum_pick n i); [|exact I|]. - unfold distance. rewrite Nat.sub_diag. cbn. ring. - intros j _ NE. unfold distance. destruct (Nat.eqb_spec (i - j + (j - i)) 0); [lia|ring]. Qed.
Lemma one_semidefinite n : semidefinite (cut (get_lag [1]) [1]) n.
Proof. intros v. unfold cov. rewrite (sum_ext _ _ (fun i => sum_to n (fun j => v i * v j * (if (distance i j =? 0)%nat then 1 else 0)))) by (intros i _; apply sum_ext; intros j _; rewrite one_cut; reflexivity). rewrite sum_diag. apply sum_nonneg. intros m _. nra. Qed.
Lemma zero_predicts r n miss : (forall k, (0 < k)%nat -> r k = 0) -> predicts zero r (present n miss) (missing n miss).
Proof.
  intros Z A B HA HB i u I U. unfold zero. rewrite (sum_ext _ _ (fun _ => 0)) by (intros; ring). rewrite sum_0. rewrite Z; [ring|]. pose proof (nth_In _ 0%nat I) as P. pose proof (nth_In _ 0%nat U) as Q. apply present_in in P. apply missing_in in Q. unfold distance. destruct (Nat.eq_dec (nth i (present n miss) 0%nat) (nth u (missing n miss) 0%nat)) as [E|]; [|lia]. rewrite E in P. destruct P as [_ P]. destruct Q as [_ Q]. congruence.
Qed.
Lemma default_fails : ~ (forall solve draw simall data n miss x, (forall k, (k < List.length data)%nat -> nth k data 0 <= nth 0 data 0) -> 0 < nth 0 data 0 -> (get_lag data <= n)%nat -> (exists i, (i < n)%nat /\ miss i = true) -> (exists i, (i < n)%nat /\ miss i = false) ->
  semidefinite (cut (get_lag data) data) n -> predicts solve (cut (get_lag data) data) (present n miss) (missing n miss) -> exists r, ret (simcond solve draw simall data (series n miss x) Approx None) = Ok r).
Proof.
  intros H. destruct (H zero (fun mu _ => mu) (fun _ => Ok []) [1] 3%nat first (fun _ => 0) one_max ltac:(cbn; lra) ltac:(rewrite one_lag; lia) ltac:(exists 0%nat; split; [lia|reflexivity]) ltac:(exists 1%nat; split; [lia|reflexivity]) (one_semidefinite 3)) as [r E]; [apply zero_predicts; intros k K; rewrite one_cut; destruct k; [lia|reflexivity]|].
  destruct (approx_fails zero (fun mu _ => mu) (fun _ => Ok []) [1] 3%nat first (fun _ => 0) one_max) as [Q|Q]; [discriminate|rewrite one_lag; lia|exists 0%nat; rewrite one_lag; cbn; split; [lia|split; [lia|reflexivity]]|exists 1%nat; split; [lia|reflexivity]|rewrite one_lag; cbn; lia|congruence|congruence].
Qed.
(* ... and leaves its sample in the series of the user *)
Lemma overwrites : ~ (forall solve draw simall data x m, (forall k, (k < List.length data)%nat -> nth k data 0 <= nth 0 data 0) -> 0 < nth 0 data 0 -> x_after (simcond solve draw simall data x m None) = x).
Proof.
  intros H. specialize (H zero (fun mu _ => mu) (fun _ => Ok []) [1] [None; Some 1; Some 1] Approx one_max ltac:(cbn; lra)). unfold simcond in H. rewrite get_acf_ok in H by (exact one_max || discriminate). rewrite one_lag in H. unfold weights, means, left_over, deviations, zero, toeplitz, neg, total, val, is_missing in H. cbn in H. destruct (Rlt_dec _ 0) as [G|G] in H; [lra|]. discriminate.
Qed.
Lemma marks_input : ~ (forall solve draw simall data x m l, (forall k, (k < List.length data)%nat -> nth k data 0 <= nth 0 data 0) -> 0 < nth 0 data 0 -> x_after (simcond solve draw simall data x m (Some l)) = x).
Proof.
  intros H. specialize (H zero (fun mu _ => mu) (fun _ => Ok []) [1] [Some 0; Some 1] Other [0%nat] one_max ltac:(cbn; lra)). unfold simcond in H. rewrite get_acf_ok in H by (exact one_max || discriminate). cbn in H. discriminate.
Qed.
(* the exact method changes the autocovariance function *)
Lemma changes_data : ~ (forall solve draw simall data x m iu, (forall k, (k < List.length data)%nat -> nth k data 0 <= nth 0 data 0) -> 0 < nth 0 data 0 -> data_after (simcond solve draw simall data x m iu) = data).
Proof.
  intros H. assert (EP : exists i, (i < 4)%nat /\ (i <? 2)%nat = false) by (exists 2%nat; split; [lia|reflexivity]).
  assert (SD : semidefinite (raised (100001 / 100000) (cut (get_lag [1]) [1])) 4). { intros v. unfold cov. rewrite (sum_ext _ _ (fun i => (100001 / 100000) * sum_to 4 (fun j => v i * v j * (if (distance i j =? 0)%nat then 1 else 0)))). 2: { intros i _. rewrite <- sum_scal. apply sum_ext. intros j _. destruct (distance i j) as [|k] eqn:E; cbn [raised Nat.eqb]; rewrite one_cut; cbn [Nat.eqb]; ring. } rewrite sum_scal, sum_diag. apply Rmult_le_pos; [lra|]. apply sum_nonneg. intros m _. nra. }
  destruct (exact_sparse zero (fun mu _ => mu) (fun _ => Ok []) [1] 4 (fun i => (i <? 2)%nat) one_max ltac:(cbn; lra) ltac:(rewrite one_lag; lia) ltac:(cbn; lia) EP SD) as [P Q]; [apply zero_predicts; intros k K; destruct k; [lia|]; cbn [raised]; rewrite one_cut; reflexivity|].
  destruct (Q (fun _ => 0)) as [mu [sd [C [_ E]]]]. specialize (H zero (fun mu _ => mu) (fun _ => Ok []) [1] (series 4 (fun i => (i <? 2)%nat) (fun _ => 0)) Exact None one_max ltac:(cbn; lra)). rewrite E in H. cbn in H. injection H as H. lra.
Qed.
