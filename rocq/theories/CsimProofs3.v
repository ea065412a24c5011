(* Simulation by circulant embedding: the theorems. *)
From Coq Require Import Reals List ZArith Lra Lia Bool.
From Coquelicot Require Import Complex.
From Verif Require Import Base PolyModel KdeModel SpectModel SpectProofs7 DftModel DftProofs CovModel ArSpec ArProofs2 CsimModel CsimSpec CsimProofs CsimProofs2.
Import ListNotations.
Local Open Scope R_scope.

Lemma valid_argmax data : data <> [] -> (forall k, (k < List.length data)%nat -> nth k data 0 <= nth 0 data 0) -> is_valid_acf data = Ok tt.
Proof.
  intros NE H. destruct (argmaxR_spec data NE) as [L [_ F]]. unfold is_valid_acf. destruct data as [|a data]; [contradiction|]. set (p := argmaxR (a :: data)) in *. destruct (Nat.eqb_spec p 0) as [|N]; [reflexivity|]. pose proof (F 0%nat ltac:(lia)) as Q. pose proof (H p L). unfold at_R in Q. lra.
Qed.
Lemma invalid_argmax data k : (k < List.length data)%nat -> nth 0 data 0 < nth k data 0 -> is_valid_acf data = Err ValueError.
Proof.
  intros L H. assert (NE : data <> []) by (intros ->; cbn in L; lia). destruct (argmaxR_spec data NE) as [_ [M _]]. unfold is_valid_acf. destruct data as [|a data]; [reflexivity|]. set (p := argmaxR (a :: data)) in *. destruct (Nat.eqb_spec p 0) as [E|]; [|reflexivity]. pose proof (M k L) as Q. rewrite E in Q. unfold at_R in Q. lra.
Qed.
Definition cases2 (cases : nat) : nat := ((cases + 1) / 2)%nat.
Lemma cases_split cases : (cases2 cases + cases / 2 = cases)%nat /\ (cases / 2 <= cases2 cases)%nat.
Proof. unfold cases2. pose proof (Nat.div_mod cases 2 ltac:(lia)). pose proof (Nat.div_mod (cases + 1) 2 ltac:(lia)). pose proof (Nat.mod_upper_bound cases 2 ltac:(lia)). pose proof (Nat.mod_upper_bound (cases + 1) 2 ltac:(lia)). lia. Qed.
Lemma map_seq_nth' {A} (f : nat -> A) a n k d : (k < n)%nat -> nth k (map f (seq a n)) d = f (a + k)%nat.
Proof. intros H. rewrite nth_indep with (d' := f 0%nat) by (rewrite map_length, seq_length; exact H). rewrite map_nth, seq_nth by exact H. reflexivity. Qed.
(* the columns are linear forms *)
Definition weight (N : nat) (s : list R) (m : nat) : R := sqrt (nth m s 0 / INR N).
Definition index (cases a : nat) : nat := if (a <? cases2 cases)%nat then a else (a - cases2 cases)%nat.
Definition coefF (N : nat) (s : list R) (cases a p m : nat) : R := if (a <? cases2 cases)%nat then weight N s m * cos (ang N m (2 + p)) else - (weight N s m * sin (ang N m (2 + p))).
Definition coefG (N : nat) (s : list R) (cases a p m : nat) : R := if (a <? cases2 cases)%nat then weight N s m * sin (ang N m (2 + p)) else weight N s m * cos (ang N m (2 + p)).
Lemma columns_form N s ns cases d : (ns <= N - 2)%nat -> exists x, columns N s ns cases d = Ok x /\ List.length x = cases /\ (forall a, (a < cases)%nat -> List.length (nth a x []) = ns) /\
  forall a p, (a < cases)%nat -> (p < ns)%nat -> nth p (nth a x []) 0 = form N (index cases a) (coefF N s cases a p) (coefG N s cases a p) d.
Proof.
  intros H. destruct (cases_split cases) as [CS CL]. unfold columns. fold (cases2 cases). destruct (Nat.leb_spec ns (N - 2)); [|lia]. eexists. split; [reflexivity|]. split; [rewrite app_length, !map_length, !seq_length; exact CS|].
  assert (NA : forall a, (a < cases)%nat -> forall (f g : nat -> list R), nth a (map f (seq 0 (cases2 cases)) ++ map g (seq 0 (cases / 2))) [] = if (a <? cases2 cases)%nat then f a else g (a - cases2 cases)%nat).
  { intros a A f g. destruct (Nat.ltb_spec a (cases2 cases)) as [G|G]; [rewrite app_nth1 by (rewrite map_length, seq_length; exact G); rewrite map_seq_nth' by exact G; reflexivity|]. rewrite app_nth2 by (rewrite map_length, seq_length; exact G). rewrite map_length, seq_length, map_seq_nth' by lia. reflexivity. }
  split; [intros a A; rewrite NA by exact A; destruct (a <? cases2 cases)%nat; rewrite map_length, seq_length; reflexivity|].
  intros a p A P. rewrite NA by exact A. unfold index, form, coefF, coefG. destruct (a <? cases2 cases)%nat; rewrite map_seq_nth' by exact P.
  - rewrite fft_re. apply sum_ext. intros m _. cbn [fst snd]. unfold weight, at_R. ring.
  - rewrite fft_im. apply sum_ext. intros m _. cbn [fst snd]. unfold weight, at_R. ring.
Qed.
Lemma sim_form eps data args ns cases : (2 <= List.length data)%nat -> (2 <= List.length args)%nat -> (2 <= ns)%nat -> (forall k, (k < List.length data)%nat -> nth k data 0 <= nth 0 data 0) ->
  let N := fst (embed eps data ns) in let s := truncated (spectrum N (snd (embed eps data ns))) in
  forall d, exists x, sim eps data args (Some ns) cases d = Ok (linspace 0 ((INR ns - 1) * ((last args 0 - nth 0 args 0) / INR (List.length args - 1))) ns, x) /\ List.length x = cases /\ (forall a, (a < cases)%nat -> List.length (nth a x []) = ns) /\
  forall a p, (a < cases)%nat -> (p < ns)%nat -> nth p (nth a x []) 0 = form N (index cases a) (coefF N s cases a p) (coefG N s cases a p) d.
Proof.
  intros LD LA LN MX N s d. destruct (embed_nth eps data ns LD) as [B1 _]. fold N in B1. destruct (columns_form N s ns cases d ltac:(lia)) as [x [EX [LX [LC NX]]]]. exists x. split; [|split; [exact LX|split; [exact LC|exact NX]]]. unfold sim. rewrite valid_argmax by (exact MX || (intros ->; cbn in LD; lia)). cbn [bind]. destruct args as [|a0 [|a1 args]]; [cbn in LA; lia|cbn in LA; lia|]. cbn [sampling_period bind].
  destruct (embed eps data ns) as [N0 c0] eqn:EE. cbn [fst snd] in N, s. subst N. fold s. rewrite EX. cbn [bind]. reflexivity.
Qed.
Lemma value_form eps data args ns cases a p : (2 <= List.length data)%nat -> (2 <= List.length args)%nat -> (2 <= ns)%nat -> (forall k, (k < List.length data)%nat -> nth k data 0 <= nth 0 data 0) -> (a < cases)%nat -> (p < ns)%nat ->
  let N := fst (embed eps data ns) in let s := truncated (spectrum N (snd (embed eps data ns))) in
  forall d, value a p (sim eps data args (Some ns) cases d) = form N (index cases a) (coefF N s cases a p) (coefG N s cases a p) d.
Proof. intros LD LA LN MX A P N s d. destruct (sim_form eps data args ns cases LD LA LN MX d) as [x [E [_ [_ NX]]]]. rewrite E. cbn [value]. apply NX; assumption. Qed.
Lemma index_bound cases a : (a < cases)%nat -> (index cases a < cases2 cases)%nat.
Proof. intros A. destruct (cases_split cases). unfold index. destruct (Nat.ltb_spec a (cases2 cases)); lia. Qed.
Lemma cov3_ext N c V W V' W' : (forall d, V d = V' d) -> (forall d, W d = W' d) -> covariance3 N c V W = covariance3 N c V' W'.
Proof. intros A B. unfold covariance3. apply sum_ext. intros m _. apply sum_ext. intros j _. rewrite !A, !B. reflexivity. Qed.
Lemma ang_diff N m p q : (0 < N)%nat -> cos (ang N m p - ang N m q) = cos (ang N m (distance p q)) /\ (exists sg, sin (ang N m p - ang N m q) = sg * sin (ang N m (distance p q)) /\ sg = if (q <=? p)%nat then 1 else -1).
Proof.
  intros H. assert (NP : INR N <> 0) by (apply not_0_INR; lia). unfold distance. destruct (Nat.leb_spec q p) as [G|G].
  - assert (E : ang N m p - ang N m q = ang N m (p - q + (q - p))) by (replace (p - q + (q - p))%nat with (p - q)%nat by lia; unfold ang; rewrite !mult_INR, minus_INR by exact G; field; exact NP). rewrite E. split; [reflexivity|]. exists 1. split; [ring|reflexivity].
  - assert (E : ang N m p - ang N m q = - ang N m (p - q + (q - p))) by (replace (p - q + (q - p))%nat with (q - p)%nat by lia; unfold ang; rewrite !mult_INR, minus_INR by lia; field; exact NP). rewrite E, cos_neg, sin_neg. split; [reflexivity|]. exists (-1). split; [ring|reflexivity].
Qed.
(* the covariances for any symmetric, not negative spectrum *)
Lemma forms_cov N s cases a b p q : (0 < N)%nat -> List.length s = N -> sym s -> (forall m, (m < N)%nat -> 0 <= nth m s 0) -> (a < cases)%nat -> (b < cases)%nat ->
  covariance3 N (cases2 cases) (form N (index cases a) (coefF N s cases a p) (coefG N s cases a p)) (form N (index cases b) (coefF N s cases b q) (coefG N s cases b q)) =
  if (a =? b)%nat then sum_to N (fun m => nth m s 0 * cos (ang N m (distance p q))) / INR N else 0.
Proof.
  intros H LS SY PO A B. assert (NP : 0 < INR N) by (apply lt_0_INR; exact H). rewrite form_cov by (apply index_bound; assumption).
  assert (W2 : forall m, (m < N)%nat -> weight N s m * weight N s m = nth m s 0 / INR N) by (intros m Hm; unfold weight; apply sqrt_sqrt; apply Rmult_le_pos; [apply PO, Hm|left; apply Rinv_0_lt_compat, NP]).
  assert (DD : (2 + p - (2 + q) + (2 + q - (2 + p)) = distance p q)%nat) by (unfold distance; lia).
  assert (CC : forall m, (m < N)%nat -> weight N s m * weight N s m * (cos (ang N m (2 + p)) * cos (ang N m (2 + q)) + sin (ang N m (2 + p)) * sin (ang N m (2 + q))) = nth m s 0 * cos (ang N m (distance p q)) * / INR N). { intros m Hm. rewrite W2 by exact Hm. destruct (ang_diff N m (2 + p) (2 + q) H) as [E _]. rewrite cos_minus in E. rewrite E. replace (distance (2 + p) (2 + q)) with (distance p q) by (unfold distance; lia). unfold Rdiv. ring. }
  assert (SS : sum_to N (fun m => weight N s m * weight N s m * (sin (ang N m (2 + p)) * cos (ang N m (2 + q)) - cos (ang N m (2 + p)) * sin (ang N m (2 + q)))) = 0).
  { rewrite (sum_ext _ _ (fun m => ((if (2 + q <=? 2 + p)%nat then 1 else -1) * / INR N) * (nth m s 0 * sin (ang N m (distance p q))))). 2: { intros m Hm. rewrite W2 by exact Hm. destruct (ang_diff N m (2 + p) (2 + q) H) as [_ [sg [E ->]]]. rewrite sin_minus in E. rewrite E. replace (distance (2 + p) (2 + q)) with (distance p q) by (unfold distance; lia). unfold Rdiv. ring. }
    rewrite sum_scal. rewrite (sin_sum N (fun m => nth m s 0) (distance p q) H); [ring|]. intros m Hm. rewrite <- LS. apply SY. rewrite LS. exact Hm. }
  unfold index, coefF, coefG. destruct (Nat.eqb_spec a b) as [->|NE].
  - destruct (b <? cases2 cases)%nat; rewrite Nat.eqb_refl; unfold Rdiv; rewrite Rmult_comm, <- sum_scal; apply sum_ext; intros m Hm; rewrite (Rmult_comm (/ INR N)), <- CC by exact Hm; ring.
  - destruct (Nat.ltb_spec a (cases2 cases)) as [Ga|Ga]; destruct (Nat.ltb_spec b (cases2 cases)) as [Gb|Gb].
    + destruct (Nat.eqb_spec a b); [contradiction|reflexivity].
    + destruct (_ =? _)%nat; [|reflexivity]. rewrite <- SS. apply sum_ext. intros m _. ring.
    + destruct (_ =? _)%nat; [|reflexivity]. match type of SS with ?L = 0 => transitivity (-1 * L); [|rewrite SS; ring] end. rewrite <- sum_scal. apply sum_ext. intros m _. ring.
    + destruct (Nat.eqb_spec (a - cases2 cases) (b - cases2 cases)); [lia|reflexivity].
Qed.
(* what the spectrum of the embedding is *)
Lemma spectrum_facts eps data ns : (2 <= List.length data)%nat -> 0 < nth 0 data 0 -> let N := fst (embed eps data ns) in let s := spectrum N (snd (embed eps data ns)) in
  (0 < N)%nat /\ List.length s = N /\ s <> [] /\ sym s /\ 0 < nth (argmaxR s) s 0 /\ (forall m, (m < N)%nat -> nth m s 0 = eigenvalue N (target eps data) m) /\ (forall l, (l < ns)%nat -> sum_to N (fun m => nth m s 0 * cos (ang N m l)) / INR N = target eps data l).
Proof.
  intros LD P0 N s. destruct (embed_nth eps data ns LD) as [B1 [B2 [B3 [_ E]]]]. fold N in B1, B2, B3, E. set (c := snd (embed eps data ns)) in *. assert (LS : List.length s = N) by apply spectrum_length. assert (NE : s <> []) by (intros Q; rewrite Q in LS; cbn in LS; lia).
  assert (NT : forall m, (m < N)%nat -> nth m s 0 = power N (fun k => nth k c 0) m) by (intros m Hm; apply spectrum_nth, Hm).
  assert (IC : forall l, (l < N)%nat -> sum_to N (fun m => nth m s 0 * cos (ang N m l)) / INR N = if (l =? 0)%nat then nth 0 c 0 else (nth l c 0 + nth (N - l) c 0) / 2) by (intros l Hl; rewrite <- (inverse_cos N (fun k => nth k c 0) l B3 Hl); f_equal; apply sum_ext; intros m Hm; rewrite NT by exact Hm; reflexivity).
  split; [lia|]. split; [exact LS|]. split; [exact NE|]. split; [|split; [|split]].
  - intros m Hm. rewrite LS in *. rewrite !NT by lia. apply power_sym; lia.
  - destruct (argmaxR_spec s NE) as [L [M _]]. rewrite LS in L, M. destruct (Rlt_dec 0 (nth (argmaxR s) s 0)) as [|G]; [assumption|exfalso]. pose proof (IC 0%nat ltac:(lia)) as Q. cbn [Nat.eqb] in Q. rewrite E in Q by lia. cbv iota in Q. assert (NP : 0 < INR N) by (apply lt_0_INR; lia). assert (U : sum_to N (fun m => nth m s 0 * cos (ang N m 0)) <= sum_to N (fun _ => 0)). { apply sum_le. intros m Hm. replace (ang N m 0) with 0 by (unfold ang; rewrite Nat.mul_0_r; cbn; unfold Rdiv; ring). rewrite cos_0. pose proof (M m Hm) as W. unfold at_R in W. lra. }
    rewrite sum_0 in U. assert (sum_to N (fun m => nth m s 0 * cos (ang N m 0)) / INR N <= 0) by (apply Rmult_le_reg_r with (INR N); [exact NP|]; unfold Rdiv; rewrite Rmult_assoc, Rinv_l by lra; lra). lra.
  - intros m Hm. rewrite NT by exact Hm. apply power_embed; assumption.
  - intros l Hl. rewrite IC by lia. apply embed_target; assumption.
Qed.
Lemma sim_cov eps data args ns cases a b p q : (2 <= List.length data)%nat -> (2 <= List.length args)%nat -> (2 <= ns)%nat -> (forall k, (k < List.length data)%nat -> nth k data 0 <= nth 0 data 0) -> 0 < nth 0 data 0 -> (a < cases)%nat -> (b < cases)%nat -> (p < ns)%nat -> (q < ns)%nat ->
  let N := fst (embed eps data ns) in let s := spectrum N (snd (embed eps data ns)) in
  covariance3 N (cases2 cases) (fun d => value a p (sim eps data args (Some ns) cases d)) (fun d => value b q (sim eps data args (Some ns) cases d)) = if (a =? b)%nat then sum_to N (fun m => nth m (truncated s) 0 * cos (ang N m (distance p q))) / INR N else 0.
Proof.
  intros LD LA LN MX P0 A B P Q N s. destruct (spectrum_facts eps data ns LD P0) as [F1 [F2 [F3 [F4 [F5 _]]]]]. fold N s in F1, F2, F3, F4, F5. destruct (truncated_facts s F3 F4 F5) as [T1 [T2 _]]. rewrite <- (forms_cov N (truncated s) cases a b p q F1) by (try assumption; try (rewrite truncated_length; exact F2); intros m Hm; apply T2; rewrite F2; exact Hm).
  apply cov3_ext; intros d; apply value_form; assumption.
Qed.
(* the columns are independent, and stationary *)
Lemma sim_columns eps data args ns cases : (2 <= List.length data)%nat -> (2 <= List.length args)%nat -> (2 <= ns)%nat -> (forall k, (k < List.length data)%nat -> nth k data 0 <= nth 0 data 0) -> 0 < nth 0 data 0 ->
  exists N r, forall a b p q, (a < cases)%nat -> (b < cases)%nat -> (p < ns)%nat -> (q < ns)%nat ->
  linear3 N ((cases + 1) / 2) (fun d => value a p (sim eps data args (Some ns) cases d)) /\
  covariance3 N ((cases + 1) / 2) (fun d => value a p (sim eps data args (Some ns) cases d)) (fun d => value b q (sim eps data args (Some ns) cases d)) = if (a =? b)%nat then r (distance p q) else 0.
Proof.
  intros LD LA LN MX P0. exists (fst (embed eps data ns)). exists (fun l => sum_to (fst (embed eps data ns)) (fun m => nth m (truncated (spectrum (fst (embed eps data ns)) (snd (embed eps data ns)))) 0 * cos (ang (fst (embed eps data ns)) m l)) / INR (fst (embed eps data ns))). intros a b p q A B P Q. split; [|exact (sim_cov eps data args ns cases a b p q LD LA LN MX P0 A B P Q)].
  intros d. rewrite (value_form eps data args ns cases a p LD LA LN MX A P). rewrite (form_linear _ _ (index cases a) _ _ (index_bound cases a A) d). apply sum_ext. intros m _. apply sum_ext. intros j _. rewrite !(value_form eps data args ns cases a p LD LA LN MX A P). reflexivity.
Qed.
Lemma sim_target eps data args ns cases a b p q : (2 <= List.length data)%nat -> (2 <= List.length args)%nat -> (2 <= ns)%nat -> (forall k, (k < List.length data)%nat -> nth k data 0 <= nth 0 data 0) -> 0 < nth 0 data 0 -> (a < cases)%nat -> (b < cases)%nat -> (p < ns)%nat -> (q < ns)%nat ->
  let N := fst (embed eps data ns) in (forall m j, (m < N)%nat -> (j < N)%nat -> eigenvalue N (target eps data) j / 100000 <= eigenvalue N (target eps data) m) ->
  covariance3 N (cases2 cases) (fun d => value a p (sim eps data args (Some ns) cases d)) (fun d => value b q (sim eps data args (Some ns) cases d)) = if (a =? b)%nat then target eps data (distance p q) else 0.
Proof.
  intros LD LA LN MX P0 A B P Q N EV. etransitivity; [apply sim_cov; assumption|]. fold N. destruct (spectrum_facts eps data ns LD P0) as [F1 [F2 [F3 [F4 [F5 [F6 F7]]]]]]. fold N in F1, F2, F3, F4, F5, F6, F7. set (s := spectrum N (snd (embed eps data ns))) in *. destruct (truncated_facts s F3 F4 F5) as [_ [_ T3]]. destruct (argmaxR_spec s F3) as [L _]. rewrite F2 in L, T3. set (i := argmaxR s) in *.
  destruct (a =? b)%nat; [|reflexivity]. rewrite <- (F7 (distance p q)) by (unfold distance; lia). f_equal. apply sum_ext. intros m Hm. f_equal. assert (NN : forall m, (m < N)%nat -> 0 <= nth m s 0) by (intros k Hk; pose proof (EV k i Hk L) as W; rewrite <- !F6 in W by assumption; lra). destruct (T3 NN m Hm) as [E|[_ G]]; [exact E|]. pose proof (EV m i Hm L) as W. rewrite <- !F6 in W by assumption. lra.
Qed.
Lemma sim_bound eps data args ns cases a p q M : (2 <= List.length data)%nat -> (2 <= List.length args)%nat -> (2 <= ns)%nat -> (forall k, (k < List.length data)%nat -> nth k data 0 <= nth 0 data 0) -> 0 < nth 0 data 0 -> (a < cases)%nat -> (p < ns)%nat -> (q < ns)%nat ->
  let N := fst (embed eps data ns) in (forall m, (m < N)%nat -> 0 <= eigenvalue N (target eps data) m <= M) ->
  Rabs (covariance3 N (cases2 cases) (fun d => value a p (sim eps data args (Some ns) cases d)) (fun d => value a q (sim eps data args (Some ns) cases d)) - target eps data (distance p q)) <= M / 100000.
Proof.
  intros LD LA LN MX P0 A P Q N EV. unfold N in *. rewrite sim_cov by assumption. fold N in EV |- *. rewrite Nat.eqb_refl. destruct (spectrum_facts eps data ns LD P0) as [F1 [F2 [F3 [F4 [F5 [F6 F7]]]]]]. fold N in F1, F2, F3, F4, F5, F6, F7. set (s := spectrum N (snd (embed eps data ns))) in *. destruct (truncated_facts s F3 F4 F5) as [_ [_ T3]]. destruct (argmaxR_spec s F3) as [L _]. rewrite F2 in L, T3. set (i := argmaxR s) in *. assert (NP : 0 < INR N) by (apply lt_0_INR; exact F1).
  assert (NN : forall m, (m < N)%nat -> 0 <= nth m s 0 <= M) by (intros m Hm; rewrite F6 by exact Hm; apply EV, Hm).
  rewrite <- (F7 (distance p q)) by (unfold distance; lia). set (l := distance p q). unfold Rdiv at 1 2. rewrite <- Rmult_minus_distr_r. replace (sum_to N (fun m => nth m (truncated s) 0 * cos (ang N m l)) - sum_to N (fun m => nth m s 0 * cos (ang N m l))) with (sum_to N (fun m => 1 * (nth m (truncated s) 0 * cos (ang N m l)) + -1 * (nth m s 0 * cos (ang N m l)))) by (rewrite sum_lin; ring).
  rewrite Rabs_mult, (Rabs_pos_eq (/ INR N)) by (left; apply Rinv_0_lt_compat, NP). apply Rmult_le_reg_r with (INR N); [exact NP|]. rewrite Rmult_assoc, Rinv_l, Rmult_1_r by lra. eapply Rle_trans; [apply sum_abs|]. rewrite Rmult_comm, <- sum_const. apply sum_le. intros m Hm. pose proof (NN m Hm) as [U V]. pose proof (NN i L) as [_ VI]. pose proof (COS_bound (ang N m l)) as [C1 C2].
  destruct (T3 (fun m Hm => proj1 (NN m Hm)) m Hm) as [E|[E G]]; rewrite E.
  - replace (1 * (nth m s 0 * cos (ang N m l)) + -1 * (nth m s 0 * cos (ang N m l))) with 0 by ring. rewrite Rabs_R0. lra.
  - replace (1 * (0 * cos (ang N m l)) + -1 * (nth m s 0 * cos (ang N m l))) with (- (nth m s 0 * cos (ang N m l))) by ring. rewrite Rabs_Ropp, Rabs_mult, (Rabs_pos_eq _ U). assert (Rabs (cos (ang N m l)) <= 1) by (apply Rabs_le; lra). assert (nth m s 0 * Rabs (cos (ang N m l)) <= nth m s 0 * 1) by (apply Rmult_le_compat_l; assumption). lra.
Qed.
