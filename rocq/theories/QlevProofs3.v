From Coq Require Import Reals ZArith Lra Lia List Bool Psatz Permutation Sorted.
From Verif Require Import Base PolyModel FilterModel GridModel WaveModel KdeModel ProcModel ProcSpec ProcProofs ProcProofs2 ProcProofs3 KernelModel TkdeModel QlevModel QlevSpec QlevProofs QlevProofs2.
Import ListNotations.
Local Open Scope R_scope.

Lemma ss_snoc {A} (Q : A -> A -> Prop) l a : StronglySorted Q l -> Forall (fun x => Q x a) l -> StronglySorted Q (l ++ [a]).
Proof.
  induction 1 as [|b l HS IH HF]; intros H; cbn [app]; [repeat constructor|]. inversion H; subst. constructor; [now apply IH|]. apply Forall_app. split; [exact HF|]. repeat constructor. assumption.
Qed.
Lemma ss_rev {A} (Q : A -> A -> Prop) l : StronglySorted Q l -> StronglySorted (fun a b => Q b a) (rev l).
Proof. induction 1 as [|a l HS IH HF]; cbn [rev]; [constructor|]. apply ss_snoc; [exact IH|]. rewrite Forall_forall in *. intros x Hx. apply HF. now apply in_rev. Qed.
Lemma ss_map {A B} (Q : B -> B -> Prop) (g : A -> B) l : StronglySorted Q (map g l) -> StronglySorted (fun a b => Q (g a) (g b)) l.
Proof. induction l as [|a l IH]; cbn [map]; intros H; [constructor|]. inversion H as [|? ? H1 H2]; subst. constructor; [now apply IH|]. now rewrite Forall_map in H2. Qed.
Lemma ss_map_in {A B} (Q : B -> B -> Prop) (g : A -> B) l : StronglySorted (fun a b => Q (g a) (g b)) l -> StronglySorted Q (map g l).
Proof. induction 1 as [|a l H1 IH H2]; cbn [map]; constructor; [exact IH|]. now rewrite Forall_map. Qed.
Lemma combine_seq (a b : list R) : List.length b = List.length a -> combine a b = map (fun i => (nth i a 0, nth i b 0)) (seq 0 (List.length a)).
Proof.
  revert b. induction a as [|x a IH]; intros [|y b] L; try discriminate; [reflexivity|]. cbn [combine List.length seq map nth]. f_equal. rewrite IH by (cbn in L; lia). rewrite <- seq_shift, map_map. reflexivity.
Qed.
Lemma list_seq (a : list R) : a = map (fun i => nth i a 0) (seq 0 (List.length a)).
Proof. induction a as [|x a IH]; [reflexivity|]. cbn [List.length seq map nth]. f_equal. rewrite IH at 1. rewrite <- seq_shift, map_map. reflexivity. Qed.
Lemma filter_count (P : R -> bool) l : List.length (filter P l) = List.length (filter (fun i => P (nth i l 0)) (seq 0 (List.length l))).
Proof.
  rewrite (list_seq l) at 1. generalize (seq 0 (List.length l)). intros s. induction s as [|i s IH]; [reflexivity|]. cbn [map filter]. destruct (P (nth i l 0)); cbn [List.length]; now rewrite IH.
Qed.
Lemma filter_count_S (P : nat -> bool) n s : List.length (filter P (seq (S s) n)) = List.length (filter (fun i => P (S i)) (seq s n)).
Proof. revert s. induction n as [|n IH]; intros s; [reflexivity|]. cbn [seq filter]. destruct (P (S s)); cbn [List.length]; now rewrite IH. Qed.

(* the cells in the order of decreasing density *)
Record ordered (pdf mass : list R) (ind : list nat) (pairs : list (R * R)) : Prop := Ordered {
  o_def : pairs = map (fun i => (nth i pdf 0, nth i mass 0)) ind;
  o_len : List.length ind = List.length pdf;
  o_sort : StronglySorted (fun a b => fst b <= fst a) pairs;
  o_pos : Forall (fun q => 0 <= snd q) pairs;
  o_mass : Permutation (map snd pairs) mass;
  o_ge : forall L, ge_part L pairs = total (map (fun q => if Rle_dec L (fst q) then snd q else 0) (combine pdf mass));
  o_gt : forall L, gt_part L pairs = total (map (fun q => if Rlt_dec L (fst q) then snd q else 0) (combine pdf mass));
  o_in : forall i, In i ind -> (i < List.length pdf)%nat }.
Lemma ordered_ok argsort pdf mass : sorts argsort -> List.length mass = List.length pdf -> Forall (fun v => 0 <= v) mass ->
  ordered pdf mass (rev (argsort pdf)) (map (fun i => (nth i pdf 0, nth i mass 0)) (rev (argsort pdf))).
Proof.
  intros S L F. destruct (S pdf) as [P O]. assert (PR : Permutation (rev (argsort pdf)) (seq 0 (List.length pdf))) by (eapply perm_trans; [apply Permutation_sym, Permutation_rev|exact P]).
  assert (IN : forall i, In i (rev (argsort pdf)) -> (i < List.length pdf)%nat) by (intros i Hi; apply (Permutation_in _ PR) in Hi; apply in_seq in Hi; lia).
  constructor; [reflexivity| | | | | | |exact IN].
  - rewrite (Permutation_length PR). apply seq_length.
  - apply ss_map_in. cbn [fst]. apply ss_map in O. apply ss_rev in O. exact O.
  - rewrite Forall_map. rewrite Forall_forall. intros i Hi. cbn [snd]. rewrite Forall_forall in F. apply F, nth_In. rewrite L. now apply IN.
  - rewrite map_map. cbn [snd]. eapply perm_trans; [apply Permutation_map; exact PR|]. rewrite <- L, <- list_seq. apply Permutation_refl.
  - intros M. unfold ge_part. apply total_perm. apply Permutation_map. rewrite combine_seq by easy. now apply Permutation_map.
  - intros M. unfold gt_part. apply total_perm. apply Permutation_map. rewrite combine_seq by easy. now apply Permutation_map.
Qed.
Lemma last_cumsum l : l <> [] -> last (cumsum 0 l) 0 = total l.
Proof.
  intros H. assert (L : (1 <= List.length l)%nat) by (destruct l; [congruence|cbn; lia]). rewrite last_at, cumsum_length, cumsum_at by lia. replace (S (List.length l - 1)) with (List.length l) by lia. rewrite firstn_all. ring.
Qed.
Definition nu (n : nat) : R := INR n / (INR n + 15 / 10 ^ 9).
Lemma nu_bounds n : (1 <= n)%nat -> 0 < nu n < 1 /\ 1 - nu n <= 15 / 10 ^ 9.
Proof.
  intros H. assert (1 <= INR n) by (apply (le_INR 1); lia). assert (D : 0 < 15 / 10 ^ 9) by (apply Rdiv_lt_0_compat; [lra|apply pow_lt; lra]). unfold nu. set (d := 15 / 10 ^ 9) in *. split; [split|].
  - apply Rdiv_lt_0_compat; lra.
  - apply Rmult_lt_reg_r with (INR n + d); [lra|]. unfold Rdiv. rewrite Rmult_assoc, Rinv_l by lra. lra.
  - apply Rmult_le_reg_r with (INR n + d); [lra|]. unfold Rdiv. rewrite Rmult_minus_distr_r, Rmult_assoc, Rinv_l by lra. nra.
Qed.
Lemma normalize_at l j : (j < List.length l)%nat -> Forall (fun v => 0 <= v) l -> 0 < total l -> at_ (normalize_cdf (cumsum 0 l)) j = total (firstn (S j) l) / total l * nu (List.length l).
Proof.
  intros Hj F T. unfold normalize_cdf. rewrite (map_at 0) by now rewrite cumsum_length. rewrite cumsum_length. rewrite last_cumsum by (destruct l; [cbn in Hj; lia|discriminate]). change (nth j (cumsum 0 l) 0) with (at_ (cumsum 0 l) j). rewrite cumsum_at by easy. unfold nu, Rdiv. ring.
Qed.
Lemma normalize_length l : List.length (normalize_cdf (cumsum 0 l)) = List.length l.
Proof. unfold normalize_cdf. now rewrite map_length, cumsum_length. Qed.
Lemma normalize_rising l : l <> [] -> Forall (fun v => 0 <= v) l -> 0 < total l -> rising (normalize_cdf (cumsum 0 l)).
Proof.
  intros H F T. assert (L : (1 <= List.length l)%nat) by (destruct l; [congruence|cbn; lia]). destruct (nu_bounds (List.length l) L) as [B _]. assert (IT : 0 < / total l) by now apply Rinv_0_lt_compat. constructor; rewrite ?normalize_length; [exact L| |].
  - intros i Hi. rewrite !normalize_at by (easy || lia). apply Rmult_le_compat_r; [lra|]. apply Rmult_le_compat_r; [lra|]. rewrite (firstn_S_total l (S i)) by easy. assert (0 <= at_ l (S i)); [|lra]. rewrite Forall_forall in F. now apply F, nth_In.
  - rewrite normalize_at by (easy || lia). replace (S (List.length l - 1)) with (List.length l) by lia. rewrite firstn_all. unfold Rdiv. rewrite Rinv_r by lra. lra.
Qed.
Lemma occupied_perm l m : Permutation l m -> occupied l = occupied m.
Proof. intros H. unfold occupied. induction H; cbn [filter]; [reflexivity| | |congruence]. - destruct (Rlt_dec 0 x); cbn [List.length]; now rewrite IHPermutation. - destruct (Rlt_dec 0 x), (Rlt_dec 0 y); reflexivity. Qed.
Lemma keep_occupied l : l <> [] -> Forall (fun v => 0 <= v) l -> 0 < total l -> (occupied l <= List.length (increments (normalize_cdf (cumsum 0 l))) <= List.length l)%nat.
Proof.
  intros H F T. pose proof (normalize_rising l H F T) as RI. assert (L : (1 <= List.length l)%nat) by (destruct l; [congruence|cbn; lia]). destruct (nu_bounds (List.length l) L) as [B _]. rewrite keep_count by easy. rewrite normalize_length. split.
  - unfold occupied. rewrite filter_count. destruct (List.length l) as [|n] eqn:E; [lia|]. replace (S n - 1)%nat with n by lia. cbn [seq filter]. assert (Q : List.length (filter (fun i => if Rlt_dec 0 (nth i l 0) then true else false) (seq 1 n)) = List.length (filter (fun i => if Rlt_dec (at_ (normalize_cdf (cumsum 0 l)) i) (at_ (normalize_cdf (cumsum 0 l)) (S i)) then true else false) (seq 0 n))).
    { rewrite filter_count_S. f_equal. apply filter_ext_in. intros i Hi. apply in_seq in Hi. rewrite !normalize_at by (easy || lia). rewrite (firstn_S_total l (S i)) by lia. unfold at_. set (a := total (firstn (S i) l)). set (b := nth (S i) l 0). rewrite E.
      assert (EQ : (a + b) / total l * nu (S n) = a / total l * nu (S n) + b * (nu (S n) / total l)) by (field; lra). assert (K : 0 < nu (S n) / total l) by (apply Rdiv_lt_0_compat; lra). rewrite EQ. assert (b0 : 0 <= b) by (rewrite Forall_forall in F; apply F, nth_In; lia). destruct (Rlt_dec 0 b) as [P|P], (Rlt_dec _ _) as [X|X]; try reflexivity; exfalso; nra. }
    destruct (Rlt_dec 0 (nth 0 l 0)); cbn [List.length]; rewrite Q; lia.
  - assert (X : forall (P : nat -> bool) s, (List.length (filter P s) <= List.length s)%nat) by (intros P s; induction s as [|a s IH]; cbn; [lia|]; destruct (P a); cbn; lia). etransitivity; [apply le_n_S, X|]. rewrite seq_length. lia.
Qed.

Lemma ss_down l : StronglySorted (fun a b : R * R => fst b <= fst a) l -> nonincreasing (map fst l).
Proof.
  induction 1 as [|a l SS IH HF]; intros i Li; [cbn in Li; lia|]. destruct i as [|i].
  - cbn [map] in *. change (at_ (map fst l) 0 <= fst a). rewrite Forall_forall in HF. rewrite (map_at (0, 0)) by (cbn in Li; rewrite map_length in Li; lia). apply HF, nth_In. cbn in Li. rewrite map_length in Li. lia.
  - apply (IH i). cbn in Li. lia.
Qed.
Lemma levels_main eps argsort shape pdf p xi xy mass lo hi : 0 <= eps -> sorts argsort -> ~ In 0%nat shape -> (forall v, In v pdf -> 0 <= v) -> cells shape pdf xi xy = Ok mass -> List.length mass = List.length pdf -> Forall (fun v => 0 <= v) mass ->
  (forall v, In v pdf -> lo <= v <= hi) -> 0 <= lo -> p <> [] ->
  let n := INR (List.length pdf) in let nu := n / (n + 15 / 10 ^ 9) in let top := share_ge pdf mass hi in
  (forall q, In q p -> 0 <= q <= 100 /\ nu * top <= q / 100 <= nu) -> n <= (nu - nu * top) * 10 ^ 7 -> (2 <= occupied mass)%nat -> In hi pdf ->
  exists y, qlevels eps argsort shape pdf p xi xy = Ok (map y p) /\ (forall q, In q p -> lo <= y q <= hi) /\ (forall q r, In q p -> In r p -> q <= r -> y r <= y q) /\
    forall w, (forall v, In v mass -> v <= w * total mass) -> forall q, In q p -> let e := 1 / (INR (occupied mass) - 1) + w + 10 * eps * n ^ 2 + 15 / 10 ^ 9 in q / 100 <= share_ge pdf mass (y q) + e /\ share_gt pdf mass (y q) <= q / 100 + e.
Proof.
  intros He HS HSh HP HC HLm HFm HB Hlo Hp n nu0 top HQ HK HO Hhi.
  assert (Lp : (1 <= List.length pdf)%nat) by (destruct pdf; [now destruct Hhi|cbn; lia]).
  pose proof (ordered_ok argsort pdf mass HS HLm HFm) as OR. set (ind := rev (argsort pdf)) in *. set (pairs := map (fun i => (nth i pdf 0, nth i mass 0)) ind) in *. set (m := map (at_R mass) ind). set (s := map (at_R pdf) ind).
  assert (Em : map snd pairs = m) by (unfold pairs, m; now rewrite map_map). assert (Es : map fst pairs = s) by (unfold pairs, s; now rewrite map_map).
  assert (Lm : List.length m = List.length pdf) by (unfold m; rewrite map_length; exact (o_len _ _ _ _ OR)). assert (Ls : List.length s = List.length pdf) by (unfold s; rewrite map_length; exact (o_len _ _ _ _ OR)).
  assert (PM : Permutation m mass) by (rewrite <- Em; exact (o_mass _ _ _ _ OR)). assert (ET : total m = total mass) by now apply total_perm. assert (EO : occupied m = occupied mass) by now apply occupied_perm.
  assert (Fm : Forall (fun v => 0 <= v) m) by (apply Permutation_Forall with (2 := HFm); now apply Permutation_sym).
  assert (Nm : m <> []) by (intros E; rewrite E in Lm; cbn in Lm; lia).
  assert (T : 0 < total mass). { assert (T0 : 0 <= total mass) by now apply total_nonneg. destruct (Rle_lt_or_eq_dec _ _ T0) as [|E]; [easy|]. exfalso. assert (Z : occupied mass = 0%nat); [|lia]. clear - HFm E. unfold occupied. induction HFm as [|v l Hv H IH]; [reflexivity|]. assert (Q : 0 <= total l) by now apply total_nonneg. unfold total in *. cbn in *. destruct (Rlt_dec 0 v); [lra|]. apply IH. lra. }
  set (cdf := normalize_cdf (cumsum 0 m)). assert (RI : rising cdf) by (apply normalize_rising; [exact Nm|exact Fm|now rewrite ET]). assert (Lc : List.length cdf = List.length pdf) by (unfold cdf; now rewrite normalize_length).
  assert (AT : forall j, (j < List.length pdf)%nat -> at_ cdf j = total (firstn (S j) m) / total mass * nu0). { intros j Hj. unfold cdf. rewrite normalize_at; [|lia|exact Fm|now rewrite ET]. rewrite ET, Lm. reflexivity. }
  destruct (nu_bounds (List.length pdf) Lp) as [NB NB2]. fold n in NB, NB2. change (QlevProofs3.nu (List.length pdf)) with nu0 in NB, NB2.
  set (keep := increments cdf). set (x := map (at_R cdf) keep). set (f := map (at_R s) keep).
  assert (Lx : List.length x = List.length keep) by apply map_length. assert (Lf : List.length f = List.length x) by (unfold f, x; now rewrite !map_length).
  assert (Dn : nonincreasing s). { rewrite <- Es. apply ss_down. exact (o_sort _ _ _ _ OR). }
  destruct (keep_occupied m Nm Fm ltac:(now rewrite ET)) as [KO KL]. fold cdf keep in KO, KL. rewrite EO in KO. rewrite Lm in KL.
  assert (X0 : at_ x 0 = at_ cdf 0) by (apply keep_first_value; exact RI). assert (X1 : at_ x (List.length x - 1) = nu0). { rewrite Lx. unfold x. rewrite keep_last_value by exact RI. rewrite Lc, AT by lia. replace (S (List.length pdf - 1)) with (List.length m) by lia. rewrite firstn_all, ET. field. lra. }
  assert (GE : forall j, (j < List.length pdf)%nat -> at_ cdf j <= nu0 * share_ge pdf mass (at_ s j)). { intros j Hj. rewrite AT by easy. unfold share_ge. rewrite <- (o_ge _ _ _ _ OR). assert (Q : total (firstn (S j) m) <= ge_part (at_ s j) pairs). { rewrite <- Em. apply ge_sorted; [exact (o_sort _ _ _ _ OR)|exact (o_pos _ _ _ _ OR)| |]. - unfold pairs. rewrite map_length, (o_len _ _ _ _ OR). exact Hj. - rewrite <- Es. unfold at_. rewrite (nth_indep _ 0 (fst (0, 0))) by (rewrite Es; lia). rewrite map_nth. lra. } unfold Rdiv. rewrite (Rmult_comm nu0). apply Rmult_le_compat_r; [lra|]. apply Rmult_le_compat_r; [left; now apply Rinv_0_lt_compat|exact Q]. }
  assert (S01 : forall L, 0 <= share_ge pdf mass L <= 1 /\ 0 <= share_gt pdf mass L <= 1).
  { intros L. unfold share_ge, share_gt. rewrite <- (o_ge _ _ _ _ OR), <- (o_gt _ _ _ _ OR). assert (Z : forall z, 0 <= z <= total mass -> 0 <= z / total mass <= 1). { intros z Hz. split; [apply Rmult_le_pos; [lra|left; now apply Rinv_0_lt_compat]|]. apply Rmult_le_reg_r with (total mass); [easy|]. unfold Rdiv. rewrite Rmult_assoc, Rinv_l by lra. lra. }
    rewrite <- ET, <- Em in Z |- *. pose proof (o_pos _ _ _ _ OR) as OP. clear - Z OP. split; apply Z; clear Z; unfold ge_part, gt_part, total; induction OP as [|a l Ha OP IH]; cbn; try lra. - destruct (Rle_dec L (fst a)); lra. - destruct (Rlt_dec L (fst a)); lra. }
  assert (GT : forall j, (j < List.length pdf)%nat -> share_gt pdf mass (at_ s j) <= at_ cdf j + 15 / 10 ^ 9). { intros j Hj. rewrite AT by easy. unfold share_gt. rewrite <- (o_gt _ _ _ _ OR). assert (Q : gt_part (at_ s j) pairs <= total (firstn (S j) m)). { rewrite <- Em. apply gt_sorted; [exact (o_sort _ _ _ _ OR)|exact (o_pos _ _ _ _ OR)| |]. - unfold pairs. rewrite map_length, (o_len _ _ _ _ OR). exact Hj. - rewrite <- Es. unfold at_. rewrite (nth_indep _ 0 (fst (0, 0))) by (rewrite Es; lia). rewrite map_nth. lra. }
    set (z := total (firstn (S j) m) / total mass). assert (Z1 : z <= 1). { unfold z. apply Rmult_le_reg_r with (total mass); [easy|]. unfold Rdiv. rewrite Rmult_assoc, Rinv_l by lra. rewrite <- ET. pose proof (firstn_total_le m (S j) Fm). lra. } assert (Z0 : 0 <= z). { unfold z. apply Rmult_le_pos; [|left; now apply Rinv_0_lt_compat]. apply total_nonneg. rewrite Forall_forall in *. intros v Hv. apply Fm. rewrite <- (firstn_skipn (S j) m). apply in_or_app. now left. }
    assert (Z2 : gt_part (at_ s j) pairs / total mass <= z) by (unfold z; apply Rmult_le_compat_r; [left; now apply Rinv_0_lt_compat|exact Q]). nra. }
  assert (TOP : at_ cdf 0 <= nu0 * top). { eapply Rle_trans; [apply GE; lia|]. apply Rmult_le_compat_l; [lra|]. replace (at_ s 0) with hi; [apply Rle_refl|]. (* the first cell is a highest one *)
    assert (PD : Permutation s pdf). { unfold s. eapply perm_trans; [apply Permutation_map; unfold ind; eapply perm_trans; [apply Permutation_sym, Permutation_rev|exact (proj1 (HS pdf))]|]. change (at_R pdf) with (fun i => nth i pdf 0). rewrite <- list_seq. apply Permutation_refl. } apply Rle_antisym.
    - assert (IH : In hi s) by (apply (Permutation_in _ (Permutation_sym PD)); exact Hhi). destruct (In_nth s hi 0 IH) as (k & Hk & <-). change (at_ s k <= at_ s 0). clear - Dn Hk. induction k as [|k IHk]; [lra|]. specialize (IHk ltac:(lia)). specialize (Dn k Hk). lra.
    - apply HB. apply (Permutation_in _ PD). apply nth_In. lia. }
  assert (E7 : Rpower 10 (7 / INR (Nat.max 0 1)) = 10 ^ 7). { change (Nat.max 0 1) with 1%nat. cbn [INR]. replace (7 / 1) with (INR 7) by (rewrite (INR_IZR_INZ 7); cbn; lra). now rewrite Rpower_pow by lra. }
  assert (N2 : (2 <= List.length x)%nat) by (rewrite Lx; lia).
  assert (NX : INR (List.length x) <= n) by (apply le_INR; lia).
  assert (CO : coarse 0 x). { unfold coarse. rewrite E7, X1, X0. assert (P7 : 0 < 10 ^ 7) by (apply pow_lt; lra). apply Rlt_le_trans with n; [lra|]. eapply Rle_trans; [exact HK|]. apply Rmult_le_compat_r; lra. }
  assert (COV : covers x (map (fun v => v / 100) p)). { intros t Ht. apply in_map_iff in Ht as (q & <- & Hq). rewrite X1, X0. destruct (HQ q Hq) as (_ & Q1 & Q2). lra. }
  destruct (table_levels eps x f (map (fun v => v / 100) p) He (keep_increasing cdf RI) Lf N2 (keep_down cdf s RI ltac:(lia) Dn) ltac:(destruct p; [congruence|discriminate]) COV CO) as (y & Y & YB & YO & YE).
  assert (FB : forall v, In v f -> lo <= v <= hi). { intros v Hv. unfold f in Hv. apply in_map_iff in Hv as (k & <- & Hk). apply HB. apply keep_in in Hk. change (at_R s k) with (at_ (map (at_R pdf) ind) k). rewrite (map_at 0%nat) by (rewrite (o_len _ _ _ _ OR); lia). apply nth_In. apply (o_in _ _ _ _ OR). apply nth_In. rewrite (o_len _ _ _ _ OR). lia. }
  exists (fun q => y (q / 100)). split; [|split; [|split]].
  - unfold qlevels. assert (B1 : existsb (fun v => if Rlt_dec v 0 then true else false) pdf = false). { apply Bool.not_true_iff_false. intros E. apply existsb_exists in E as (v & Hv & E). specialize (HP v Hv). destruct (Rlt_dec v 0); [lra|discriminate]. } rewrite B1.
    assert (B2 : existsb (fun v => if Rlt_dec v 0 then true else if Rlt_dec 100 v then true else false) p = false). { apply Bool.not_true_iff_false. intros E. apply existsb_exists in E as (v & Hv & E). destruct (HQ v Hv) as (Q & _). destruct (Rlt_dec v 0); [lra|]. destruct (Rlt_dec 100 v); [lra|discriminate]. } rewrite B2.
    assert (B3 : existsb (Nat.eqb 0) shape = false). { apply Bool.not_true_iff_false. intros E. apply existsb_exists in E as (v & Hv & E). apply Nat.eqb_eq in E. subst v. easy. } rewrite B3. rewrite HC. cbn [bind]. fold ind. fold m. fold s. destruct (Req_EM_T (last (cumsum 0 m) 0) 0) as [E|_]; [exfalso; rewrite last_cumsum in E by exact Nm; lra|]. fold cdf. fold keep. fold x. fold f. rewrite Y. cbn [bind hd]. f_equal. rewrite !map_map. apply map_ext_in. intros q Hq.
    assert (YQ : lo <= y (q / 100) <= hi) by (apply YB; [exact FB|apply in_map_iff; now exists q]). destruct (Rlt_dec (y (q / 100)) 0); [lra|reflexivity].
  - intros q Hq. apply YB; [exact FB|apply in_map_iff; now exists q].
  - intros q r Hq Hr Hqr. apply YO; [apply in_map_iff; now exists q|apply in_map_iff; now exists r|lra].
  - intros w Hw q Hq e. assert (W0 : 0 <= w). { destruct (Rle_dec 0 w) as [|N]; [easy|]. exfalso. assert (In (nth 0 mass 0) mass) by (apply nth_In; lia). specialize (Hw _ H). rewrite Forall_forall in HFm. specialize (HFm _ H). nra. }
    destruct (YE (share_ge pdf mass) (share_gt pdf mass) w (15 / 10 ^ 9)) with (t := q / 100) as [Y1 Y2].
    + intros a b Hab. unfold share_ge. rewrite <- !(o_ge _ _ _ _ OR). apply Rmult_le_compat_r; [left; now apply Rinv_0_lt_compat|]. apply ge_down; [exact (o_pos _ _ _ _ OR)|exact Hab].
    + intros a b Hab. unfold share_gt. rewrite <- !(o_gt _ _ _ _ OR). apply Rmult_le_compat_r; [left; now apply Rinv_0_lt_compat|]. apply gt_down; [exact (o_pos _ _ _ _ OR)|exact Hab].
    + exact W0.
    + intros k Hk. rewrite Lx in Hk. unfold x, f. rewrite !(map_at 0%nat) by easy. assert (KI : (nth k keep 0 < List.length cdf)%nat) by (apply keep_in, nth_In; exact Hk). change (at_ cdf (nth k keep 0%nat) <= share_ge pdf mass (at_ s (nth k keep 0%nat))). rewrite Lc in KI. pose proof (GE _ KI). destruct (S01 (at_ s (nth k keep 0%nat))) as [SA _]. nra.
    + intros k Hk. rewrite Lx in Hk. unfold x, f. rewrite !(map_at 0%nat) by easy. assert (KI : (nth k keep 0 < List.length cdf)%nat) by (apply keep_in, nth_In; exact Hk). rewrite Lc in KI. exact (GT _ KI).
    + intros k Hk. rewrite Lx in Hk. unfold x. rewrite !(map_at 0%nat) by lia. destruct (keep_step cdf k RI Hk) as (KA & _ & KE). fold keep in KA, KE. change (at_ cdf (nth (S k) keep 0%nat) - at_ cdf (nth k keep 0%nat) <= w). rewrite KE. rewrite !AT by lia. set (a := nth k keep 0%nat) in *. rewrite (firstn_S_total m (S a)) by lia. assert (MW : at_ m (S a) <= w * total mass). { apply Hw. apply (Permutation_in _ PM). apply nth_In. lia. }
      replace ((total (firstn (S a) m) + at_ m (S a)) / total mass * nu0 - total (firstn (S a) m) / total mass * nu0) with (at_ m (S a) / total mass * nu0) by (field; lra). assert (MQ : at_ m (S a) / total mass <= w). { apply Rmult_le_reg_r with (total mass); [easy|]. unfold Rdiv. rewrite Rmult_assoc, Rinv_l by lra. lra. } assert (M0 : 0 <= at_ m (S a) / total mass). { apply Rmult_le_pos; [|left; now apply Rinv_0_lt_compat]. rewrite Forall_forall in Fm. apply Fm, nth_In. lia. } nra.
    + apply in_map_iff. now exists q.
    + cbv zeta in Y1, Y2. assert (ST : step x <= 1 / (INR (occupied mass) - 1)). { unfold step. rewrite X1, X0. assert (O2 : 2 <= INR (occupied mass)) by (apply (le_INR 2); exact HO). assert (OX : INR (occupied mass) <= INR (List.length x)) by (apply le_INR; rewrite Lx; exact KO). assert (C0 : 0 <= at_ cdf 0). { rewrite AT by lia. apply Rmult_le_pos; [|lra]. apply Rmult_le_pos; [|left; now apply Rinv_0_lt_compat]. apply total_nonneg. rewrite Forall_forall in *. intros v Hv. apply Fm. rewrite <- (firstn_skipn 1 m). apply in_or_app. now left. }
        apply Rle_trans with (1 / (INR (List.length x) - 1)); [apply Rmult_le_compat_r; [left; apply Rinv_0_lt_compat; lra|lra]|]. unfold Rdiv. rewrite !Rmult_1_l. apply Rinv_le_contravar; lra. }
      assert (EE : 10 * eps * (at_ x (List.length x - 1) - at_ x 0) * INR (List.length x) ^ 2 <= 10 * eps * n ^ 2). { rewrite X1, X0. assert (C0 : 0 <= at_ cdf 0). { rewrite AT by lia. apply Rmult_le_pos; [|lra]. apply Rmult_le_pos; [|left; now apply Rinv_0_lt_compat]. apply total_nonneg. rewrite Forall_forall in *. intros v Hv. apply Fm. rewrite <- (firstn_skipn 1 m). apply in_or_app. now left. } assert (C1 : at_ cdf 0 <= nu0). { pose proof (rising_le cdf 0 (List.length cdf - 1) RI ltac:(lia) ltac:(lia)) as G. rewrite <- keep_last_value in G by exact RI. fold keep in G. fold x in G. rewrite <- Lx, X1 in G. exact G. }
        assert (P2 : INR (List.length x) ^ 2 <= n ^ 2) by (apply pow_incr; split; [apply pos_INR|exact NX]). assert (P0 : 0 <= INR (List.length x) ^ 2) by apply pow2_ge_0. apply Rle_trans with (10 * eps * 1 * INR (List.length x) ^ 2); [apply Rmult_le_compat_r; [easy|]; apply Rmult_le_compat_l; lra|]. apply Rle_trans with (10 * eps * 1 * n ^ 2); [apply Rmult_le_compat_l; lra|lra]. }
      assert (D9 : 0 < 15 / 10 ^ 9) by (apply Rdiv_lt_0_compat; [lra|apply pow_lt; lra]). unfold e. split; lra.
Qed.
