From Coq Require Import Reals Lra Lia.
From Coquelicot Require Import RInt RInt_analysis Hierarchy Continuity Derive AutoDerive Rbar.
From Verif Require Import Base PolyModel PolySpec PolyProofs PolyProofs2 OrthoModel OrthoProofs
  ChebModel ChebSpec ChebProofs ChebProofs2 ChebProofs3 QuadModel QuadSpec QuadProofs QuadProofs2.
Local Open Scope R_scope.

Local Notation is_int := (@is_RInt R_NormedModule).

(* ---- q7 ------------------------------------------------------------------------------------ *)
Lemma q7_prod k t : (1 + cos t) / 2 * cos (INR k * t) =
  match k with O => 1/2 * cos (INR 0 * t) + 1/2 * cos (INR 1 * t)
  | S k' => 1 * (1/2 * cos (INR k * t) + 1/4 * cos (INR (S k) * t)) + 1/4 * cos (INR k' * t) end.
Proof.
  destruct k as [|k].
  - cbn [INR]. rewrite Rmult_0_l, cos_0, Rmult_1_l. field.
  - rewrite !S_INR. set (a := (INR k + 1) * t). replace ((INR k + 1 + 1) * t) with (a + t) by (unfold a; ring).
    replace (INR k * t) with (a - t) by (unfold a; ring). rewrite cos_plus, cos_minus. field.
Qed.
Lemma full_sum n m : (m <= 2 * n)%nat -> vsum n (fun j => cos (INR m * ((2 * INR j + 1) * PI / (2 * INR n + 1)))) =
  if Nat.eq_dec m 0 then INR n else - (-1) ^ m / 2.
Proof.
  intros H. pose proof (pos_INR n) as P. destruct (Nat.eq_dec m 0) as [->|H0].
  - rewrite (vsum_ext n _ (fun _ => 1)), vsum_one; [reflexivity|]. intros. cbn [INR]. now rewrite Rmult_0_l, cos_0.
  - pose proof (mid_sum (2 * n + 1) (2 * m) ltac:(lia) ltac:(lia)) as E.
    rewrite (vsum_ext _ _ (fun j => cos (INR m * ((2 * INR j + 1) * PI / (2 * INR n + 1))))) in E.
    2:{ intros j _. f_equal. rewrite plus_INR, !mult_INR. change (INR 2) with 2. change (INR 1) with 1. field. lra. }
    rewrite vsum_sym in E.
    2:{ intros j Hj. rewrite minus_INR, mult_INR by lia. change (INR 2) with 2.
        replace (INR m * ((2 * (2 * INR n - INR j) + 1) * PI / (2 * INR n + 1)))
          with (- (INR m * ((2 * INR j + 1) * PI / (2 * INR n + 1))) + 2 * INR m * PI) by (field; lra).
        rewrite cos_period. apply cos_neg. }
    replace (INR m * ((2 * INR n + 1) * PI / (2 * INR n + 1))) with (INR m * PI) in E by (field; lra).
    rewrite cos_int in E. lra.
Qed.
Lemma q7_integral0 n p : (0 < n)%nat -> (List.length p <= 2 * n)%nat ->
  is_int (fun t => (1 + cos t) / 2 * peval p (cos t)) 0 PI
    (vsum n (fun j => let t := (2 * INR j + 1) * PI / (2 * INR n + 1) in 2 * PI / (2 * INR n + 1) * ((1 + cos t) / 2) * peval p (cos t))).
Proof.
  intros Hn. pose proof (pos_INR n) as P.
  apply (exact_cheb (2 * n) (fun t => (1 + cos t) / 2) cos 0 PI
    (fun f => vsum n (fun j => let t := (2 * INR j + 1) * PI / (2 * INR n + 1) in 2 * PI / (2 * INR n + 1) * ((1 + cos t) / 2) * f (cos t)))); [lia| |].
  - split; [|split].
    + intros f g E. apply vsum_ext. intros. cbv zeta. now rewrite E.
    + intros f g. rewrite <- vsum_add. apply vsum_ext. intros. cbv zeta. ring.
    + intros c f. rewrite <- vsum_scal. apply vsum_ext. intros. cbv zeta. ring.
  - intros k Hk. set (x := fun j => (2 * INR j + 1) * PI / (2 * INR n + 1)).
    rewrite (vsum_ext n _ (fun j => 2 * PI / (2 * INR n + 1) * ((1 + cos (x j)) / 2 * cos (INR k * x j)))).
    2:{ intros j _. cbv zeta. rewrite T_cos. unfold x. ring. }
    rewrite vsum_scal. rewrite (vsum_ext _ _ _ (fun j _ => q7_prod k (x j))).
    apply (is_int_ext (fun t => (1 + cos t) / 2 * cos (INR k * t))); [intros; now rewrite T_cos|].
    eapply is_int_ext; [intros t; symmetry; apply q7_prod|].
    destruct k as [|k].
    + eapply is_int_val; [apply is_int_lin; apply is_int_cos|].
      rewrite vsum_add, !vsum_scal. unfold x. rewrite !full_sum by lia. repeat destruct (Nat.eq_dec _ _); try lia. cbn [pow]. field. lra.
    + eapply is_int_val; [apply is_int_lin; [apply is_int_lin|]; apply is_int_cos|].
      rewrite vsum_add, (vsum_scal n 1), vsum_add, !vsum_scal. unfold x. rewrite !full_sum by lia. repeat destruct (Nat.eq_dec _ _); try lia.
      * subst k. cbn [pow]. field. lra.
      * cbn [pow]. field. lra.
Qed.
Lemma cos_half t : (1 + cos (2 * t)) / 2 = cos t ^ 2.
Proof. rewrite cos_2a_cos. field. Qed.
Lemma q7_integral n p : (0 < n)%nat -> (List.length p <= 2 * n)%nat ->
  is_int (fun t => 2 * cos t ^ 2 * peval p (cos t ^ 2)) 0 (PI / 2) (rule_sum (fst (q7_roots n)) (snd (q7_roots n)) (peval p)).
Proof.
  intros Hn Hp. destruct (compose_affine p 0 1) as [q [L E]].
  pose proof (q7_integral0 n q Hn ltac:(lia)) as H.
  assert (E' : forall t, peval q (cos (2 * t)) = peval p (cos t ^ 2)).
  { intros t. rewrite E. f_equal. unfold map_to_interval. rewrite <- cos_half. field. }
  assert (G : is_int (fun t => (1 + cos t) / 2 * peval q (cos t)) (2 * 0 + 0) (2 * (PI / 2) + 0)
    (rule_sum (fst (q7_roots n)) (snd (q7_roots n)) (peval p))).
  { replace (2 * 0 + 0) with 0 by ring. replace (2 * (PI / 2) + 0) with PI by field. eapply is_int_val; [exact H|].
    unfold q7_roots. cbn [fst snd]. rewrite rule_sum_seq. apply vsum_ext. intros j _. cbv zeta.
    pose proof (pos_INR n).
    replace ((2 * INR j + 1) * PI / (2 * INR n + 1)) with (2 * ((INR (1 + j) - 1/2) * PI / (2 * INR n + 1))).
    2:{ rewrite plus_INR. change (INR 1) with 1. field. lra. }
    rewrite cos_half, E'. field. lra. }
  apply (is_RInt_comp_lin (V := R_NormedModule)) in G. refine (is_int_ext _ _ _ _ _ _ G). intros t.
  change (2 * ((1 + cos (2 * t + 0)) / 2 * peval q (cos (2 * t + 0))) = 2 * cos t ^ 2 * peval p (cos t ^ 2)).
  rewrite Rplus_0_r, cos_half, E'. ring.
Qed.
Lemma q7_exact n : (0 < n)%nat -> exact_for (2 * n) (fun x => sqrt ((x - 0) / (1 - x))) 0 1 (q7_roots n).
Proof.
  intros Hn p Hp. pose proof PI_RGT_0.
  apply (improper_sub _ (fun t => 2 * cos t ^ 2 * peval p (cos t ^ 2)) (fun t => cos t ^ 2) (fun t => - 2 * cos t * sin t) 0 1 0 (PI / 2)).
  - lra.
  - rewrite cos_0. ring.
  - rewrite cos_PI2. ring.
  - intros t. auto_derive; [exact Logic.I|ring].
  - intros t. apply cont_of. reg.
  - intros t Ht. pose proof (sin_gt_0 t ltac:(lra) ltac:(lra)). pose proof (cos_gt_0 t ltac:(lra) ltac:(lra)). nra.
  - intros u Hu. apply cont_weighted. apply (continuity_pt_comp (fun x => (x - 0) / (1 - x)) sqrt).
    + apply (continuity_pt_div (fun x => x - 0) (fun x => 1 - x)); [reg|reg|lra].
    + apply continuity_pt_sqrt. apply Rlt_le, Rdiv_lt_0_compat; lra.
  - intros t. apply cont_of. apply (continuity_mult (fun t => 2 * cos t ^ 2) (fun t => peval p (cos t ^ 2))); [reg|].
    apply (continuity_comp (fun t => cos t ^ 2) (peval p)); [reg|apply peval_cont].
  - intros t Ht. pose proof (sin_gt_0 t ltac:(lra) ltac:(lra)). pose proof (cos_gt_0 t ltac:(lra) ltac:(lra)).
    replace ((cos t ^ 2 - 0) / (1 - cos t ^ 2)) with ((cos t / sin t) * (cos t / sin t)).
    + rewrite sqrt_square; [field; lra|]. apply Rlt_le, Rdiv_lt_0_compat; lra.
    + pose proof (sin2_cos2 t) as Q. unfold Rsqr in Q. replace (1 - cos t ^ 2) with (sin t ^ 2) by lra. field. lra.
  - apply q7_integral; assumption.
Qed.

(* ---- the expansion of the half set of roots -------------------------------------------------- *)
Lemma rule_sum_app a b c d f : List.length a = List.length c -> rule_sum (a ++ b) (c ++ d) f = rule_sum a c f + rule_sum b d f.
Proof.
  revert c. induction a as [|x a IH]; intros [|w c] H; try discriminate H; cbn [app rule_sum]; [ring|].
  rewrite IH by (injection H; auto). ring.
Qed.
Lemma rule_sum_rev a c f : List.length a = List.length c -> rule_sum (rev a) (rev c) f = rule_sum a c f.
Proof.
  revert c. induction a as [|x a IH]; intros [|w c] H; try discriminate H; cbn [rev rule_sum]; [reflexivity|].
  injection H as H. rewrite rule_sum_app by (now rewrite !rev_length). rewrite IH by exact H. cbn [rule_sum]. ring.
Qed.
Lemma rule_sum_map (g : R -> R) a c f : rule_sum (map g a) c f = rule_sum a c (fun x => f (g x)).
Proof. revert c. induction a as [|x a IH]; intros [|w c]; cbn [map rule_sum]; try reflexivity. now rewrite IH. Qed.
Lemma rule_sum_nth a c f : List.length a = List.length c -> rule_sum a c f = vsum (List.length a) (fun i => at_R c i * f (at_R a i)).
Proof.
  revert c. induction a as [|x a IH]; intros [|w c] H; try discriminate H; [reflexivity|].
  injection H as H. cbn [List.length]. rewrite vsum_first. cbn [rule_sum]. rewrite (IH c H). reflexivity.
Qed.
Lemma back_map (g : R -> R) l m : map g (back_from l m) = back_from (map g l) m.
Proof. destruct m; cbn [back_from]; [now rewrite map_rev|]. now rewrite map_rev, firstn_map. Qed.
Lemma rule_sum_back a c m f : List.length a = List.length c -> rule_sum (back_from a m) (back_from c m) f =
  if (m =? 0)%nat then rule_sum a c f else rule_sum (firstn m a) (firstn m c) f.
Proof.
  intros H. destruct m; cbn [back_from Nat.eqb].
  - now rewrite rule_sum_rev.
  - rewrite rule_sum_rev; [reflexivity|]. now rewrite !firstn_length, H.
Qed.
Lemma upd_length' (l : list R) i v : (i < List.length l)%nat -> List.length (upd l i v) = List.length l.
Proof. intros H. unfold upd. rewrite app_length, firstn_length. cbn [List.length]. rewrite skipn_length. lia. Qed.
Lemma half_cases n : (2 <= n)%nat -> exists k, (1 <= k)%nat /\ (n = 2 * k \/ n = 2 * k + 1)%nat.
Proof. intros H. exists (n / 2)%nat. pose proof (Nat.div_mod n 2). pose proof (Nat.mod_upper_bound n 2). lia. Qed.
Lemma split_last (l : list R) k : List.length l = S k -> l = firstn k l ++ [at_R l k].
Proof.
  intros H. rewrite <- (firstn_skipn k l) at 1. f_equal. destruct (skipn k l) as [|a [|b r]] eqn:E.
  - apply (f_equal (@List.length R)) in E. rewrite skipn_length in E. cbn in E. lia.
  - f_equal. unfold at_R. rewrite <- (firstn_skipn k l), E, app_nth2; rewrite firstn_length; [|lia].
    replace (k - Nat.min k (List.length l))%nat with 0%nat by lia. reflexivity.
  - apply (f_equal (@List.length R)) in E. rewrite skipn_length in E. cbn in E. lia.
Qed.
Lemma expand_even x w k f : (1 <= k)%nat -> List.length x = k -> List.length w = k ->
  let r := expand_roots x w (2 * k) k in
  List.length (fst r) = (2 * k)%nat /\ List.length (snd r) = (2 * k)%nat /\
  rule_sum (fst r) (snd r) f = rule_sum x w (fun t => f t + f (- t)).
Proof.
  intros Hk Hx Hw. unfold expand_roots. replace (2 * k <? k + k)%nat with false by (symmetry; apply Nat.ltb_ge; lia).
  replace (k + k =? 2 * k)%nat with true by (symmetry; apply Nat.eqb_eq; lia). cbn [fst snd].
  assert (LB : forall l : list R, List.length l = k -> List.length (back_from l k) = k).
  { intros l H. destruct k; [lia|]. cbn [back_from]. rewrite rev_length, firstn_length. lia. }
  rewrite !app_length, map_length, !LB by assumption. repeat split; try lia.
  rewrite rule_sum_app by lia. rewrite rule_sum_map, rule_sum_back by lia. destruct (Nat.eqb_spec k 0); [lia|].
  rewrite !firstn_all2 by lia. destruct (rule_sum_linear x w) as [_ [A _]]. rewrite <- A. reflexivity.
Qed.
Lemma expand_odd x w k f : (1 <= k)%nat -> List.length x = S k -> List.length w = S k ->
  let r := expand_roots x w (2 * k + 1) (S k) in
  List.length (fst r) = (2 * k + 1)%nat /\ List.length (snd r) = (2 * k + 1)%nat /\
  rule_sum (fst r) (snd r) f = rule_sum (firstn k x) (firstn k w) (fun t => f t + f (- t)) + at_R w k * f 0.
Proof.
  intros Hk Hx Hw. unfold expand_roots. replace (2 * k + 1 <? S k + S k)%nat with true by (symmetry; apply Nat.ltb_lt; lia).
  replace (S k + S k =? 2 * k + 1)%nat with false by (symmetry; apply Nat.eqb_neq; lia). cbn [fst snd].
  replace (S k - 1)%nat with k by lia.
  assert (LB : forall l : list R, List.length l = S k -> List.length (back_from l k) = k).
  { intros l H. destruct k; [lia|]. cbn [back_from]. rewrite rev_length, firstn_length. lia. }
  assert (LU : List.length (upd x k 0) = S k) by (rewrite upd_length'; lia).
  assert (EU : upd x k 0 = firstn k x ++ [0]). { unfold upd. rewrite skipn_all2 by lia. reflexivity. }
  rewrite !app_length, map_length, !LB by assumption. repeat split; try lia.
  rewrite rule_sum_app by lia. rewrite rule_sum_map, rule_sum_back by lia. destruct (Nat.eqb_spec k 0); [lia|].
  assert (EF : firstn k (upd x k 0) = firstn k x).
  { rewrite EU, firstn_app, firstn_length. replace (k - Nat.min k (List.length x))%nat with 0%nat by lia.
    cbn [firstn]. rewrite app_nil_r, firstn_firstn. f_equal. lia. }
  rewrite EF, EU. rewrite (split_last w k Hw) at 1. rewrite rule_sum_app by (rewrite !firstn_length; lia). cbn [rule_sum].
  destruct (rule_sum_linear (firstn k x) (firstn k w)) as [_ [A _]]. rewrite A. ring.
Qed.
Lemma expand_one x0 w0 f : let r := expand_roots [x0] [w0] 1 1 in rule_sum (fst r) (snd r) f = w0 * f 0 + w0 * f (- 0).
Proof. cbn. unfold rule_sum. ring. Qed.

(* ---- the map of p_roots ------------------------------------------------------------------------ *)
Lemma rule_sum_scale a c d f : rule_sum a (map (fun w => w * d) c) f = d * rule_sum a c f.
Proof. revert c. induction a as [|x a IH]; intros [|w c]; cbn [map rule_sum]; try ring. rewrite IH. ring. Qed.
Lemma int_affine (p : list R) q a b I : (forall y, peval q y = peval p (map_to_interval y a b)) ->
  is_int (peval q) (-1) 1 I -> is_int (peval p) a b ((b - a) / 2 * I).
Proof.
  intros E H.
  destruct (Req_dec a b) as [->|Hab].
  { replace ((b - b) / 2 * I) with 0 by field. exact (is_RInt_point (V := R_NormedModule) (peval p) b). }
  set (u := 2 / (b - a)). set (v := - (b + a) / (b - a)).
  assert (G : is_int (peval q) (u * a + v) (u * b + v) I).
  { replace (u * a + v) with (-1) by (unfold u, v; field; lra). replace (u * b + v) with 1 by (unfold u, v; field; lra). exact H. }
  apply (is_RInt_comp_lin (V := R_NormedModule)) in G.
  apply (is_RInt_scal (V := R_NormedModule) _ _ _ ((b - a) / 2)) in G.
  refine (is_int_ext _ _ _ _ _ _ G). intros y. change ((b - a) / 2 * (u * peval q (u * y + v)) = peval p y).
  rewrite E. replace (map_to_interval (u * y + v) a b) with y by (unfold map_to_interval, u, v; field; lra). unfold u. field. lra.
Qed.
Lemma p_roots_map_exact N nodes weights a b : plain_exact_for N (-1) 1 (nodes, weights) -> plain_exact_for N a b (p_roots_map nodes weights a b).
Proof.
  intros H p Hp.
  assert (G : is_int (peval p) a b (rule_sum (map (fun x => (b - a) / 2 * (x + 1) + a) nodes) (map (fun w => w * ((b - a) / 2)) weights) (peval p))).
  { destruct (compose_affine p a b) as [q [L E]]. specialize (H q ltac:(lia)). cbn [fst snd] in H. unfold integral in H.
    apply (int_affine p q a b) in H; [|exact E]. eapply is_int_val; [exact H|].
    rewrite rule_sum_map, rule_sum_scale. f_equal. apply rule_sum_linear. intros x. rewrite E. f_equal. unfold map_to_interval. field. }
  unfold p_roots_map. destruct (Req_EM_T a (-1)) as [->|]; [destruct (Req_EM_T b 1) as [->|]|]; try exact G. exact (H p Hp).
Qed.
