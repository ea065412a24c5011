From Coq Require Import Reals Lra Lia.
From Coquelicot Require Import RInt RInt_analysis Hierarchy Continuity Derive AutoDerive Rbar.
From Verif Require Import Base PolyModel PolySpec PolyProofs PolyProofs2 OrthoModel OrthoProofs
  ChebModel ChebSpec ChebProofs ChebProofs2 ChebProofs3 QuadModel QuadSpec QuadProofs QuadProofs2 QuadProofs3.
Local Open Scope R_scope.

Local Notation is_int := (@is_RInt R_NormedModule).

(* ---- q8 and q9 ------------------------------------------------------------------------------ *)
Lemma padd_exists a b : List.length a = List.length b -> exists r, List.length r = List.length a /\ forall t, peval r t = peval a t + peval b t.
Proof.
  revert b. induction a as [|x a IH]; intros [|y b] H; try discriminate H.
  - exists []. split; [reflexivity|]. intros. cbn [peval]. ring.
  - injection H as H. destruct (IH b H) as [r [L E]]. exists ((x + y) :: r). cbn [List.length]. split; [now rewrite L|].
    intros t. cbn [peval]. rewrite E, L, H. ring.
Qed.
Lemma pev_snoc p c t : peval (p ++ [c]) t = t * peval p t + c.
Proof. induction p as [|a p IH]; cbn [app peval List.length pow]; [ring|]. rewrite IH, app_length. cbn [List.length]. rewrite Nat.add_1_r. cbn [pow]. ring. Qed.
Lemma pev_opp p t : peval (map Ropp p) t = - peval p t.
Proof. induction p as [|a p IH]; cbn [map peval]; [ring|]. rewrite IH, map_length. ring. Qed.
Lemma times_square q : exists r, List.length r = (List.length q + 2)%nat /\ forall t, peval r t = (1 - t ^ 2) * peval q t.
Proof.
  destruct (padd_exists ((map Ropp q ++ [0]) ++ [0]) (0 :: 0 :: q)) as [r [L E]].
  - rewrite !app_length, map_length. cbn [List.length]. lia.
  - exists r. split; [rewrite L, !app_length, map_length; cbn [List.length]; lia|].
    intros t. rewrite E, !pev_snoc, pev_opp. cbn [peval]. ring.
Qed.
Lemma compose_square p : exists q, (List.length q <= 2 * List.length p)%nat /\ forall t, peval q t = peval p (1 - t ^ 2).
Proof.
  assert (G : forall p, exists q, (List.length q <= 2 * List.length p - 1)%nat /\ forall t, peval q t = peval p (1 - t ^ 2)).
  { clear p. induction p as [|c p [q [L H]]] using rev_ind.
    - exists []. split; [cbn; lia|reflexivity].
    - destruct (list_eq_dec Req_EM_T p []) as [->|Hp].
      + exists [c]. split; [cbn; lia|]. intros. cbn [peval app List.length pow]. ring.
      + destruct (times_square q) as [r [Lr Er]].
        assert (Lp : (1 <= List.length p)%nat) by (destruct p; [easy|cbn; lia]).
        destruct (padd_exists r (repeat 0 (List.length r - 1) ++ [c])) as [s [Ls Es]].
        * rewrite app_length, repeat_length. cbn [List.length]. lia.
        * exists s. split; [rewrite Ls, Lr, app_length; cbn [List.length]; lia|].
          intros t. rewrite Es, Er, H, !pev_snoc.
          assert (Z : forall k, peval (repeat 0 k) t = 0). { induction k as [|k IHk]; cbn [repeat peval]; [reflexivity|]. rewrite IHk. ring. }
          rewrite Z. ring. }
  destruct (G p) as [q [L E]]. exists q. split; [lia|exact E].
Qed.
Lemma even_integral (g : R -> R) I : continuity g -> (forall t, g (- t) = g t) -> is_int g (-1) 1 I -> is_int g 0 1 (I / 2).
Proof.
  intros C Ev H.
  assert (ex : ex_RInt g 0 1) by (apply (ex_RInt_continuous (V := R_CompleteNormedModule)); intros; now apply cont_of).
  set (J := RInt g 0 1). assert (HJ : is_int g 0 1 J) by exact (RInt_correct g 0 1 ex).
  assert (HK : is_int g (-1) 0 J).
  { assert (A : is_int g (-1 * 0 + 0) (-1 * -1 + 0) J) by (replace (-1 * 0 + 0) with 0 by ring; replace (-1 * -1 + 0) with 1 by ring; exact HJ).
    apply (is_RInt_comp_lin (V := R_NormedModule)) in A. apply (is_RInt_swap (V := R_NormedModule)) in A.
    apply (is_RInt_scal (V := R_NormedModule) _ _ _ (-1)) in A. eapply is_int_val; [eapply is_int_ext; [|exact A]|].
    - intros t. change (-1 * (-1 * g (-1 * t + 0)) = g t). replace (-1 * t + 0) with (- t) by ring. rewrite Ev. ring.
    - change (-1 * - J = J). ring. }
  assert (T : is_int g (-1) 1 (J + J)) by exact (is_RInt_Chasles (V := R_NormedModule) g _ _ _ _ _ HK HJ).
  assert (I = J + J).
  { rewrite <- (is_RInt_unique (V := R_CompleteNormedModule) g (-1) 1 I H). exact (is_RInt_unique (V := R_CompleteNormedModule) g (-1) 1 _ T). }
  eapply is_int_val; [exact HJ|]. lra.
Qed.
Lemma zip_filter_rule keep (g s : R -> R) a c f :
  rule_sum (map (fun p => g (fst p)) (zip_filter keep a c)) (map (fun p => s (fst p) * snd p) (zip_filter keep a c)) f
  = rule_sum a c (fun t => if keep t then s t * f (g t) else 0).
Proof.
  unfold zip_filter. revert c. induction a as [|x a IH]; intros [|w c]; cbn [combine filter map rule_sum fst snd]; try reflexivity.
  destruct (keep x); cbn [map rule_sum fst snd]; rewrite IH; ring.
Qed.
Lemma rule_sum_ext_in a c f g : (forall x, In x a -> f x = g x) -> rule_sum a c f = rule_sum a c g.
Proof.
  revert c. induction a as [|x a IH]; intros [|w c] H; cbn [rule_sum]; try reflexivity.
  rewrite H by now left. rewrite IH; [reflexivity|]. intros; apply H. now right.
Qed.
Lemma rule_sum_mult a c d f : rule_sum a c (fun t => d * f t) = d * rule_sum a c f.
Proof. apply rule_sum_linear. Qed.
Lemma sqrt_1m t : 0 <= t -> sqrt (1 - (1 - t ^ 2)) = t.
Proof. intros H. replace (1 - (1 - t ^ 2)) with (t * t) by ring. now apply sqrt_square. Qed.
Lemma q8_exact n x w : (1 <= n)%nat -> List.length x = n -> List.length w = n -> (forall t, In t x -> t < 0) ->
  let r := expand_roots x w (2 * n) n in plain_exact_for (2 * (2 * n)) (-1) 1 r ->
  exact_for (2 * n) (fun x => / sqrt (1 - x)) 0 1 (q8_roots (fst r) (snd r)).
Proof.
  intros Hn Lx Lw Hneg r Hr p Hp.
  destruct (compose_square p) as [q [Lq Eq]].
  assert (V : rule_sum (fst (q8_roots (fst r) (snd r))) (snd (q8_roots (fst r) (snd r))) (peval p) = rule_sum (fst r) (snd r) (peval q)).
  { unfold q8_roots. cbn [fst snd]. rewrite (zip_filter_rule _ (fun t => 1 - t ^ 2) (fun _ => 2)).
    unfold r. destruct (expand_even x w n (peval q) Hn Lx Lw) as [_ [_ ->]].
    match goal with |- rule_sum _ _ ?f = _ => destruct (expand_even x w n f Hn Lx Lw) as [_ [_ ->]] end.
    apply rule_sum_ext_in. intros t Ht. specialize (Hneg t Ht). destruct (Rle_dec 0 t); [lra|]. destruct (Rle_dec 0 (- t)); [|lra].
    rewrite !Eq. replace ((- t) ^ 2) with (t ^ 2) by ring. ring. }
  rewrite V. specialize (Hr q ltac:(lia)).
  assert (HI : is_int (fun t => 2 * peval p (1 - t ^ 2)) 0 1 (rule_sum (fst r) (snd r) (peval q))).
  { apply even_integral in Hr; [|apply peval_cont|intros t; rewrite !Eq; f_equal; ring].
    apply (is_RInt_scal (V := R_NormedModule) _ _ _ 2) in Hr.
    eapply is_int_val; [eapply is_int_ext; [|exact Hr]|].
    - intros t. change (2 * peval q t = 2 * peval p (1 - t ^ 2)). now rewrite Eq.
    - change (2 * (rule_sum (fst r) (snd r) (peval q) / 2) = rule_sum (fst r) (snd r) (peval q)). field. }
  apply (improper_sub _ (fun t => 2 * peval p (1 - t ^ 2)) (fun t => 1 - t ^ 2) (fun t => - 2 * t) 0 1 0 1).
  - lra.
  - ring.
  - ring.
  - intros t. auto_derive; [exact Logic.I|ring].
  - intros t. apply cont_of. reg.
  - intros t Ht. lra.
  - intros u Hu. apply cont_weighted. apply continuity_pt_inv; [apply sqrt_cont; [reg|lra]|]. apply Rgt_not_eq, sqrt_lt_R0. lra.
  - intros t. apply cont_of. apply (continuity_mult (fun t => 2) (fun t => peval p (1 - t ^ 2))); [reg|].
    apply (continuity_comp (fun t => 1 - t ^ 2) (peval p)); [reg|apply peval_cont].
  - intros t Ht. rewrite sqrt_1m by lra. field. lra.
  - exact HI.
Qed.
Lemma q9_exact n x w : (1 <= n)%nat -> List.length x = S n -> List.length w = S n -> (forall t, In t (firstn n x) -> t < 0) ->
  let r := expand_roots x w (2 * n + 1) (S n) in plain_exact_for (2 * (2 * n + 1)) (-1) 1 r ->
  exact_for (2 * n) (fun x => sqrt (1 - x)) 0 1 (q9_roots (fst r) (snd r)).
Proof.
  intros Hn Lx Lw Hneg r Hr p Hp.
  destruct (compose_square p) as [q0 [Lq0 Eq0]].
  assert (EX : exists q, (List.length q <= 2 * List.length p + 2)%nat /\ forall t, peval q t = t ^ 2 * peval p (1 - t ^ 2)).
  { exists ((q0 ++ [0]) ++ [0]). split; [rewrite !app_length; cbn [List.length]; lia|].
    intros t. rewrite !pev_snoc, Eq0. ring. }
  destruct EX as [q [Lq Eq]].
  assert (V : rule_sum (fst (q9_roots (fst r) (snd r))) (snd (q9_roots (fst r) (snd r))) (peval p) = rule_sum (fst r) (snd r) (peval q)).
  { unfold q9_roots. cbn [fst snd]. rewrite (zip_filter_rule _ (fun t => 1 - t ^ 2) (fun t => 2 * t ^ 2)).
    unfold r. destruct (expand_odd x w n (peval q) Hn Lx Lw) as [_ [_ ->]].
    match goal with |- rule_sum _ _ ?f = _ => destruct (expand_odd x w n f Hn Lx Lw) as [_ [_ ->]] end.
    f_equal.
    - apply rule_sum_ext_in. intros t Ht. specialize (Hneg t Ht). destruct (Rlt_dec 0 t); [lra|]. destruct (Rlt_dec 0 (- t)); [|lra].
      rewrite !Eq. replace ((- t) ^ 2) with (t ^ 2) by ring. ring.
    - destruct (Rlt_dec 0 0); [lra|]. rewrite Eq. ring. }
  rewrite V. specialize (Hr q ltac:(lia)).
  assert (HI : is_int (fun t => 2 * t ^ 2 * peval p (1 - t ^ 2)) 0 1 (rule_sum (fst r) (snd r) (peval q))).
  { apply even_integral in Hr; [|apply peval_cont|intros t; rewrite !Eq; replace ((- t) ^ 2) with (t ^ 2) by ring; reflexivity].
    apply (is_RInt_scal (V := R_NormedModule) _ _ _ 2) in Hr.
    eapply is_int_val; [eapply is_int_ext; [|exact Hr]|].
    - intros t. change (2 * peval q t = 2 * t ^ 2 * peval p (1 - t ^ 2)). rewrite Eq. ring.
    - change (2 * (rule_sum (fst r) (snd r) (peval q) / 2) = rule_sum (fst r) (snd r) (peval q)). field. }
  apply (improper_sub _ (fun t => 2 * t ^ 2 * peval p (1 - t ^ 2)) (fun t => 1 - t ^ 2) (fun t => - 2 * t) 0 1 0 1).
  - lra.
  - ring.
  - ring.
  - intros t. auto_derive; [exact Logic.I|ring].
  - intros t. apply cont_of. reg.
  - intros t Ht. lra.
  - intros u Hu. apply cont_weighted. apply sqrt_cont; [reg|lra].
  - intros t. apply cont_of. apply (continuity_mult (fun t => 2 * t ^ 2) (fun t => peval p (1 - t ^ 2))); [reg|].
    apply (continuity_comp (fun t => 1 - t ^ 2) (peval p)); [reg|apply peval_cont].
  - intros t Ht. rewrite sqrt_1m by lra. ring.
  - exact HI.
Qed.

(* ---- Clenshaw-Curtis ------------------------------------------------------------------------- *)
Definition id_store (v : R) : R := v.
Lemma T_at_m1 k : chebT k (-1) = (-1) ^ k.
Proof. rewrite <- cos_PI, T_cos, cos_int, cos_PI. reflexivity. Qed.
Lemma chebT_cont k : continuity (chebT k).
Proof. intros x. apply derivable_continuous_pt. eexists. apply T_derivative. Qed.
Lemma int_T j : is_int (chebT j) (-1) 1 (if Nat.even j then 2 / (1 - INR j ^ 2) else 0).
Proof.
  destruct j as [|[|j]].
  - cbn [Nat.even INR]. apply (is_int_ext (fun _ => 1)); [intros; unfold chebT; now rewrite V_0|].
    eapply is_int_val; [apply is_int_const|]. field.
  - cbn [Nat.even]. eapply is_int_val; [apply (is_RInt_derive (V := R_CompleteNormedModule) (fun x => x ^ 2 / 2) (chebT 1))|].
    + intros x _. unfold chebT. rewrite V_1. auto_derive; [exact Logic.I|field].
    + intros x _. apply cont_of, chebT_cont.
    + change (1 ^ 2 / 2 - (-1) ^ 2 / 2 = 0). field.
  - pose proof (pos_INR j) as P.
    set (F := fun x => chebT (S (S (S j))) x / (2 * INR (S (S (S j)))) - chebT (S j) x / (2 * INR (S j))).
    eapply is_int_val; [apply (is_RInt_derive (V := R_CompleteNormedModule) F (chebT (S (S j))))|].
    + intros x _. apply is_derive_Reals. unfold F.
      replace (chebT (S (S j)) x) with (INR (S (S (S j))) * W (S (S (S j))) x / (2 * INR (S (S (S j)))) - INR (S j) * W (S j) x / (2 * INR (S j))).
      * apply derivable_pt_lim_minus; apply derivable_pt_lim_div_scal, T_derivative.
      * rewrite W_T, !S_INR. field. lra.
    + intros x _. apply cont_of, chebT_cont.
    + change (F 1 - F (-1) = if Nat.even j then 2 / (1 - INR (S (S j)) ^ 2) else 0). unfold F. rewrite !T_at_1, !T_at_m1, !S_INR.
      destruct (Nat.even j) eqn:Ej.
      * apply Nat.even_spec in Ej. destruct Ej as [m ->]. replace ((-1) ^ S (2 * m)) with (-1) by (symmetry; apply pow_1_odd).
        cbn [pow] in *. replace ((-1) ^ (2 * m)) with 1 by (symmetry; apply pow_1_even). field. rewrite mult_INR in *. cbn [INR] in *. pose proof (pos_INR m). repeat split; nra.
      * rewrite <- Nat.negb_odd, Bool.negb_false_iff in Ej. apply Nat.odd_spec in Ej. destruct Ej as [m ->].
        replace (2 * m + 1)%nat with (S (2 * m)) in * by lia.
        cbn [pow]. replace ((-1) ^ (2 * m)) with 1 by (symmetry; apply pow_1_even). field. pose proof (pos_INR (S (2 * m))). lra.
Qed.
