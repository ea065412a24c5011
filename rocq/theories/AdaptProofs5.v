From Coq Require Import Reals Lra Lia.
From Coquelicot Require Import RInt Hierarchy Derive Continuity RInt_analysis AutoDerive Rcomplements.
From Verif Require Import Base PolyModel PolySpec OrthoModel QuadModel QuadSpec QuadProofs QuadProofs2 QuadProofs3 QuadProofs4 QuadProofs6 ChebProofs3 AdaptModel AdaptSpec AdaptProofs AdaptProofs4.
Local Open Scope R_scope.

Lemma sub_up (p : list R) a X : a <= X ->
  exists J, integral (fun x => / (1 + x - a) ^ 2 * peval p (1 - / (1 + x - a))) a X J /\ integral (peval p) 0 (1 - / (1 + X - a)) J.
Proof.
  intros H. set (g := fun x => 1 - / (1 + x - a)). set (dg := fun x => / (1 + x - a) ^ 2).
  assert (C : forall x, continuous (peval p) x) by (apply cont_of, peval_cont).
  exists (RInt (V := R_CompleteNormedModule) (peval p) (g a) (g X)). split.
  - eapply is_int_ext; [|apply (is_RInt_comp (V := R_CompleteNormedModule) (peval p) g dg a X)].
    + intros x. reflexivity.
    + intros; apply C.
    + intros x Hx. rewrite Rmin_left, Rmax_right in Hx by lra. split.
      * unfold g, dg. auto_derive; [lra|]. field. lra.
      * apply (ex_derive_continuous (V := R_NormedModule)). unfold dg. auto_derive. cbn [pow]. nra.
  - assert (G0 : g a = 0) by (unfold g; replace (1 + a - a) with 1 by ring; rewrite Rinv_1; ring).
    rewrite G0. apply (RInt_correct (V := R_CompleteNormedModule)). apply (ex_RInt_continuous (V := R_CompleteNormedModule)). intros; apply C.
Qed.
Lemma sub_down (p : list R) b X : X <= b ->
  exists J, integral (fun x => / (1 + b - x) ^ 2 * peval p (/ (1 + b - x) - 1)) X b J /\ integral (peval p) (/ (1 + b - X) - 1) 0 J.
Proof.
  intros H. set (g := fun x => / (1 + b - x) - 1). set (dg := fun x => / (1 + b - x) ^ 2).
  assert (C : forall x, continuous (peval p) x) by (apply cont_of, peval_cont).
  exists (RInt (V := R_CompleteNormedModule) (peval p) (g X) (g b)). split.
  - eapply is_int_ext; [|apply (is_RInt_comp (V := R_CompleteNormedModule) (peval p) g dg X b)].
    + intros x. reflexivity.
    + intros; apply C.
    + intros x Hx. rewrite Rmin_left, Rmax_right in Hx by lra. split.
      * unfold g, dg. auto_derive; [lra|]. field. lra.
      * apply (ex_derive_continuous (V := R_NormedModule)). unfold dg. auto_derive. cbn [pow]. nra.
  - assert (G0 : g b = 0) by (unfold g; replace (1 + b - b) with 1 by ring; rewrite Rinv_1; ring).
    rewrite G0. apply (RInt_correct (V := R_CompleteNormedModule)). apply (ex_RInt_continuous (V := R_CompleteNormedModule)). intros; apply C.
Qed.
Lemma poly_bound p lo hi : lo <= hi -> exists B, 0 <= B /\ forall t, lo <= t <= hi -> Rabs (peval p t) <= B.
Proof.
  intros H. destruct (continuity_ab_maj (fun t => Rabs (peval p t)) lo hi H) as (m & Hm & _).
  - intros c _. apply (continuity_pt_comp (peval p) Rabs); [apply peval_cont|apply Rcontinuity_abs].
  - exists (Rabs (peval p m)). split; [apply Rabs_pos|exact Hm].
Qed.
Lemma poly_tail p u v I J a : 
  integral (peval p) a u I -> integral (peval p) a v J -> u <= v -> forall B, (forall t, u <= t <= v -> Rabs (peval p t) <= B) -> Rabs (I - J) <= (v - u) * B.
Proof.
  intros HI HJ Huv B HB.
  assert (G : integral (peval p) u v (plus (opp I) J)).
  { apply (is_RInt_Chasles (V := R_NormedModule) _ _ a); [|exact HJ]. apply (is_RInt_swap (V := R_NormedModule)). exact HI. }
  pose proof (norm_RInt_le_const (V := R_NormedModule) _ _ _ _ B Huv HB G) as N. unfold norm in N. cbn in N.
  replace (I - J) with (- (plus (opp I) J)) by (unfold plus, opp; cbn; ring). rewrite Rabs_Ropp. exact N.
Qed.
Lemma to_infinity_limit p f a I : (forall x, a <= x -> f x = / (1 + x - a) ^ 2 * peval p (1 - / (1 + x - a))) ->
  integral (peval p) 0 1 I -> integral_to_infinity f a I.
Proof.
  intros Hf HI e He. destruct (poly_bound p 0 1 ltac:(lra)) as (B & HB & Hb).
  exists (a + (B + 1) / e). intros X HX Ha. destruct (sub_up p a X Ha) as (J & HJ & HP). exists J. split.
  - refine (is_RInt_ext (V := R_NormedModule) _ f a X J _ HJ). intros x Hx. rewrite Rmin_left in Hx by lra. symmetry. apply Hf. lra.
  - set (T := 1 - / (1 + X - a)) in *. assert (PT : 0 < / (1 + X - a)) by (apply Rinv_0_lt_compat; lra).
    assert (LT : / (1 + X - a) <= 1) by (rewrite <- Rinv_1; apply Rinv_le_contravar; lra).
    assert (N : Rabs (J - I) <= (1 - T) * B).
    { eapply poly_tail; [exact HP|exact HI|unfold T; lra|]. intros t Ht. apply Hb. unfold T in Ht. lra. }
    assert (X2 : (B + 1) / e < 1 + X - a) by lra. replace (1 - T) with (/ (1 + X - a)) in N by (unfold T; ring).
    assert (Q : (B + 1) < e * (1 + X - a)).
    { apply Rmult_lt_compat_l with (r := e) in X2; [|lra]. replace (e * ((B + 1) / e)) with (B + 1) in X2 by (field; lra). exact X2. }
    apply Rle_lt_trans with (/ (1 + X - a) * B); [exact N|].
    apply Rmult_lt_reg_l with (1 + X - a); [lra|]. rewrite <- Rmult_assoc, Rinv_r by lra. lra.
Qed.
Lemma from_infinity_limit p f b I : (forall x, x <= b -> f x = / (1 + b - x) ^ 2 * peval p (/ (1 + b - x) - 1)) ->
  integral (peval p) (-1) 0 I -> integral_from_infinity f b I.
Proof.
  intros Hf HI e He. destruct (poly_bound p (-1) 0 ltac:(lra)) as (B & HB & Hb).
  exists (b - (B + 1) / e). intros X HX Ha. destruct (sub_down p b X Ha) as (J & HJ & HP). exists J. split.
  - refine (is_RInt_ext (V := R_NormedModule) _ f X b J _ HJ). intros x Hx. rewrite Rmax_right in Hx by lra. symmetry. apply Hf. lra.
  - set (T := / (1 + b - X) - 1) in *. assert (PT : 0 < / (1 + b - X)) by (apply Rinv_0_lt_compat; lra).
    assert (LT : / (1 + b - X) <= 1) by (rewrite <- Rinv_1; apply Rinv_le_contravar; lra).
    assert (N : Rabs (I - J) <= (T - -1) * B).
    { assert (HP' : integral (peval p) 0 T (opp J)) by (apply (is_RInt_swap (V := R_NormedModule)); exact HP).
      assert (HI' : integral (peval p) 0 (-1) (opp I)) by (apply (is_RInt_swap (V := R_NormedModule)); exact HI).
      pose proof (poly_tail p (-1) T _ _ 0 HI' HP' ltac:(unfold T; lra) B) as N.
      replace (opp I - opp J) with (- (I - J)) in N by (unfold opp; cbn; ring). rewrite Rabs_Ropp in N. apply N. intros t Ht. apply Hb. unfold T in Ht. lra. }
    rewrite Rabs_minus_sym.
    assert (X2 : (B + 1) / e < 1 + b - X) by lra. replace (T - -1) with (/ (1 + b - X)) in N by (unfold T; ring).
    assert (Q : (B + 1) < e * (1 + b - X)).
    { apply Rmult_lt_compat_l with (r := e) in X2; [|lra]. replace (e * ((B + 1) / e)) with (B + 1) in X2 by (field; lra). exact X2. }
    apply Rle_lt_trans with (/ (1 + b - X) * B); [exact N|].
    apply Rmult_lt_reg_l with (1 + b - X); [lra|]. rewrite <- Rmult_assoc, Rinv_r by lra. lra.
Qed.
Lemma panel_inside a b N j t : (j < N)%nat -> -1 < t < 1 -> a < b ->
  a < a + (2 * INR j + 1) * ((b - a) / (2 * INR N)) + (b - a) / (2 * INR N) * t < b.
Proof.
  intros Hj Ht Hab. assert (PN : 0 < INR N) by (apply lt_0_INR; lia). set (d := (b - a) / (2 * INR N)).
  assert (Hd : 0 < d) by (unfold d; apply Rdiv_lt_0_compat; lra). assert (Ed : b = a + 2 * INR N * d) by (unfold d; field; lra).
  assert (Hj' : INR j + 1 <= INR N) by (rewrite <- S_INR; apply le_INR; lia). pose proof (pos_INR j).
  split; [nra|]. rewrite Ed. nra.
Qed.
Lemma up_exact eps nodes weights M p f a abseps n : (0 < M)%nat -> plain_exact_for M (-1) 1 (nodes, weights) -> (forall t, In t nodes -> -1 < t < 1) ->
  (List.length p <= M)%nat -> (2 <= n)%nat -> 0 < abseps ->
  (forall x, a <= x -> f x = / (1 + x - a) ^ 2 * peval p (1 - / (1 + x - a))) ->
  exists I, qg_integrate false eps nodes weights (to_infinity f a) 0 1 abseps n = Ok (Some I, Some (2 * eps)) /\ integral_to_infinity f a I.
Proof.
  intros HM HE HN Lp Ln Ha Hf. pose proof (rule_nonempty _ _ _ HM HE) as Hn.
  assert (EQ : forall t, 0 < t < 1 -> to_infinity f a t = peval p t).
  { intros t Ht. unfold to_infinity. assert (0 < t / (1 - t)) by (apply Rdiv_lt_0_compat; lra). rewrite Hf by lra.
    replace (1 + (a + t / (1 - t)) - a) with (/ (1 - t)) by (field; lra). rewrite Rinv_inv.
    replace (1 - (1 - t)) with t by ring. rewrite pow_inv, Rinv_inv. field. lra. }
  exists (composite nodes weights (peval p) 0 1 1). split.
  - apply qg_integrate_const; auto. intros k. rewrite (composite_ext _ _ _ (peval p)).
    + apply (int_unique (peval p) 0 1); [apply (composite_exact _ _ M); auto using pow2_pos|apply (composite_exact _ _ M); auto].
    + intros j t Ht Hj. apply EQ. apply panel_inside; auto. lra.
  - apply (to_infinity_limit p); [exact Hf|]. apply (composite_exact _ _ M); auto.
Qed.
Lemma down_exact eps nodes weights M p f b abseps n : (0 < M)%nat -> plain_exact_for M (-1) 1 (nodes, weights) -> (forall t, In t nodes -> -1 < t < 1) ->
  (List.length p <= M)%nat -> (2 <= n)%nat -> 0 < abseps ->
  (forall x, x <= b -> f x = / (1 + b - x) ^ 2 * peval p (/ (1 + b - x) - 1)) ->
  exists I, qg_integrate false eps nodes weights (from_infinity f b) (-1) 0 abseps n = Ok (Some I, Some (2 * eps)) /\ integral_from_infinity f b I.
Proof.
  intros HM HE HN Lp Ln Ha Hf. pose proof (rule_nonempty _ _ _ HM HE) as Hn.
  assert (EQ : forall t, -1 < t < 0 -> from_infinity f b t = peval p t).
  { intros t Ht. unfold from_infinity. assert (0 < - t / (1 + t)) by (apply Rdiv_lt_0_compat; lra).
    assert (t / (1 + t) = - (- t / (1 + t))) by (field; lra). rewrite Hf by lra.
    replace (1 + b - (b + t / (1 + t))) with (/ (1 + t)) by (field; lra). rewrite Rinv_inv.
    replace (1 + t - 1) with t by ring. rewrite pow_inv, Rinv_inv. field. lra. }
  exists (composite nodes weights (peval p) (-1) 0 1). split.
  - apply qg_integrate_const; auto. intros k. rewrite (composite_ext _ _ _ (peval p)).
    + apply (int_unique (peval p) (-1) 0); [apply (composite_exact _ _ M); auto using pow2_pos|apply (composite_exact _ _ M); auto].
    + intros j t Ht Hj. apply EQ. apply panel_inside; auto. lra.
  - apply (from_infinity_limit p); [exact Hf|]. apply (composite_exact _ _ M); auto.
Qed.
Lemma quadgr_up eps nodes weights M p f a abseps n : (0 < M)%nat -> plain_exact_for M (-1) 1 (nodes, weights) -> (forall t, In t nodes -> -1 < t < 1) ->
  (List.length p <= M)%nat -> (2 <= n)%nat -> 0 < abseps ->
  (forall x, a <= x -> f x = / (1 + x - a) ^ 2 * peval p (1 - / (1 + x - a))) ->
  exists I, quadgr false eps nodes weights f (Fin a) PosInf abseps n = Ok (Some I, Some (2 * eps)) /\ integral_to_infinity f a I.
Proof. apply up_exact. Qed.
Lemma quadgr_down eps nodes weights M p f b abseps n : (0 < M)%nat -> plain_exact_for M (-1) 1 (nodes, weights) -> (forall t, In t nodes -> -1 < t < 1) ->
  (List.length p <= M)%nat -> (2 <= n)%nat -> 0 < abseps ->
  (forall x, x <= b -> f x = / (1 + b - x) ^ 2 * peval p (/ (1 + b - x) - 1)) ->
  exists I, quadgr false eps nodes weights f NegInf (Fin b) abseps n = Ok (Some I, Some (2 * eps)) /\ integral_from_infinity f b I.
Proof. apply down_exact. Qed.
Lemma quadgr_line eps nodes weights M p q f abseps n : (0 < M)%nat -> plain_exact_for M (-1) 1 (nodes, weights) -> (forall t, In t nodes -> -1 < t < 1) ->
  (List.length p <= M)%nat -> (List.length q <= M)%nat -> (2 <= n)%nat -> 0 < abseps ->
  (forall x, 0 <= x -> f x = / (1 + x) ^ 2 * peval p (1 - / (1 + x))) -> (forall x, x <= 0 -> f x = / (1 - x) ^ 2 * peval q (/ (1 - x) - 1)) ->
  exists I J, quadgr false eps nodes weights f NegInf PosInf abseps n = Ok (Some (I + J), Some (2 * eps + 2 * eps)) /\
    integral_to_infinity f 0 I /\ integral_from_infinity f 0 J.
Proof.
  intros HM HE HN Lp Lq Ln Ha Hp Hq.
  destruct (up_exact eps nodes weights M p f 0 (abseps / 2) n) as (I & E1 & H1); auto; [lra| |].
  { intros x Hx. rewrite Rminus_0_r. apply Hp. exact Hx. }
  destruct (down_exact eps nodes weights M q f 0 (abseps / 2) n) as (J & E2 & H2); auto; [lra| |].
  { intros x Hx. rewrite Rplus_0_r. apply Hq. exact Hx. }
  exists I, J. split; [|auto]. unfold quadgr. cbn [lim_eqb lim_gtb qg_ordered]. rewrite E1, E2. reflexivity.
Qed.

(* ---- romberg ---- *)
Lemma nearest_bounds lg x : 0 < x -> nearest_log2 lg x -> 2 ^ 5 < x ^ 2 -> x ^ 2 < 2 ^ 61 -> (3 <= lg <= 30)%Z.
Proof.
  unfold nearest_log2. intros Hx H Hlo Hhi. assert (L2 : 0 < ln 2) by (rewrite <- ln_1; apply ln_increasing; lra).
  assert (P : forall n, ln (2 ^ n) = INR n * ln 2) by (intros n; apply ln_pow; lra).
  assert (Q : ln (x ^ 2) = 2 * ln x) by (rewrite ln_pow by lra; reflexivity).
  assert (A : INR 5 * ln 2 < 2 * ln x) by (rewrite <- P, <- Q; apply ln_increasing; [apply pow_lt; lra|exact Hlo]).
  assert (B : 2 * ln x < INR 61 * ln 2) by (rewrite <- P, <- Q; apply ln_increasing; [apply pow_lt; lra|exact Hhi]).
  set (y := ln x / ln 2) in *. assert (EY : ln x = y * ln 2) by (unfold y; field; lra). rewrite EY in A, B.
  rewrite INR_IZR_INZ in A, B. cbn in A, B.
  assert (5 < 2 * y) by (apply Rmult_lt_reg_r with (ln 2); lra).
  assert (2 * y < 61) by (apply Rmult_lt_reg_r with (ln 2); lra).
  apply Rabs_le_between in H.
  split.
  - assert (G : 2 < IZR lg) by lra. apply lt_IZR in G. lia.
  - assert (G : IZR lg < 31) by lra. apply lt_IZR in G. lia.
Qed.
Lemma romberg_type_error dea3 lg f a b releps abseps : 6 / 10 ^ 9 <= b - a <= 3 / 2 -> nearest_log2 lg ((b - a) * 10 ^ 9) ->
  romberg dea3 lg f a b releps abseps = Err TypeError.
Proof.
  intros H HN. set (x := (b - a) * 10 ^ 9) in *. assert (Hx : 6 <= x <= 15 * 10 ^ 8).
  { unfold x. split; [|nra]. apply Rmult_le_reg_r with (/ 10 ^ 9); [apply Rinv_0_lt_compat, pow_lt; lra|]. replace ((b - a) * 10 ^ 9 * / 10 ^ 9) with (b - a) by (field; lra). lra. }
  destruct (nearest_bounds lg x) as [L U]; [lra|exact HN| | |].
  - cbn [pow]. nra.
  - apply Rle_lt_trans with ((15 * 10 ^ 8) ^ 2); [apply pow_incr; lra|]. cbn [pow]. lra.
  - unfold romberg, romberg_table_limit. replace (30 <? lg)%Z with false by (symmetry; apply Z.ltb_ge; lia).
    replace (lg <? 3)%Z with false by (symmetry; apply Z.ltb_ge; lia). reflexivity.
Qed.
