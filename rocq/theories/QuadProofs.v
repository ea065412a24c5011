From Coq Require Import Reals Lra Lia.
From Coquelicot Require Import RInt RInt_analysis Hierarchy Continuity Derive AutoDerive Rbar.
From Verif Require Import Base PolyModel PolySpec PolyProofs PolyProofs2 OrthoModel OrthoProofs
  ChebModel ChebSpec ChebProofs ChebProofs2 ChebProofs3 QuadModel QuadSpec.
Local Open Scope R_scope.

Local Notation is_int := (@is_RInt R_NormedModule).

Lemma is_int_val (f : R -> R) a b (I J : R) : is_int f a b I -> I = J -> is_int f a b J.
Proof. intros H <-. exact H. Qed.
Lemma is_int_const a b c : is_int (fun _ => c) a b ((b - a) * c).
Proof. exact (is_RInt_const (V := R_NormedModule) a b c). Qed.
Lemma is_int_ext (f g : R -> R) a b I : (forall x, f x = g x) -> is_int f a b I -> is_int g a b I.
Proof. intros E. apply (is_RInt_ext (V := R_NormedModule)). intros; apply E. Qed.

(* ---- integration by substitution ------------------------------------------------------------ *)
Lemma is_derive_cont (f : R -> R) df : (forall t, is_derive f t (df t)) -> continuity f.
Proof.
  intros H t. apply derivable_continuous_pt. exists (df t). apply is_derive_Reals, H.
Qed.
Lemma strictly_dec (X dX : R -> R) lo hi : (forall t, is_derive X t (dX t)) -> (forall t, lo < t < hi -> dX t < 0) ->
  forall s t, lo <= s -> s < t -> t <= hi -> X t < X s.
Proof.
  intros HX Hd s t H1 H2 H3.
  destruct (MVT_gen X s t dX) as [c [Hc E]].
  - intros; apply HX.
  - intros x _. apply (is_derive_cont X dX HX).
  - rewrite Rmin_left, Rmax_right in Hc by lra.
    (* c may be an end point; use the midpoint argument instead *)
    clear Hc E c.
    assert (W : forall u v, lo < u -> u < v -> v < hi -> X v < X u).
    { intros u v G1 G2 G3. destruct (MVT_gen X u v dX) as [c [Hc E]].
      - intros; apply HX.
      - intros x _. apply (is_derive_cont X dX HX).
      - rewrite Rmin_left, Rmax_right in Hc by lra. specialize (Hd c ltac:(lra)). nra. }
    assert (LE : forall u v, lo <= u -> u < v -> v <= hi -> X v <= X u).
    { intros u v G1 G2 G3. destruct (MVT_gen X u v (fun t => dX t)) as [c [Hc E]].
      - intros; apply HX.
      - intros x _. apply (is_derive_cont X dX HX).
      - destruct (Rle_lt_dec (X v) (X u)) as [G|G]; [exact G|exfalso].
        (* continuity at the ends *)
        assert (CX : continuity X) by (eapply is_derive_cont; exact HX).
        pose proof (CX u) as Cu. pose proof (CX v) as Cv.
        set (e := (X v - X u) / 2). assert (He : 0 < e) by (unfold e; lra).
        destruct (Cu e He) as [d1 [Hd1 K1]]. destruct (Cv e He) as [d2 [Hd2 K2]].
        set (d := Rmin (Rmin d1 d2) (v - u) / 3).
        assert (D : 0 < d /\ d < d1 /\ d < d2 /\ 3 * d <= v - u).
        { unfold d. assert (0 < Rmin (Rmin d1 d2) (v - u)) by (repeat apply Rmin_glb_lt; lra).
          pose proof (Rmin_l (Rmin d1 d2) (v - u)). pose proof (Rmin_r (Rmin d1 d2) (v - u)).
          pose proof (Rmin_l d1 d2). pose proof (Rmin_r d1 d2). lra. }
        specialize (W (u + d) (v - d) ltac:(lra) ltac:(lra) ltac:(lra)).
        specialize (K1 (u + d)). specialize (K2 (v - d)). unfold R_dist, dist in K1, K2. cbn in K1, K2. unfold R_dist in K1, K2.
        assert (A1 : Rabs (X (u + d) - X u) < e).
        { apply K1. split; [split; [exact Logic.I|lra]|]. rewrite Rabs_right; lra. }
        assert (A2 : Rabs (X (v - d) - X v) < e).
        { apply K2. split; [split; [exact Logic.I|lra]|]. rewrite Rabs_left; lra. }
        apply Rabs_def2 in A1. apply Rabs_def2 in A2. unfold e in *. lra. }
    set (s' := s + (t - s) / 3). set (t' := s + 2 * (t - s) / 3).
    pose proof (LE s s' ltac:(lra) ltac:(unfold s'; lra) ltac:(unfold s'; lra)).
    pose proof (LE t' t ltac:(unfold t'; lra) ltac:(unfold t'; lra) ltac:(lra)).
    pose proof (W s' t' ltac:(unfold s'; lra) ltac:(unfold s', t'; lra) ltac:(unfold t'; lra)). lra.
Qed.
Lemma dec_reflect (X dX : R -> R) lo hi : (forall t, is_derive X t (dX t)) -> (forall t, lo < t < hi -> dX t < 0) ->
  forall s t, lo <= s <= hi -> lo <= t <= hi -> X s < X t -> t < s.
Proof.
  intros HX Hd s t Hs Ht L. destruct (Rle_lt_dec s t) as [G|G]; [|exact G]. exfalso. destruct (Rle_lt_or_eq_dec _ _ G) as [G'|G'].
  - pose proof (strictly_dec X dX lo hi HX Hd s t ltac:(lra) G' ltac:(lra)). lra.
  - subst. lra.
Qed.
Lemma improper_sub (f H X dX : R -> R) a b lo hi I : lo < hi -> X lo = b -> X hi = a ->
  (forall t, is_derive X t (dX t)) -> (forall t, continuous dX t) -> (forall t, lo < t < hi -> dX t < 0) ->
  (forall u, a < u < b -> continuous f u) -> (forall t, continuous H t) ->
  (forall t, lo < t < hi -> - dX t * f (X t) = H t) -> is_int H lo hi I -> improper_integral f a b I.
Proof.
  intros Hlh Hlo Hhi HX HdX Hneg Hf HH Heq HI eps Heps.
  pose proof (strictly_dec X dX lo hi HX Hneg) as DEC. pose proof (dec_reflect X dX lo hi HX Hneg) as REF.
  assert (exH : forall s t, ex_RInt H s t). { intros s t. apply (ex_RInt_continuous (V := R_CompleteNormedModule)). intros; apply HH. }
  set (G := fun t => RInt H lo t).
  assert (CG : forall t, continuous G t).
  { intros t. apply (continuous_RInt_1 (V := R_NormedModule) H lo t G). apply filter_forall. intros z. apply (RInt_correct H), exH. }
  assert (Iv : G hi = I). { unfold G. apply (is_RInt_unique H lo hi I HI). }
  assert (G0 : G lo = 0). { unfold G. apply (RInt_point lo H). }
  assert (near : forall t0, exists d, 0 < d /\ forall t, Rabs (t - t0) < d -> Rabs (G t - G t0) < eps / 2).
  { intros t0. assert (P : 0 < eps / 2) by lra. destruct (CG t0 (fun y => Rabs (y - G t0) < eps / 2)) as [d Hd].
    - exists (mkposreal _ P). intros y Hy. exact Hy.
    - exists (pos d). split; [apply cond_pos|]. intros t Ht. apply Hd. exact Ht. }
  destruct (near lo) as [d1 [P1 N1]]. destruct (near hi) as [d2 [P2 N2]].
  set (t1 := lo + Rmin d1 (hi - lo) / 2). set (t2 := hi - Rmin d2 (hi - lo) / 2).
  assert (B1 : lo < t1 < hi /\ t1 < lo + d1).
  { unfold t1. assert (0 < Rmin d1 (hi - lo)) by (apply Rmin_glb_lt; lra).
    pose proof (Rmin_l d1 (hi - lo)). pose proof (Rmin_r d1 (hi - lo)). lra. }
  assert (B2 : lo < t2 < hi /\ hi - d2 < t2).
  { unfold t2. assert (0 < Rmin d2 (hi - lo)) by (apply Rmin_glb_lt; lra).
    pose proof (Rmin_l d2 (hi - lo)). pose proof (Rmin_r d2 (hi - lo)). lra. }
  assert (Q1 : 0 < b - X t1). { pose proof (DEC lo t1). lra. }
  assert (Q2 : 0 < X t2 - a). { pose proof (DEC t2 hi). lra. }
  exists (Rmin (b - X t1) (X t2 - a)). split; [apply Rmin_glb_lt; lra|].
  intros u v Hu Hub Hv Hva. pose proof (Rmin_l (b - X t1) (X t2 - a)). pose proof (Rmin_r (b - X t1) (X t2 - a)).
  assert (CX : continuity X) by (eapply is_derive_cont; exact HX).
  assert (PRE : forall y, a < y < b -> exists t, lo < t < hi /\ X t = y).
  { intros y Hy. destruct (IVT_gen X lo hi y CX) as [t [Ht E]].
    - rewrite Hlo, Hhi, Rmin_right, Rmax_left by lra. lra.
    - rewrite Rmin_left, Rmax_right in Ht by lra. exists t. split; [|exact E].
      split; apply Rnot_le_lt; intros L; [assert (t = lo) by lra|assert (t = hi) by lra]; subst t; lra. }
  destruct (PRE u ltac:(lra)) as [tu [Tu Eu]]. destruct (PRE v ltac:(lra)) as [tv [Tv Ev]].
  assert (L1 : tv < t1). { apply (REF t1 tv); lra. }
  assert (L2 : t2 < tu). { apply (REF tu t2); lra. }
  assert (exf : ex_RInt f u v).
  { apply (ex_RInt_continuous (V := R_CompleteNormedModule)). intros z Hz. apply Hf.
    pose proof (Rmin_l u v). pose proof (Rmin_r u v). pose proof (Rmax_l u v). pose proof (Rmax_r u v).
    split; [apply Rlt_le_trans with (Rmin u v); [apply Rmin_glb_lt; lra|tauto]|apply Rle_lt_trans with (Rmax u v); [tauto|apply Rmax_lub_lt; lra]]. }
  exists (RInt f u v). split; [exact (RInt_correct f u v exf)|].
  assert (S1 : is_int (fun y => scal (dX y) (f (X y))) tu tv (RInt f (X tu) (X tv))).
  { assert (BT : forall y, Rmin tu tv <= y <= Rmax tu tv -> lo < y < hi).
    { intros y Hy. split; [apply Rlt_le_trans with (Rmin tu tv); [apply Rmin_glb_lt; lra|tauto]|apply Rle_lt_trans with (Rmax tu tv); [tauto|apply Rmax_lub_lt; lra]]. }
    apply (is_RInt_comp (V := R_CompleteNormedModule) f X dX).
    - intros y Hy. apply Hf. specialize (BT y Hy). pose proof (DEC lo y). pose proof (DEC y hi). lra.
    - intros y Hy. split; [apply HX|apply HdX]. }
  rewrite Eu, Ev in S1.
  assert (S2 : is_int (fun y => - H y) tu tv (RInt f u v)).
  { refine (is_RInt_ext (V := R_NormedModule) _ _ _ _ _ _ S1). intros y Hy.
    assert (lo < y < hi).
    { split; [apply Rle_lt_trans with (Rmin tu tv); [apply Rmin_glb; lra|tauto]|apply Rlt_le_trans with (Rmax tu tv); [tauto|apply Rmax_lub; lra]]. }
    rewrite <- (Heq y) by assumption. cbn. change (dX y * f (X y) = - (- dX y * f (X y))). ring. }
  assert (S3 : is_int H tu tv (- RInt f u v)).
  { apply (is_RInt_ext (V := R_NormedModule) (fun y => opp (- H y))).
    - intros y _. change (- - H y = H y). ring.
    - exact (is_RInt_opp (V := R_NormedModule) _ _ _ _ S2). }
  assert (S4 : is_int H lo tv (plus (G tu) (- RInt f u v))).
  { apply (is_RInt_Chasles (V := R_NormedModule)) with tu; [apply (RInt_correct H), exH|exact S3]. }
  assert (S5 : G tv = G tu - RInt f u v).
  { unfold G at 1. rewrite (is_RInt_unique H lo tv _ S4). reflexivity. }
  pose proof (N1 tv ltac:(rewrite Rabs_right; lra)) as A1. pose proof (N2 tu ltac:(rewrite Rabs_left; lra)) as A2.
  replace (RInt f u v) with (G tu - G tv) by lra. rewrite <- Iv.
  replace (G tu - G tv - G hi) with ((G tu - G hi) - (G tv - G lo)) by lra.
  apply Rle_lt_trans with (Rabs (G tu - G hi) + Rabs (G tv - G lo)); [|lra].
  unfold Rminus at 1. rewrite <- (Rabs_Ropp (G tv - G lo)). apply Rabs_triang.
Qed.

(* ---- a rule that is exact for the Chebyshev polynomials is exact for all polynomials --------- *)
Definition linear (Q : (R -> R) -> R) : Prop :=
  (forall f g, (forall x, f x = g x) -> Q f = Q g) /\ (forall f g, Q (fun x => f x + g x) = Q f + Q g) /\ (forall c f, Q (fun x => c * f x) = c * Q f).
Lemma exact_cheb N (h X : R -> R) lo hi Q : (0 < N)%nat -> linear Q ->
  (forall j, (j < N)%nat -> is_int (fun t => h t * chebT j (X t)) lo hi (Q (chebT j))) ->
  forall p, (List.length p <= N)%nat -> is_int (fun t => h t * peval p (X t)) lo hi (Q (peval p)).
Proof.
  intros HN [QE [QA QS]] HT p Hp.
  destruct (poly2cheb_spec p (-1) 1 ltac:(lra)) as [ck [_ [L V]]].
  assert (Hck : ck <> []). { intros ->. specialize (V 0). rewrite chebval_empty in V. discriminate. }
  assert (E : forall x, peval p x = series 1 ck x).
  { intros x. specialize (V x). rewrite chebval_spec in V by exact Hck. injection V as V. rewrite <- V. f_equal.
    unfold map_from_interval. field. }
  assert (S : forall ck, (List.length ck <= N)%nat -> is_int (fun t => h t * series 1 ck (X t)) lo hi (Q (series 1 ck))).
  { clear - HT QE QA QS HN. induction ck as [|c ck IH]; intros L.
    - replace (Q (series 1 [])) with 0.
      + apply (is_RInt_ext (V := R_NormedModule) (fun _ => 0)); [intros; symmetry; apply Rmult_0_r|].
        eapply is_int_val; [apply is_int_const|ring].
      + rewrite (QE (series 1 []) (fun x => 0 * chebT 0 x)), QS by (intros; cbn [series]; ring). ring.
    - cbn [List.length] in L. rewrite (QE (series 1 (c :: ck)) (fun x => c * chebT (List.length ck) x + series 1 ck x)) by reflexivity.
      rewrite QA, QS.
      apply (is_RInt_ext (V := R_NormedModule) (fun t => plus (scal c (h t * chebT (List.length ck) (X t))) (h t * series 1 ck (X t)))).
      + intros t _. cbn [series]. unfold chebT. change (c * (h t * chebV 1 (List.length ck) (X t)) + h t * series 1 ck (X t) =
          h t * (c * chebV 1 (List.length ck) (X t) + series 1 ck (X t))). ring.
      + apply (is_RInt_plus (V := R_NormedModule)); [|apply IH; lia].
        apply (is_RInt_scal (V := R_NormedModule)), HT. lia. }
  rewrite (QE _ _ E).
  apply (is_RInt_ext (V := R_NormedModule) (fun t => h t * series 1 ck (X t))); [intros; now rewrite E|]. apply S. lia.
Qed.
Lemma rule_sum_linear nodes weights : linear (rule_sum nodes weights).
Proof.
  split; [|split].
  - intros f g E. revert weights. induction nodes as [|x nodes IH]; intros [|w ws]; cbn [rule_sum]; try reflexivity. now rewrite E, IH.
  - intros f g. revert weights. induction nodes as [|x nodes IH]; intros [|w ws]; cbn [rule_sum]; try ring. rewrite IH. ring.
  - intros c f. revert weights. induction nodes as [|x nodes IH]; intros [|w ws]; cbn [rule_sum]; try ring. rewrite IH. ring.
Qed.
Lemma rule_sum_seq (x wt : nat -> R) s n f : rule_sum (map x (seq s n)) (map wt (seq s n)) f = vsum n (fun j => wt (s + j)%nat * f (x (s + j)%nat)).
Proof.
  induction n as [|n IH]; [reflexivity|]. rewrite seq_S, !map_app. cbn [map vsum].
  rewrite <- IH. generalize (seq s n). intros l. induction l as [|i l IHl]; cbn [map app rule_sum]; [ring|]. rewrite IHl. ring.
Qed.

(* ---- integrals of cosines -------------------------------------------------------------------- *)
Lemma is_int_cos j : is_int (fun t => cos (INR j * t)) 0 PI (if Nat.eq_dec j 0 then PI else 0).
Proof.
  destruct (Nat.eq_dec j 0) as [->|Hj].
  - apply (is_RInt_ext (V := R_NormedModule) (fun _ => 1)); [intros; cbn [INR]; now rewrite Rmult_0_l, cos_0|].
    eapply is_int_val; [apply is_int_const|ring].
  - assert (P : 0 < INR j) by (apply lt_0_INR; lia).
    eapply is_int_val; [|].
    + apply (is_RInt_derive (fun t => sin (INR j * t) / INR j)).
      * intros x _. auto_derive; [exact Logic.I|]. field. lra.
      * intros x _. apply continuity_pt_filterlim. apply derivable_continuous_pt. reg.
    + change (sin (INR j * PI) / INR j - sin (INR j * 0) / INR j = 0). rewrite sin_int, Rmult_0_r, sin_0. field. lra.
Qed.
