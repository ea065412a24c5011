From Coq Require Import Reals Lra Lia Sorted.
From Verif Require Import Base PolyModel PolySpec PolyProofs PolyProofs2 PPModel PPSpec PPProofs PPProofs2
  SplineModel SplineProofs SlopesModel SlopesSpec SlopesProofs.
Local Open Scope R_scope.

Lemma sgn_pos a : 0 < a -> sgn a = 1.
Proof. intros. unfold sgn. destruct (Rlt_dec a 0); [lra|]. destruct (Rlt_dec 0 a); [reflexivity|lra]. Qed.
Lemma sgn_neg a : a < 0 -> sgn a = -1.
Proof. intros. unfold sgn. destruct (Rlt_dec a 0); [reflexivity|lra]. Qed.
Lemma sgn_zero : sgn 0 = 0.
Proof. unfold sgn. destruct (Rlt_dec 0 0); [lra|]. reflexivity. Qed.
Lemma req_true a b : req a b = true <-> a = b.
Proof. unfold req. destruct (Req_EM_T a b); split; congruence. Qed.
Lemma req_false a b : req a b = false <-> a <> b.
Proof. unfold req. destruct (Req_EM_T a b); split; congruence. Qed.
Lemma req_refl a : req a a = true.
Proof. now apply req_true. Qed.
Ltac rcase a := destruct (Rtotal_order a 0) as [?|[?|?]].

Lemma box_zero m : in_box 0 m.
Proof. split; lra. Qed.
Lemma box_pos d m : 0 < m -> 0 <= d <= 3 * m -> in_box d m.
Proof. intros. split; intros; lra. Qed.
Lemma box_neg d m : m < 0 -> 3 * m <= d <= 0 -> in_box d m.
Proof. intros. split; intros; lra. Qed.

Lemma harmonic_bounds w1 w2 m0 m1 : 0 < w1 -> 0 < w2 -> w2 <= 2 * w1 -> w1 <= 2 * w2 -> 0 < m0 -> 0 < m1 ->
  0 <= 1 / ((w1 / m0 + w2 / m1) / (w1 + w2)) <= 3 * m0 /\ 1 / ((w1 / m0 + w2 / m1) / (w1 + w2)) <= 3 * m1.
Proof.
  intros W1 W2 W3 W4 M0 M1.
  replace (1 / ((w1 / m0 + w2 / m1) / (w1 + w2))) with ((w1 + w2) * (m0 * m1) / (w1 * m1 + w2 * m0)).
  2:{ field. repeat split; try lra. all: assert (0 < w1 * m1) by now apply Rmult_lt_0_compat. all: assert (0 < w2 * m0) by now apply Rmult_lt_0_compat. all: lra. }
  assert (A : 0 < w1 * m1) by now apply Rmult_lt_0_compat. assert (B : 0 < w2 * m0) by now apply Rmult_lt_0_compat.
  assert (C : 0 < m0 * m1) by now apply Rmult_lt_0_compat.
  split; [split|].
  - apply Rmult_le_pos; [apply Rmult_le_pos; lra|]. left. apply Rinv_0_lt_compat. lra.
  - apply (Rmult_le_reg_r (w1 * m1 + w2 * m0)); [lra|]. unfold Rdiv. rewrite Rmult_assoc, Rinv_l by lra.
    assert (0 < w2 * m0 * m0) by (apply Rmult_lt_0_compat; lra).
    assert ((w1 + w2) * (m0 * m1) <= 3 * w1 * (m0 * m1)) by (apply Rmult_le_compat_r; lra). nra.
  - apply (Rmult_le_reg_r (w1 * m1 + w2 * m0)); [lra|]. unfold Rdiv. rewrite Rmult_assoc, Rinv_l by lra.
    assert (0 < w1 * m1 * m1) by (apply Rmult_lt_0_compat; lra).
    assert ((w1 + w2) * (m0 * m1) <= 3 * w2 * (m0 * m1)) by (apply Rmult_le_compat_r; lra). nra.
Qed.
Lemma pchip_inner_neg h0 h1 m0 m1 : m0 < 0 -> m1 < 0 -> 0 < h0 -> 0 < h1 ->
  1 / (((2 * h1 + h0) / m0 + (h1 + 2 * h0) / m1) / ((2 * h1 + h0) + (h1 + 2 * h0)))
  = - (1 / (((2 * h1 + h0) / (- m0) + (h1 + 2 * h0) / (- m1)) / ((2 * h1 + h0) + (h1 + 2 * h0)))).
Proof.
  intros. assert (0 < (2 * h1 + h0) * - m1) by (apply Rmult_lt_0_compat; lra). assert (0 < (h1 + 2 * h0) * - m0) by (apply Rmult_lt_0_compat; lra).
  field. repeat split; try lra; nra.
Qed.
Lemma pchip_inner_box h0 h1 m0 m1 : 0 < h0 -> 0 < h1 ->
  in_box (pchip_inner h0 h1 m0 m1) m0 /\ in_box (pchip_inner h0 h1 m0 m1) m1.
Proof.
  intros H0 H1. unfold pchip_inner.
  rcase m0; rcase m1; subst;
    repeat (rewrite ?sgn_zero, ?(sgn_pos m0), ?(sgn_pos m1), ?(sgn_neg m0), ?(sgn_neg m1) by assumption);
    rewrite ?req_refl; cbn [negb orb].
  all: try (replace (req _ _) with false by (symmetry; apply req_false; lra)); cbn [negb orb];
    try (split; apply box_zero).
  all: rewrite ?req_refl; cbn [orb]; try (split; apply box_zero).
  - replace (req m1 0) with false by (symmetry; apply req_false; lra). replace (req m0 0) with false by (symmetry; apply req_false; lra).
    cbn [orb]. rewrite pchip_inner_neg by assumption.
    destruct (harmonic_bounds (2 * h1 + h0) (h1 + 2 * h0) (- m0) (- m1)) as [[A B] C]; try lra.
    split; apply box_neg; lra.
  - replace (req m1 0) with false by (symmetry; apply req_false; lra). replace (req m0 0) with false by (symmetry; apply req_false; lra).
    cbn [orb]. destruct (harmonic_bounds (2 * h1 + h0) (h1 + 2 * h0) m0 m1) as [[A B] C]; try lra.
    split; apply box_pos; lra.
Qed.
Lemma edge_case_box h0 h1 m0 m1 : 0 < h0 -> 0 < h1 -> in_box (edge_case h0 h1 m0 m1) m0.
Proof.
  intros H0 H1. unfold edge_case. cbv zeta. set (d := ((2 * h0 + h1) * m0 - h0 * m1) / (h0 + h1)).
  assert (E : d * (h0 + h1) = (2 * h0 + h1) * m0 - h0 * m1) by (unfold d; field; lra).
  destruct (negb (req (sgn d) (sgn m0))) eqn:E1; [apply box_zero|].
  apply negb_false_iff, req_true in E1.
  destruct (negb (req (sgn m0) (sgn m1)) && rlt (3 * Rabs m0) (Rabs d)) eqn:E2.
  - rcase m0; [apply box_neg; lra|subst; replace (3 * 0) with 0 by ring; apply box_zero|apply box_pos; lra].
  - assert (HD : (0 < m0 -> 0 < d) /\ (m0 < 0 -> d < 0) /\ (m0 = 0 -> d = 0)).
    { split; [|split]; intros; rcase d; subst; auto; exfalso;
      rewrite ?sgn_zero, ?(sgn_pos m0), ?(sgn_neg m0), ?(sgn_pos d), ?(sgn_neg d), ?sgn_zero in E1 by assumption;
      try rewrite H, sgn_zero in E1; try rewrite H2, sgn_zero in E1; lra. }
    clearbody d. destruct HD as [D1 [D2 D3]].
    assert (K : Rabs d <= 3 * Rabs m0).
    { apply andb_false_iff in E2 as [E2|E2].
      - apply negb_false_iff, req_true in E2. rcase m0.
        + assert (m1 < 0). { rewrite (sgn_neg m0) in E2 by assumption. rcase m1; subst; auto; exfalso; rewrite ?sgn_zero, ?(sgn_pos m1) in E2 by assumption; lra. }
          specialize (D2 H). rewrite !Rabs_left by lra. assert (h0 * m1 < 0) by nra.
          assert ((- d) * (h0 + h1) <= 3 * - m0 * (h0 + h1)) by nra. apply (Rmult_le_reg_r (h0 + h1)); lra.
        + subst. rewrite D3 by reflexivity. rewrite Rabs_R0. lra.
        + assert (0 < m1). { rewrite (sgn_pos m0) in E2 by assumption. rcase m1; subst; auto; exfalso; rewrite ?sgn_zero, ?(sgn_neg m1) in E2 by assumption; lra. }
          specialize (D1 H). rewrite !Rabs_right by lra. assert (0 < h0 * m1) by nra.
          assert (d * (h0 + h1) <= 3 * m0 * (h0 + h1)) by nra. apply (Rmult_le_reg_r (h0 + h1)); lra.
      - unfold rlt in E2. destruct (Rlt_dec (3 * Rabs m0) (Rabs d)); [discriminate|lra]. }
    rcase m0.
    + specialize (D2 H). rewrite !Rabs_left in K by lra. apply box_neg; lra.
    + rewrite D3 by assumption. apply box_zero.
    + specialize (D1 H). rewrite !Rabs_right in K by lra. apply box_pos; lra.
Qed.
Lemma box_self m : in_box m m.
Proof. split; lra. Qed.
Lemma pchip_boxes x y i : StronglySorted Rlt x -> (S i < List.length x)%nat ->
  in_box (pchip_at x y i) (secant x y i) /\ in_box (pchip_at x y (S i)) (secant x y i).
Proof.
  intros H Hi. assert (G : forall k, (S k < List.length x)%nat -> 0 < gap x k) by (intros; now apply gap_pos).
  unfold pchip_at, npts. destruct (Nat.eqb_spec (List.length x) 2) as [E2|N2].
  - assert (i = 0%nat) as -> by lia. split; apply box_self.
  - split.
    + destruct (Nat.eqb_spec i 0) as [->|]; [apply edge_case_box; apply G; lia|].
      destruct (Nat.eqb_spec i (List.length x - 1)); [lia|]. apply pchip_inner_box; apply G; lia.
    + destruct (Nat.eqb_spec (S i) 0); [lia|]. destruct (Nat.eqb_spec (S i) (List.length x - 1)) as [E|].
      * replace (List.length x - 2)%nat with i by lia. apply edge_case_box; apply G; lia.
      * replace (S i - 1)%nat with i by lia. apply pchip_inner_box; apply G; lia.
Qed.
Lemma map_seq_nth (f : nat -> R) n i : (i < n)%nat -> nth i (map f (seq 0 n)) 0 = f i.
Proof.
  intros H. rewrite (nth_indep _ 0 (f 0%nat)) by (rewrite map_length, seq_length; lia). rewrite map_nth, seq_nth by lia. reflexivity.
Qed.
Lemma no_gap_error x : StronglySorted Rlt x -> exists_below (fun i => rle (gap x i) 0) (npts x - 1) = false.
Proof.
  intros H. apply exists_below_false. intros i Hi. unfold rle. pose proof (gap_pos x i H ltac:(unfold npts in *; lia)).
  destruct (Rle_dec (gap x i) 0); [lra|reflexivity].
Qed.
Lemma slopes_ok m x y mono : StronglySorted Rlt x -> (2 <= List.length x)%nat ->
  match m with Steffen => (3 <= List.length x)%nat | _ => True end ->
  slopes m mono x y = Ok (let yp := map (slope_at m x y) (seq 0 (List.length x)) in if mono then make_monotone x y yp else yp).
Proof.
  intros H Hn Hm. unfold slopes. rewrite no_gap_error by exact H. unfold npts. destruct (Nat.ltb_spec (List.length x) 2); [lia|].
  destruct m; rewrite ?andb_false_r; try reflexivity. destruct (Nat.eqb_spec (List.length x) 2); [lia|reflexivity].
Qed.
Lemma boxed_shape x y (f : nat -> R) i : StronglySorted Rlt x -> (S i < List.length x)%nat ->
  in_box (f i) (secant x y i) -> in_box (f (S i)) (secant x y i) ->
  shape_preserving x y i (hermite x y (map f (seq 0 (List.length x)))).
Proof. intros H Hi A B. apply box_shape; auto; rewrite map_seq_nth by lia; assumption. Qed.
Lemma pchip_shape x y : StronglySorted Rlt x -> (2 <= List.length x)%nat ->
  exists yp, slopes PCHIP false x y = Ok yp /\ forall i, (S i < List.length x)%nat -> shape_preserving x y i (hermite x y yp).
Proof.
  intros H Hn. eexists. split; [apply slopes_ok; auto|]. intros i Hi. cbv zeta.
  destruct (pchip_boxes x y i H Hi). now apply boxed_shape.
Qed.
Lemma pchip_no_overshoot x y : StronglySorted Rlt x -> (2 <= List.length x)%nat ->
  exists yp, slopes PCHIP false x y = Ok yp /\ forall i t, (S i < List.length x)%nat -> nth i x 0 <= t <= nth (S i) x 0 ->
   Rmin (nth i y 0) (nth (S i) y 0) <= hermite x y yp t <= Rmax (nth i y 0) (nth (S i) y 0).
Proof.
  intros H Hn. destruct (pchip_shape x y H Hn) as [yp [E K]]. exists yp. split; [exact E|]. intros i t Hi Ht. specialize (K i Hi).
  destruct (K (nth i x 0) t ltac:(lra) ltac:(lra) ltac:(lra)) as [K1 K2].
  destruct (K t (nth (S i) x 0) ltac:(lra) ltac:(lra) ltac:(lra)) as [K3 K4].
  rewrite (proj1 (hermite_knots x y yp i H Hn ltac:(lia))) in K1, K2.
  rewrite (proj1 (hermite_knots x y yp (S i) H Hn ltac:(lia))) in K3, K4.
  unfold Rmin, Rmax. destruct (Rle_dec (nth i y 0) (nth (S i) y 0)); split; auto; [apply K4|apply K2]; lra.
Qed.

(* ---- Steffen ---------------------------------------------------------------------------------- *)
Lemma steffen_inner_box h0 h1 m0 m1 : 0 < h0 -> 0 < h1 ->
  in_box (steffen_inner h0 h1 m0 m1) m0 /\ in_box (steffen_inner h0 h1 m0 m1) m1.
Proof.
  intros H0 H1. unfold steffen_inner. set (v := Rmin (Rmin (Rabs m0) (Rabs m1)) (1/2 * Rabs (m0 * h1 + m1 * h0) / (h1 + h0))).
  assert (V0 : 0 <= v).
  { unfold v. apply Rmin_glb; [apply Rmin_glb; apply Rabs_pos|]. apply Rmult_le_pos; [|left; apply Rinv_0_lt_compat; lra].
    apply Rmult_le_pos; [lra|apply Rabs_pos]. }
  assert (V1 : v <= Rabs m0) by (unfold v; eapply Rle_trans; [apply Rmin_l|apply Rmin_l]).
  assert (V2 : v <= Rabs m1) by (unfold v; eapply Rle_trans; [apply Rmin_l|apply Rmin_r]).
  clearbody v. rcase m0; rcase m1; subst;
    repeat (rewrite ?sgn_zero, ?(sgn_pos m0), ?(sgn_pos m1), ?(sgn_neg m0), ?(sgn_neg m1) by assumption);
    rewrite ?Rabs_R0 in *; rewrite ?(Rabs_left m0), ?(Rabs_left m1), ?(Rabs_right m0), ?(Rabs_right m1) in * by lra.
  all: try (split; split; intros; nra).
Qed.
Lemma steffen_end_box h0 h1 m0 m1 : 0 < h0 -> 0 < h1 -> 0 < m0 -> in_box (steffen_end h0 h1 m0 m1) m0.
Proof.
  intros H0 H1 M. unfold steffen_end. cbv zeta. set (p := m0 * (1 + h0 / (h0 + h1)) - m1 * (h0 / (h0 + h1))). clearbody p.
  rewrite (sgn_pos m0), (Rabs_right m0) by lra. unfold Rmin. rcase p.
  - rewrite sgn_neg by assumption. destruct (Rle_dec m0 (1 / 2 * p)); [lra|]. replace ((-1 + 1) * (1 / 2 * p)) with 0 by ring. apply box_zero.
  - subst. rewrite sgn_zero. destruct (Rle_dec m0 (1 / 2 * 0)); [lra|]. replace ((0 + 1) * (1 / 2 * 0)) with 0 by ring. apply box_zero.
  - rewrite sgn_pos by assumption. destruct (Rle_dec m0 (1 / 2 * p)); apply box_pos; lra.
Qed.
Lemma steffen_shape_inner x y : StronglySorted Rlt x -> (3 <= List.length x)%nat ->
  exists yp, slopes Steffen false x y = Ok yp /\
  forall i, (1 <= i)%nat -> (S (S i) < List.length x)%nat -> shape_preserving x y i (hermite x y yp).
Proof.
  intros H Hn. assert (G : forall k, (S k < List.length x)%nat -> 0 < gap x k) by (intros; now apply gap_pos).
  eexists. split; [apply slopes_ok; auto; lia|]. intros i H1 Hi. cbv zeta. apply boxed_shape; try lia; auto; cbn [slope_at]; unfold steffen_at, npts.
  - destruct (Nat.eqb_spec i 0); [lia|]. destruct (Nat.eqb_spec i (List.length x - 1)); [lia|]. apply steffen_inner_box; apply G; lia.
  - destruct (Nat.eqb_spec (S i) 0); [lia|]. destruct (Nat.eqb_spec (S i) (List.length x - 1)); [lia|].
    replace (S i - 1)%nat with i by lia. apply steffen_inner_box; apply G; lia.
Qed.
Lemma secant_increasing x y i : StronglySorted Rlt x -> (S i < List.length x)%nat -> nth i y 0 < nth (S i) y 0 -> 0 < secant x y i.
Proof.
  intros H Hi Hy. unfold secant, at_R. pose proof (gap_pos x i H Hi). apply Rmult_lt_0_compat; [lra|]. now apply Rinv_0_lt_compat.
Qed.
Lemma steffen_shape_increasing x y : StronglySorted Rlt x -> (3 <= List.length x)%nat ->
  (forall i, (S i < List.length x)%nat -> nth i y 0 < nth (S i) y 0) ->
  exists yp, slopes Steffen false x y = Ok yp /\
  forall i, (S i < List.length x)%nat -> shape_preserving x y i (hermite x y yp).
Proof.
  intros H Hn Hy. assert (G : forall k, (S k < List.length x)%nat -> 0 < gap x k) by (intros; now apply gap_pos).
  assert (M : forall k, (S k < List.length x)%nat -> 0 < secant x y k) by (intros; apply secant_increasing; auto).
  eexists. split; [apply slopes_ok; auto; lia|]. intros i Hi. cbv zeta. apply boxed_shape; try lia; auto; cbn [slope_at]; unfold steffen_at, npts.
  - destruct (Nat.eqb_spec i 0) as [->|]; [apply steffen_end_box; [apply G|apply G|apply M]; lia|].
    destruct (Nat.eqb_spec i (List.length x - 1)); [lia|]. apply steffen_inner_box; apply G; lia.
  - destruct (Nat.eqb_spec (S i) 0); [lia|]. destruct (Nat.eqb_spec (S i) (List.length x - 1)) as [E|].
    + replace (List.length x - 2)%nat with i by lia. apply steffen_end_box; [apply G|apply G|apply M]; lia.
    + replace (S i - 1)%nat with i by lia. apply steffen_inner_box; apply G; lia.
Qed.
