From Coq Require Import Reals Lra Lia Sorted.
From Verif Require Import Base PolyModel PolySpec PolyProofs PolyProofs2 PPModel PPSpec PPProofs PPProofs2
  SplineModel SplineProofs SlopesModel SlopesSpec SlopesProofs SlopesProofs2 SlopesProofs3 SlopesProofs4.
Local Open Scope R_scope.

Lemma built m x y : StronglySorted Rlt x -> (2 <= List.length x)%nat -> List.length y = List.length x ->
  forall yp, slopes m false x y = Ok yp -> cubic_hermite m x y None = Ok (hermite x y yp).
Proof.
  intros H Hn Hy yp E. unfold cubic_hermite. rewrite E. cbn [bind]. rewrite (nth_slopes _ _ _ _ E), Hy, Nat.min_id.
  unfold npts. rewrite Nat.eqb_refl. reflexivity.
Qed.
Lemma built_given m x y yp : List.length y = List.length x -> List.length yp = List.length x -> cubic_hermite m x y (Some yp) = Ok (hermite x y yp).
Proof. intros H1 H2. unfold cubic_hermite. cbn [bind]. rewrite H1, H2, Nat.min_id. unfold npts. now rewrite Nat.eqb_refl. Qed.

Lemma hermite_class m x y yp : StronglySorted Rlt x -> (2 <= List.length x)%nat -> List.length y = List.length x -> List.length yp = List.length x ->
  exists F F1, cubic_hermite m x y (Some yp) = Ok F /\ continuously_differentiable F F1 /\
    forall i, (i < List.length x)%nat -> F (nth i x 0) = nth i y 0 /\ F1 (nth i x 0) = nth i yp 0.
Proof.
  intros H Hn Hy Hp. exists (hermite x y yp), (hder x y yp). split; [now apply built_given|]. split; [now apply hermite_smooth|].
  intros i Hi. now apply hermite_knots.
Qed.
Lemma hermite_class_default m x y : StronglySorted Rlt x -> (2 <= List.length x)%nat -> List.length y = List.length x ->
  match m with Steffen => (3 <= List.length x)%nat | _ => True end ->
  exists yp F F1, slopes m false x y = Ok yp /\ cubic_hermite m x y None = Ok F /\ continuously_differentiable F F1 /\
    forall i, (i < List.length x)%nat -> F (nth i x 0) = nth i y 0 /\ F1 (nth i x 0) = nth i yp 0.
Proof.
  intros H Hn Hy Hm. pose proof (slopes_ok m x y false H Hn Hm) as E. cbv zeta in E. eexists. exists (hermite x y (map (slope_at m x y) (seq 0 (List.length x)))), (hder x y (map (slope_at m x y) (seq 0 (List.length x)))).
  split; [exact E|]. split; [now apply built|]. split; [now apply hermite_smooth|]. intros i Hi. now apply hermite_knots.
Qed.
Lemma not_increasing m mono x y : ~ StronglySorted Rlt x -> slopes m mono x y = Err ValueError.
Proof.
  intros H. unfold slopes. destruct (exists_below _ _) eqn:E; [reflexivity|]. exfalso. apply H. clear H. unfold npts in E.
  assert (G : forall i, (S i < List.length x)%nat -> nth i x 0 < nth (S i) x 0).
  { intros i Hi. pose proof (proj1 (exists_below_false _ _) E i ltac:(lia)) as K. unfold rle in K. destruct (Rle_dec (gap x i) 0); [discriminate|]. unfold gap, at_R in *. lra. }
  clear E. induction x as [|a x IH]; [constructor|]. apply Sorted_StronglySorted; [intros ? ? ?; apply Rlt_trans|].
  constructor.
  - apply StronglySorted_Sorted, IH. intros i Hi. apply (G (S i)). cbn [List.length]. lia.
  - destruct x as [|b x]; constructor. apply (G 0%nat). cbn; lia.
Qed.
Lemma pchip_class x y : StronglySorted Rlt x -> (2 <= List.length x)%nat -> List.length y = List.length x ->
  exists F F1, Pchip x y = Ok F /\ continuously_differentiable F F1 /\
    (forall i, (i < List.length x)%nat -> F (nth i x 0) = nth i y 0) /\
    (forall i, (S i < List.length x)%nat -> shape_preserving x y i F) /\
    (forall i t, (S i < List.length x)%nat -> nth i x 0 <= t <= nth (S i) x 0 ->
       Rmin (nth i y 0) (nth (S i) y 0) <= F t <= Rmax (nth i y 0) (nth (S i) y 0)).
Proof.
  intros H Hn Hy. destruct (pchip_shape x y H Hn) as [yp [E K]]. destruct (pchip_no_overshoot x y H Hn) as [yp' [E' K']].
  rewrite E in E'. inversion E'; subst yp'. exists (hermite x y yp), (hder x y yp).
  split; [now apply built|]. split; [now apply hermite_smooth|]. split; [intros; now apply hermite_knots|]. auto.
Qed.
Lemma steffen_class x y : StronglySorted Rlt x -> (3 <= List.length x)%nat -> List.length y = List.length x ->
  exists F, cubic_hermite Steffen x y None = Ok F /\
    (forall i, (1 <= i)%nat -> (S (S i) < List.length x)%nat -> shape_preserving x y i F) /\
    ((forall i, (S i < List.length x)%nat -> nth i y 0 < nth (S i) y 0) ->
     forall i, (S i < List.length x)%nat -> shape_preserving x y i F).
Proof.
  intros H Hn Hy. destruct (steffen_shape_inner x y H Hn) as [yp [E K]]. exists (hermite x y yp). split; [apply built; auto; lia|]. split; [exact K|].
  intros I. destruct (steffen_shape_increasing x y H Hn I) as [yp' [E' K']]. rewrite E in E'. inversion E'; subst yp'. exact K'.
Qed.
Lemma monotone_class m x y yp : StronglySorted Rlt x -> slopes m false x y = Ok yp ->
  exists yp', slopes m true x y = Ok yp' /\ List.length yp' = List.length x /\
   (forall i, (i < List.length x)%nat -> exists c, 0 <= c <= 1 /\ nth i yp' 0 = c * nth i yp 0) /\
   ((forall i, (S i < List.length x)%nat -> 0 <= nth i yp 0 * chord x y i /\ 0 <= nth (S i) yp 0 * chord x y i) ->
    (forall i, (S (S i) < List.length x)%nat -> too_steep x y yp i -> ~ too_steep x y yp (S i)) ->
    forall i, (S i < List.length x)%nat -> shape_preserving x y i (hermite x y yp')).
Proof.
  intros H E. pose proof (slopes_length _ _ _ _ _ E). exists (make_monotone x y yp). split; [now apply slopes_monotone|].
  split; [apply monotone_length; lia|]. split; [intros; now apply monotone_scales|]. intros Sg Iso. now apply monotone_shape.
Qed.

(* ---- Stineman: the class ------------------------------------------------------------------------- *)
Lemma parabola_brackets x y : StronglySorted Rlt x -> (3 <= List.length x)%nat -> convex_data x y ->
  exists yp, slopes Parabola false x y = Ok yp /\ brackets x y yp.
Proof.
  intros H Hn C. eexists. split; [apply slopes_ok; auto; lia|]. cbv zeta.
  assert (IN : forall i, (1 <= i)%nat -> (S i < List.length x)%nat -> secant x y (i - 1) < parabola_inner x y i < secant x y i).
  { intros i H1 Hi. pose proof (gap_pos x i H ltac:(lia)) as G1. pose proof (gap_pos x (i - 1) H ltac:(lia)) as G0.
    specialize (C (i - 1)%nat ltac:(lia)). replace (S (i - 1)) with i in C by lia. change (secant x y (i - 1) < secant x y i) in C.
    unfold parabola_inner. split; apply (Rmult_lt_reg_r (gap x i + gap x (i - 1))); try lra; unfold Rdiv; rewrite ?Rmult_assoc, ?Rinv_l by lra; nra. }
  intros i Hi. rewrite !map_seq_nth by lia. cbn [slope_at]. unfold parabola_at, reflected_ends, npts. destruct (Nat.eqb_spec (List.length x) 2); [lia|]. split.
  - destruct (Nat.eqb_spec i 0) as [->|]; [destruct (IN 1%nat ltac:(lia) ltac:(lia)) as [K _]; cbn [Nat.sub] in K; lra|].
    destruct (Nat.eqb_spec i (List.length x - 1)); [lia|]. apply IN; lia.
  - destruct (Nat.eqb_spec (S i) 0); [lia|]. destruct (Nat.eqb_spec (S i) (List.length x - 1)) as [E|].
    + replace (List.length x - 2)%nat with i by lia. destruct (IN i ltac:(lia) ltac:(lia)) as [_ K]. lra.
    + destruct (IN (S i) ltac:(lia) ltac:(lia)) as [K _]. replace (S i - 1)%nat with i in K by lia. exact K.
Qed.
Lemma stineman_class m mono x y yp : StronglySorted Rlt x -> (2 <= List.length x)%nat ->
  exists F, StinemanInterp m mono x y (Some yp) = Ok F /\
   (forall i, (i < List.length x)%nat -> F (nth i x 0) = nth i y 0) /\
   (forall i t, (S i < List.length x)%nat -> nth i x 0 <= t <= nth (S i) x 0 ->
     Rabs (F t - (nth i y 0 + chord x y i * (t - nth i x 0)))
      <= Rmin (Rabs ((nth i yp 0 - chord x y i) * (t - nth i x 0))) (Rabs ((nth (S i) yp 0 - chord x y i) * (t - nth (S i) x 0)))).
Proof.
  intros H Hn. eexists. split; [reflexivity|]. split; [intros; now apply stineman_knots|]. intros. now apply stineman_bound.
Qed.
Lemma chord_pos x y i : StronglySorted Rlt x -> (S i < List.length x)%nat -> nth i y 0 < nth (S i) y 0 -> 0 < secant x y i.
Proof. apply secant_increasing. Qed.
Lemma chord_neg x y i : StronglySorted Rlt x -> (S i < List.length x)%nat -> nth (S i) y 0 < nth i y 0 -> secant x y i < 0.
Proof.
  intros H Hi Hy. unfold secant, at_R. pose proof (gap_pos x i H Hi). unfold Rdiv. assert (0 < / gap x i) by now apply Rinv_0_lt_compat. nra.
Qed.
Lemma stineman_convex x y : StronglySorted Rlt x -> (3 <= List.length x)%nat -> convex_data x y ->
  exists F, StinemanInterp Stineman false x y None = Ok F /\
   convex_on (nth 0 x 0) (nth (List.length x - 1) x 0) F /\
   (nth 0 y 0 < nth 1 y 0 -> forall s t, nth 0 x 0 <= s -> s < t -> t <= nth (List.length x - 1) x 0 -> F s < F t) /\
   (nth (List.length x - 1) y 0 < nth (List.length x - 2) y 0 -> forall s t, nth 0 x 0 <= s -> s < t -> t <= nth (List.length x - 1) x 0 -> F t < F s).
Proof.
  intros H Hn C. destruct (stineman_brackets x y H Hn C) as [yp [E [B [P0 P1]]]]. exists (stineman_interp x y yp).
  split; [unfold StinemanInterp; rewrite E; reflexivity|]. split; [apply bracket_convex; auto; lia|]. split.
  - intros I s t. apply bracket_increasing; auto; try lia. apply P0, chord_pos; auto; lia.
  - intros I s t. apply bracket_decreasing; auto; try lia. apply P1, chord_neg; auto; try lia. replace (S (List.length x - 2)) with (List.length x - 1)%nat by lia. exact I.
Qed.
Lemma stineman_parabola_convex x y : StronglySorted Rlt x -> (3 <= List.length x)%nat -> convex_data x y ->
  exists F, StinemanInterp Parabola false x y None = Ok F /\ convex_on (nth 0 x 0) (nth (List.length x - 1) x 0) F.
Proof.
  intros H Hn C. destruct (parabola_brackets x y H Hn C) as [yp [E B]]. exists (stineman_interp x y yp).
  split; [unfold StinemanInterp; rewrite E; reflexivity|]. apply bracket_convex; auto; lia.
Qed.

(* ---- counterexamples ------------------------------------------------------------------------------ *)
Ltac sorted_list := repeat (constructor; try lra).
Lemma sec_val x y i v : gap x i <> 0 -> at_R y (S i) - at_R y i = v * gap x i -> secant x y i = v.
Proof. intros G E. unfold secant. rewrite E. field. exact G. Qed.
Ltac sgn_simp := unfold sgn; repeat match goal with |- context [Rlt_dec ?a ?b] => destruct (Rlt_dec a b); try lra end.
Lemma steffen_wrong_sign :
  slopes Steffen false [0; 1; 2] [2; 1; 0] = Ok [1; -1; 1] /\ ~ shape_preserving [0; 1; 2] [2; 1; 0] 0 (hermite [0; 1; 2] [2; 1; 0] [1; -1; 1]).
Proof.
  assert (H : StronglySorted Rlt [0; 1; 2]) by sorted_list.
  split.
  - rewrite slopes_ok by (auto; cbn; lia). cbv zeta. cbn [List.length seq map slope_at]. unfold steffen_at, npts. cbn [List.length Nat.eqb Nat.sub].
    assert (S0 : secant [0;1;2] [2;1;0] 0 = -1) by (apply sec_val; unfold gap, at_R; cbn; lra).
    assert (S1 : secant [0;1;2] [2;1;0] 1 = -1) by (apply sec_val; unfold gap, at_R; cbn; lra).
    rewrite !S0, !S1. unfold gap, at_R. cbn [nth]. unfold steffen_end, steffen_inner. cbv zeta.
    assert (P : -1 * (1 + (1 - 0) / (1 - 0 + (2 - 1))) - -1 * ((1 - 0) / (1 - 0 + (2 - 1))) = -1) by field.
    assert (P' : -1 * (1 + (2 - 1) / (2 - 1 + (1 - 0))) - -1 * ((2 - 1) / (2 - 1 + (1 - 0))) = -1) by field.
    rewrite P, P'. rewrite (sgn_neg (-1)) by lra. rewrite (Rabs_left (-1)) by lra. rewrite (Rmin_right (- -1) (1 / 2 * -1)) by lra.
    rewrite (Rmin_left (- -1) (- -1)) by lra. replace (1 / 2 * Rabs (-1 * (2 - 1) + -1 * (1 - 0)) / (2 - 1 + (1 - 0))) with (1/2).
    2:{ rewrite Rabs_left by lra. field. }
    rewrite Rmin_right by lra. repeat f_equal; lra.
  - intros K. destruct (K 0 (1/4)) as [_ K2]; try (cbn; lra). specialize (K2 ltac:(cbn; lra)).
    rewrite !(hermite_piece_eq _ _ _ 0%nat) in K2 by (auto; cbn; try lia; lra).
    unfold hermite_piece, bernstein, gap, at_R in K2. cbn [nth] in K2. lra.
Qed.
Lemma steffen_flat :
  exists yp, slopes Steffen false [0; 1; 2] [0; 0; 1] = Ok yp /\ ~ shape_preserving [0; 1; 2] [0; 0; 1] 0 (hermite [0; 1; 2] [0; 0; 1] yp).
Proof.
  assert (H : StronglySorted Rlt [0; 1; 2]) by sorted_list. eexists. split; [apply slopes_ok; auto; cbn; lia|]. cbv zeta.
  intros K. destruct (K (1/2) 1) as [K1 _]; try (cbn; lra). specialize (K1 ltac:(cbn; lra)).
  rewrite !(hermite_piece_eq _ _ _ 0%nat) in K1 by (auto; cbn; try lia; lra).
  unfold hermite_piece, bernstein, gap in K1. set (yp := map _ _) in K1.
  assert (S0 : secant [0;1;2] [0;0;1] 0 = 0) by (apply sec_val; unfold gap, at_R; cbn; lra).
  assert (S1 : secant [0;1;2] [0;0;1] 1 = 1) by (apply sec_val; unfold gap, at_R; cbn; lra).
  assert (Y0 : at_R yp 0 = 1/4).
  { unfold yp, at_R. rewrite map_seq_nth by (cbn; lia). cbn [slope_at]. unfold steffen_at, npts. cbn [List.length Nat.eqb]. rewrite S0, S1.
    unfold steffen_end, gap, at_R. cbn [nth]. cbv zeta. replace (0 * (1 + (1 - 0) / (1 - 0 + (2 - 1))) - 1 * ((1 - 0) / (1 - 0 + (2 - 1)))) with (-1/2) by field.
    rewrite sgn_zero, Rabs_R0. rewrite sgn_neg by lra. rewrite Rmin_right by lra. lra. }
  assert (Y1 : at_R yp 1 = 0).
  { unfold yp, at_R. rewrite map_seq_nth by (cbn; lia). cbn [slope_at]. unfold steffen_at, npts. cbn [List.length Nat.eqb Nat.sub]. rewrite S0, S1.
    unfold steffen_inner, gap, at_R. cbn [nth]. rewrite Rabs_R0. rewrite sgn_zero, sgn_pos by lra. rewrite (Rabs_right 1) by lra.
    rewrite (Rmin_left 0 1) by lra. rewrite Rmin_left; [ring|]. rewrite Rabs_right by lra. lra. }
  rewrite Y0, Y1 in K1. unfold at_R in K1. cbn [nth] in K1. lra.
Qed.
Lemma two_points_steffen a b c d : a < b -> slopes Steffen false [a; b] [c; d] = Err IndexError.
Proof.
  intros L. unfold slopes. rewrite no_gap_error by sorted_list. reflexivity.
Qed.
Lemma two_points_slopes a b c d : a < b -> c <> d ->
  slopes Parabola false [a; b] [c; d] = Ok [2 * ((d - c) / (b - a)); 0] /\
  slopes Stineman false [a; b] [c; d] = Ok [2 * ((d - c) / (b - a)); (d - c) / (b - a) / 2].
Proof.
  intros L N. assert (H : StronglySorted Rlt [a; b]) by sorted_list. assert (S0 : secant [a; b] [c; d] 0 = (d - c) / (b - a)) by reflexivity.
  set (m := (d - c) / (b - a)) in *. assert (Hm : m <> 0). { unfold m. intros E. apply Rmult_integral in E as [E|E]; [lra|]. assert (0 < / (b - a)) by (apply Rinv_0_lt_compat; lra). lra. }
  clearbody m. rewrite !slopes_ok by (auto; cbn; lia). cbv zeta. cbn [List.length seq map slope_at].
  unfold parabola_at, stineman_at, reflected_ends, npts. cbn [List.length Nat.eqb Nat.sub]. rewrite S0.
  split; [f_equal; f_equal; [ring|f_equal; ring]|]. unfold stineman_end. f_equal. f_equal; [|f_equal].
  - rcase m; [rewrite sgn_neg by assumption|contradiction|rewrite sgn_pos by assumption]; match goal with |- context [Rle_dec ?a ?b] => destruct (Rle_dec a b) end; lra.
  - replace (m - (2 * m - 0)) with (- m) by ring. rewrite Rabs_Ropp. rcase m; [rewrite sgn_neg by assumption|contradiction|rewrite sgn_pos by assumption];
    match goal with |- context [Rle_dec ?a ?b] => destruct (Rle_dec a b) end; try lra.
    + rewrite Rabs_left by assumption. field. lra.
    + rewrite Rabs_right by lra. field. lra.
Qed.
Lemma two_points_stineman : exists F, StinemanInterp Stineman false [0; 1] [0; 1] None = Ok F /\ F (1/2) = 2/3.
Proof.
  eexists. split; [unfold StinemanInterp; rewrite (proj2 (two_points_slopes 0 1 0 1 ltac:(lra) ltac:(lra))); reflexivity|].
  rewrite (sinterp_piece _ _ _ 0%nat) by (cbn; try lia; try lra; sorted_list). unfold spiece, secant, gap, at_R. cbv zeta. cbn [nth].
  match goal with |- context [Rlt_dec ?a 0] => destruct (Rlt_dec a 0); [lra|] end.
  match goal with |- context [Rlt_dec 0 ?a] => destruct (Rlt_dec 0 a); [|lra] end. field.
Qed.
Lemma parabola_not_monotone : exists yp, slopes Parabola true [0; 1; 2] [0; 1; 11] = Ok yp /\
   ~ shape_preserving [0; 1; 2] [0; 1; 11] 0 (hermite [0; 1; 2] [0; 1; 11] yp).
Proof.
  set (x := [0; 1; 2]). set (y := [0; 1; 11]).
  assert (H : StronglySorted Rlt x) by (unfold x; sorted_list).
  assert (S0 : secant x y 0 = 1) by (apply sec_val; unfold x, y, gap, at_R; cbn; lra).
  assert (S1 : secant x y 1 = 10) by (apply sec_val; unfold x, y, gap, at_R; cbn; lra).
  assert (E : slopes Parabola false x y = Ok [-7/2; 11/2; 29/2]).
  { rewrite slopes_ok by (auto; cbn; lia). cbv zeta. unfold x at 2. cbn [List.length seq map slope_at].
    assert (N : npts x = 3%nat) by reflexivity. unfold parabola_at, reflected_ends, parabola_inner. rewrite N. cbn [Nat.eqb Nat.sub]. rewrite S0, S1.
    assert (G0 : gap x 0 = 1) by (unfold gap, x, at_R; cbn; lra). assert (G1 : gap x 1 = 1) by (unfold gap, x, at_R; cbn; lra). rewrite G0, G1.
    f_equal. f_equal; [field|f_equal; [field|f_equal; field]]. }
  exists (make_monotone x y [-7/2; 11/2; 29/2]). split; [now apply slopes_monotone|].
  assert (Z : zero_flat x y [-7/2; 11/2; 29/2] = [-7/2; 11/2; 29/2]).
  { unfold zero_flat. assert (N : npts x = 3%nat) by reflexivity. rewrite N. cbn [seq map Nat.ltb Nat.leb Nat.sub andb orb].
    rewrite S0, S1. replace (req 1 0) with false by (symmetry; apply req_false; lra). replace (req 10 0) with false by (symmetry; apply req_false; lra). reflexivity. }
  set (yp := [-7/2; 11/2; 29/2]) in *.
  assert (D0 : circle_dist x y yp 0 = 85/2) by (unfold circle_dist; rewrite S0; unfold yp, at_R; cbn [nth]; field).
  assert (D1 : circle_dist x y yp 1 <= 9) by (unfold circle_dist; rewrite S1; unfold yp, at_R; cbn [nth]; lra).
  assert (T0 : to_fix x y yp 0 = true). { unfold to_fix. rewrite D0, S0. replace (req 1 0) with false by (symmetry; apply req_false; lra). unfold rlt. destruct (Rlt_dec 9 (85/2)); [reflexivity|lra]. }
  assert (T1 : to_fix x y yp 1 = false). { unfold to_fix. rewrite S1. unfold rlt. destruct (Rlt_dec 9 (circle_dist x y yp 1)); [lra|]. apply andb_false_r. }
  assert (TT : 1/10 < tau x y yp 0).
  { unfold tau. rewrite D0. assert (0 < sqrt (85/2)) by (apply sqrt_lt_R0; lra). assert (sqrt (85/2) < 7). { rewrite <- (sqrt_square 7) by lra. apply sqrt_lt_1; lra. }
    set (q := sqrt (85/2)) in *. clearbody q. apply (Rmult_lt_reg_r q); [lra|]. replace (3 / q * q) with 3 by (field; lra). lra. }
  intros K. destruct (K 0 (1/10)) as [K1 _]; try (cbn; lra). specialize (K1 ltac:(cbn; lra)).
  rewrite !(hermite_piece_eq _ _ _ 0%nat) in K1 by (auto; cbn; try lia; lra).
  unfold hermite_piece, bernstein, gap in K1.
  assert (Y0 : at_R (make_monotone x y yp) 0 = tau x y yp 0 * (-7/2)).
  { unfold at_R. rewrite monotone_nth by (cbn; lia). cbv zeta. rewrite Z. cbn [List.length x Nat.sub Nat.ltb Nat.leb andb]. rewrite T0. reflexivity. }
  assert (Y1 : at_R (make_monotone x y yp) 1 = tau x y yp 0 * (11/2)).
  { unfold at_R. rewrite monotone_nth by (cbn; lia). cbv zeta. rewrite Z. cbn [List.length x Nat.sub Nat.ltb Nat.leb andb]. rewrite T1, T0. reflexivity. }
  rewrite Y0, Y1 in K1. unfold x, y, at_R in K1. cbn [nth] in K1. fold x y in K1. lra.
Qed.
Lemma secant_not_monotone : exists yp, slopes Secant true [0; 1; 2; 3] [0; 1; 11; 71] = Ok yp /\
   ~ shape_preserving [0; 1; 2; 3] [0; 1; 11; 71] 0 (hermite [0; 1; 2; 3] [0; 1; 11; 71] yp).
Proof.
  set (x := [0; 1; 2; 3]). set (y := [0; 1; 11; 71]).
  assert (H : StronglySorted Rlt x) by (unfold x; sorted_list).
  assert (S0 : secant x y 0 = 1) by (apply sec_val; unfold x, y, gap, at_R; cbn; lra).
  assert (S1 : secant x y 1 = 10) by (apply sec_val; unfold x, y, gap, at_R; cbn; lra).
  assert (S2 : secant x y 2 = 60) by (apply sec_val; unfold x, y, gap, at_R; cbn; lra).
  set (yp := [1; 11/2; 35; 60]).
  assert (E : slopes Secant false x y = Ok yp).
  { rewrite slopes_ok by (auto; cbn; lia). cbv zeta. unfold x at 2. cbn [List.length seq map slope_at].
    assert (N : npts x = 4%nat) by reflexivity. unfold secant_at. rewrite N. cbn [Nat.eqb Nat.sub]. rewrite S0, S1, S2. unfold yp. repeat f_equal; lra. }
  exists (make_monotone x y yp). split; [now apply slopes_monotone|].
  assert (R1 : req 1 0 = false) by (apply req_false; lra). assert (R2 : req 10 0 = false) by (apply req_false; lra). assert (R3 : req 60 0 = false) by (apply req_false; lra).
  assert (Z : zero_flat x y yp = yp).
  { unfold zero_flat. assert (N : npts x = 4%nat) by reflexivity. rewrite N. cbn [seq map Nat.ltb Nat.leb Nat.sub andb orb]. rewrite S0, S1, S2, R1, R2, R3. reflexivity. }
  assert (D0 : circle_dist x y yp 0 = 125/4) by (unfold circle_dist; rewrite S0; unfold yp, at_R; cbn [nth]; field).
  assert (D1 : circle_dist x y yp 1 = 5021/400) by (unfold circle_dist; rewrite S1; unfold yp, at_R; cbn [nth]; field).
  assert (T0 : to_fix x y yp 0 = true). { unfold to_fix. rewrite D0, S0, R1. unfold rlt. destruct (Rlt_dec 9 (125/4)); [reflexivity|lra]. }
  assert (T1 : to_fix x y yp 1 = true). { unfold to_fix. rewrite D1, S1, R2. unfold rlt. destruct (Rlt_dec 9 (5021/400)); [reflexivity|lra]. }
  assert (TA : tau x y yp 0 < 54/100).
  { unfold tau. rewrite D0. assert (5558/1000 < sqrt (125/4)). { rewrite <- (sqrt_square (5558/1000)) by lra. apply sqrt_lt_1; lra. }
    set (q := sqrt (125/4)) in *. clearbody q. apply (Rmult_lt_reg_r q); [lra|]. replace (3 / q * q) with 3 by (field; lra). lra. }
  assert (TB : 84/100 < tau x y yp 1).
  { unfold tau. rewrite D1. assert (0 < sqrt (5021/400)) by (apply sqrt_lt_R0; lra). assert (sqrt (5021/400) < 357/100). { rewrite <- (sqrt_square (357/100)) by lra. apply sqrt_lt_1; lra. }
    set (q := sqrt (5021/400)) in *. clearbody q. apply (Rmult_lt_reg_r q); [lra|]. replace (3 / q * q) with 3 by (field; lra). lra. }
  intros K. destruct (K 0 (4/10)) as [K1 _]; try (cbn; lra). specialize (K1 ltac:(cbn; lra)).
  rewrite !(hermite_piece_eq _ _ _ 0%nat) in K1 by (auto; cbn; try lia; lra).
  unfold hermite_piece, bernstein, gap in K1.
  assert (Y0 : at_R (make_monotone x y yp) 0 = tau x y yp 0 * 1).
  { unfold at_R. rewrite monotone_nth by (cbn; lia). cbv zeta. rewrite Z. cbn [List.length x Nat.sub Nat.ltb Nat.leb andb]. rewrite T0. reflexivity. }
  assert (Y1 : at_R (make_monotone x y yp) 1 = tau x y yp 1 * (11/2)).
  { unfold at_R. rewrite monotone_nth by (cbn; lia). cbv zeta. rewrite Z. cbn [List.length x Nat.sub Nat.ltb Nat.leb andb]. rewrite T1. reflexivity. }
  rewrite Y0, Y1 in K1. unfold x, y, at_R in K1. cbn [nth] in K1. fold x y in K1. lra.
Qed.
(* increasing convex data, slopes from parabolas: the curve starts downwards *)
Lemma parabola_stineman_dips : exists F, StinemanInterp Parabola false [0; 1; 2] [0; 1; 11] None = Ok F /\ F (1/10) < F 0.
Proof.
  set (x := [0; 1; 2]). set (y := [0; 1; 11]).
  assert (H : StronglySorted Rlt x) by (unfold x; sorted_list).
  assert (S0 : secant x y 0 = 1) by (apply sec_val; unfold x, y, gap, at_R; cbn; lra).
  assert (S1 : secant x y 1 = 10) by (apply sec_val; unfold x, y, gap, at_R; cbn; lra).
  eexists. split; [unfold StinemanInterp; rewrite slopes_ok by (auto; cbn; lia); reflexivity|]. cbv zeta. set (yp := map _ _).
  assert (Y0 : at_R yp 0 = -7/2).
  { unfold yp, at_R. rewrite map_seq_nth by (cbn; lia). cbn [slope_at]. unfold parabola_at, reflected_ends, npts, parabola_inner. cbn [List.length x Nat.eqb Nat.sub]. fold x.
    rewrite S0, S1. unfold gap, at_R. cbn [nth x]. lra. }
  assert (Y1 : at_R yp 1 = 11/2).
  { unfold yp, at_R. rewrite map_seq_nth by (cbn; lia). cbn [slope_at]. unfold parabola_at, reflected_ends, npts, parabola_inner. cbn [List.length x Nat.eqb Nat.sub]. fold x.
    rewrite S0, S1. unfold gap, at_R. cbn [nth x]. lra. }
  rewrite !(sinterp_piece _ _ _ 0%nat) by (auto; cbn; try lia; lra). unfold spiece. cbv zeta. rewrite S0, Y0, Y1. unfold x, y, at_R. cbn [nth].
  repeat match goal with |- context [Rlt_dec ?a ?b] => destruct (Rlt_dec a b); try lra end.
Qed.
