From Coq Require Import Reals Lra Lia Sorted.
From Verif Require Import Base PolyModel PolySpec PolyProofs PolyProofs2 OrthoModel OrthoProofs
  PPModel PPSpec PPProofs PPProofs2 SplineModel SplineSpec SplineProofs.
Local Open Scope R_scope.

Definition sscols (x y : list R) (var : nat -> R) (p : R) (u : nat -> R) : list (list R) :=
  map (ss_col x y var p u) (seq 0 (List.length x - 1)).
Lemma sscols_length x y var p u : List.length (sscols x y var p u) = (List.length x - 1)%nat.
Proof. unfold sscols. now rewrite map_length, seq_length. Qed.
Lemma sscols_nth x y var p u i : (S i < List.length x)%nat -> nth i (sscols x y var p u) [] = ss_col x y var p u i.
Proof.
  intros H. unfold sscols. rewrite (nth_indep _ [] (ss_col x y var p u 0%nat)) by (rewrite map_length, seq_length; lia).
  rewrite map_nth, seq_nth by lia. reflexivity.
Qed.
Lemma sscols_wf x y var p u : StronglySorted Rlt x -> (2 <= List.length x)%nat -> well_formed (sscols x y var p u) x.
Proof.
  intros H Hn. split; [exact H|]. split; [rewrite sscols_length; lia|]. split.
  - intros E. apply (f_equal (@List.length _)) in E. rewrite sscols_length in E. cbn in E. lia.
  - apply Forall_forall. intros c Hc. apply in_map_iff in Hc as [i [<- _]]. discriminate.
Qed.
Lemma pfun_at_knot x y var p u i : StronglySorted Rlt x -> (2 <= List.length x)%nat -> (i < List.length x)%nat ->
  pfun x (sscols x y var p u) (at_R x i) = ss_a x y var p u i.
Proof.
  intros H Hn Hi. pose proof (sscols_wf x y var p u H Hn) as W. destruct i as [|i].
  - assert (E : hd 0 x = at_R x 0) by (destruct x; reflexivity). rewrite <- E. rewrite pfun_left by (exact W || lra).
    rewrite Rminus_diag_eq by reflexivity.
    assert (E' : hd [] (sscols x y var p u) = nth 0 (sscols x y var p u) []) by (destruct (sscols x y var p u); reflexivity).
    rewrite E', sscols_nth by lia. rewrite col_value. ring.
  - rewrite (pfun_piece _ x i _ W).
    + rewrite sscols_nth by lia. fold (at_R x i). change (at_R x (S i) - nth i x 0) with (gap x i).
      apply join_value. pose proof (gap_pos x i H Hi). lra.
    + rewrite sscols_length. lia.
    + pose proof (gap_pos x i H Hi) as G. unfold gap, at_R in *. lra.
Qed.
Lemma last_sscols x y var p u : (2 <= List.length x)%nat -> last (sscols x y var p u) [] = ss_col x y var p u (List.length x - 2).
Proof.
  intros H. unfold sscols. replace (List.length x - 1)%nat with (S (List.length x - 2)) by lia.
  rewrite seq_S, map_app. cbn [map Nat.add]. apply last_last.
Qed.
Lemma last_nth (l : list R) : l <> [] -> last l 0 = nth (List.length l - 1) l 0.
Proof.
  induction l as [|a l IH]; [congruence|]. intros _. destruct l as [|b l]; [reflexivity|].
  change (last (a :: b :: l) 0) with (last (b :: l) 0). rewrite IH by discriminate. cbn [List.length].
  replace (S (S (List.length l)) - 1)%nat with (S (S (List.length l) - 1))%nat by lia. reflexivity.
Qed.
Lemma init_ok x y var p s lin : StronglySorted Rlt x -> List.length y = List.length x -> (3 <= List.length x)%nat ->
  smooth_spline x y var p lin s =
  let* q := pp_new (sscols x y var (ss_p x var p) (ss_u s)) x 0 in if lin then pp_linear_extrapolate q else Ok q.
Proof.
  intros H Hy Hn. unfold smooth_spline. rewrite spacing_sorted by exact H. cbn [bind].
  destruct (Nat.ltb_spec (List.length x) 2); [lia|].
  replace (exists_below _ _) with false.
  2:{ symmetry. apply exists_below_false. intros i Hi. unfold rle. pose proof (gap_pos x i H ltac:(lia)).
      destruct (Rle_dec (gap x i) 0); [lra|reflexivity]. }
  rewrite Hy, Nat.eqb_refl. cbn [negb]. destruct (Nat.eqb_spec (List.length x) 2); [lia|]. reflexivity.
Qed.
Lemma smooth_spline_spec x y var p s : StronglySorted Rlt x -> List.length y = List.length x -> (3 <= List.length x)%nat ->
  solves (List.length x - 2) (ss_matrix x var (ss_p x var p)) (ss_rhs x y) s ->
  exists q F F2, smooth_spline x y var p true s = Ok q /\ (forall t, pp_call q t = Ok (F t)) /\
   twice_differentiable F F2 /\
   (forall t, t <= hd 0 x \/ last x 0 <= t -> F2 t = 0) /\
   (forall i, (i < List.length x)%nat -> F (nth i x 0) = ss_a x y var (ss_p x var p) (ss_u s) i) /\
   (forall t, between_breaks x t -> F2 t = pfun x (map polyder1 (map polyder1 (sscols x y var (ss_p x var p) (ss_u s)))) t).
Proof.
  intros H Hy Hn HS. set (P := ss_p x var p) in *. set (u := ss_u s).
  pose proof (ss_p_range x var p) as HP. fold P in HP.
  pose proof (sscols_wf x y var P u H ltac:(lia)) as W.
  assert (Hk : Forall (fun c => List.length c = (1 + 3)%nat) (sscols x y var P u)).
  { apply Forall_forall. intros c Hc. apply in_map_iff in Hc as [i [<- _]]. reflexivity. }
  assert (Hg : forall i, (S i < List.length x)%nat -> gap x i <> 0) by (intros i Hi; pose proof (gap_pos x i H Hi); lra).
  assert (J0 : joins x (sscols x y var P u)).
  { apply joins_seq; [lia|]. intros i Hi. cbn [Nat.add]. change (nth (S i) x 0 - nth i x 0) with (gap x i).
    rewrite join_value by (apply Hg; lia). rewrite col_value. ring. }
  assert (J1 : joins x (map polyder1 (sscols x y var P u))).
  { unfold sscols. rewrite map_map. apply joins_seq; [lia|]. intros i Hi. cbn [Nat.add]. change (nth (S i) x 0 - nth i x 0) with (gap x i).
    unfold u. rewrite join_first by (try apply Hg; try lia; try lra; exact HS). rewrite col_der1. ring. }
  assert (J2 : joins x (map polyder1 (map polyder1 (sscols x y var P u)))).
  { unfold sscols. rewrite !map_map. apply joins_seq; [lia|]. intros i Hi. cbn [Nat.add]. change (nth (S i) x 0 - nth i x 0) with (gap x i).
    rewrite join_second by (apply Hg; lia). rewrite col_der2. ring. }
  assert (Hx : x <> []) by (intros ->; cbn in Hn; lia).
  assert (HL : last x 0 - nth (List.length x - 2) x 0 = gap x (List.length x - 2)).
  { unfold gap, at_R. rewrite last_nth by exact Hx. f_equal. f_equal. lia. }
  assert (B0 : peval (polyder1 (polyder1 (hd [] (sscols x y var P u)))) 0 = 0).
  { assert (E' : hd [] (sscols x y var P u) = nth 0 (sscols x y var P u) []) by (destruct (sscols x y var P u); reflexivity).
    rewrite E', sscols_nth by lia. rewrite col_der2. cbn [ss_c]. ring. }
  assert (BN : peval (polyder1 (polyder1 (last (sscols x y var P u) []))) (last x 0 - nth (List.length x - 2) x 0) = 0).
  { rewrite HL, last_sscols by lia. rewrite join_second by (apply Hg; lia). cbn [ss_c].
    destruct (Nat.ltb_spec (List.length x - 2) (List.length x - 2)); [lia|ring]. }
  destruct (extrapolate_smooth _ x 0 1 W Hk J0 J1 J2 B0 BN) as [pp0 [q [F [F2 [E1 [E2 [V [T [VF V2]]]]]]]]].
  exists q, F, F2. split.
  { rewrite init_ok by assumption. fold P u. rewrite E1. cbn [bind]. exact E2. }
  split; [exact V|]. split; [exact T|].
  assert (W2 : well_formed (map (fun i => polyder1 (polyder1 (ss_col x y var P u i))) (seq 0 (List.length x - 1))) x).
  { apply (wf_pieces (sscols x y var P u)); [exact W|rewrite map_length, seq_length, sscols_length; reflexivity|].
    apply Forall_map, Forall_forall. intros; discriminate. }
  assert (A : forall t, between_breaks x t -> F2 t = pfun x (map polyder1 (map polyder1 (sscols x y var P u))) t).
  { intros t [T1 T2]. rewrite V2. destruct (Rle_dec t (hd 0 x)) as [G|G].
    - assert (t = hd 0 x) as -> by lra. unfold sscols. rewrite map_map, map_map.
      rewrite pfun_left by (exact W2 || lra).
      rewrite Rminus_diag_eq by reflexivity. replace (List.length x - 1)%nat with (S (List.length x - 2)) by lia. cbn [seq map hd].
      rewrite col_der2. cbn [ss_c]. ring.
    - destruct (Rle_dec t (last x 0)); [reflexivity|lra]. }
  split; [|split; [|exact A]].
  - intros t [T1|T1]; rewrite V2.
    + destruct (Rle_dec t (hd 0 x)); [reflexivity|lra].
    + destruct (Rle_dec t (hd 0 x)) as [G|G]; [reflexivity|]. destruct (Rle_dec t (last x 0)) as [G'|G']; [|reflexivity].
      assert (t = last x 0) as -> by lra.
      unfold sscols. rewrite map_map, map_map.
      rewrite pfun_last by exact W2.
      replace (List.length x - 1)%nat with (S (List.length x - 2)) by lia. rewrite seq_S, map_app. cbn [map Nat.add]. rewrite last_last.
      rewrite HL. rewrite join_second by (apply Hg; lia). cbn [ss_c].
      destruct (Nat.ltb_spec (List.length x - 2) (List.length x - 2)); [lia|ring].
  - intros i Hi. rewrite VF.
    + apply pfun_at_knot; [exact H|lia|exact Hi].
    + split.
      * replace (hd 0 x) with (nth 0 x 0) by (destruct x; reflexivity). destruct i as [|i]; [lra|].
        left. apply sorted_nth; [exact H|lia|exact Hi].
      * apply sorted_le_last; [exact H|now apply nth_In].
Qed.
Lemma smooth_spline_interpolates x y var s : StronglySorted Rlt x -> List.length y = List.length x -> (3 <= List.length x)%nat ->
  solves (List.length x - 2) (ss_matrix x var 1) (ss_rhs x y) s ->
  exists q, smooth_spline x y var (Some 1) true s = Ok q /\
  forall i, (i < List.length x)%nat -> pp_call q (nth i x 0) = Ok (nth i y 0).
Proof.
  intros H Hy Hn HS. assert (E1 : ss_p x var (Some 1) = 1).
  { unfold ss_p. destruct (Rlt_dec 1 0); [lra|]. destruct (Rlt_dec 1 1); [lra|reflexivity]. }
  destruct (smooth_spline_spec x y var (Some 1) s H Hy Hn) as [q [F [F2 [E [V [_ [_ [K _]]]]]]]]; [now rewrite E1|].
  exists q. split; [exact E|]. intros i Hi. rewrite V, K by exact Hi. rewrite E1. unfold ss_a.
  destruct (Rlt_dec 1 1); [lra|reflexivity].
Qed.
(* ---- error branches ------------------------------------------------------------------------ *)
Lemma two_points_raise x0 x1 y0 y1 var p lin s : x0 <> x1 -> smooth_spline [x0; x1] [y0; y1] var p lin s = Err IndexError.
Proof.
  intros H. unfold smooth_spline, ss_spacing. cbn [List.length Nat.sub exists_below]. unfold rlt at 1, gap at 1, at_R at 1. cbn [nth].
  rewrite orb_false_r.
  assert (E : forall a b, a < b -> exists_below (fun i => rle (gap [a; b] i) 0) (2 - 1) = false).
  { intros a b L. cbn. unfold rle, gap, at_R. cbn [nth]. destruct (Rle_dec (b - a) 0); [lra|reflexivity]. }
  match goal with |- context [Rlt_dec ?u 0] => destruct (Rlt_dec u 0) as [L|L] end.
  - cbn in L. assert (x1 < x0) by lra. clear L.
    assert (A : argsort [x0; x1] = [1; 0]%nat).
    { unfold argsort. cbn. unfold at_R. cbn. destruct (Rlt_dec x1 x0); [reflexivity|lra]. }
    rewrite A. cbn [bind map Nat.ltb Nat.leb List.length]. change (at_R [x0; x1] 1) with x1. change (at_R [x0; x1] 0) with x0.
    rewrite (E x1 x0 H0). reflexivity.
  - cbn in L. assert (x0 < x1) by lra. cbn [bind Nat.ltb Nat.leb List.length].
    rewrite (E x0 x1 H0). reflexivity.
Qed.
