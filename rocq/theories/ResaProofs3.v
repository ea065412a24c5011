From Coq Require Import Reals List ZArith Lra Lia Bool String Sorting.
From Verif Require Import Base PolyModel SplineModel KdeModel ProcModel ProcSpec ProcProofs ProcProofs2 PdatProofs DiscModel DiscSpec DiscProofs DiscProofs3 SlopesModel SlopesProofs SlopesProofs2 SlopesProofs4 SlopesProofs5 ResaModel ResaSpec ResaProofs ResaProofs2.
From Verif Require PdatSpec.
Import ListNotations.
Local Open Scope R_scope.
Set Bullet Behavior "Strict Subproofs".

Lemma Rdiv_le_0_compat a b : 0 <= a -> 0 < b -> 0 <= a / b.
Proof. intros A B. apply Rmult_le_pos; [exact A|]. apply Rlt_le. now apply Rinv_0_lt_compat. Qed.
Lemma increasing_sorted x : increasing x -> StronglySorted Rlt x.
Proof.
  intros I. apply Sorted_StronglySorted; [intros a b c; apply Rlt_trans|]. revert I. induction x as [|a x IH]; intros I; [constructor|].
  constructor; [apply IH; intros i Hi; apply (I (S i)); cbn; lia|]. destruct x as [|b x]; constructor. exact (I 0%nat ltac:(cbn; lia)).
Qed.
Lemma linspace_pow new k : linspace 0 new (Z.to_nat (2 ^ Z.of_nat k + 1)) = grid 0 new (2 ^ k).
Proof.
  assert (P : (1 <= 2 ^ k)%nat) by (pose proof (Nat.pow_nonzero 2 k ltac:(lia)); lia). pose proof (linspace_grid 0 new (2 ^ k) P) as E. unfold linspaceZ in E.
  assert (Q : Z.of_nat (2 ^ k) = (2 ^ Z.of_nat k)%Z) by (rewrite Nat2Z.inj_pow; reflexivity). rewrite Q in E.
  destruct (Z.ltb_spec (2 ^ Z.of_nat k + 1) 0); [discriminate E|]. now injection E.
Qed.
Lemma grid_in a b m t : a <= b -> (1 <= m)%nat -> In t (grid a b m) -> a <= t <= b.
Proof.
  intros L Hm H. destruct (In_nth _ _ 0 H) as [i [Hi <-]]. rewrite grid_length in Hi. rewrite grid_nth by lia.
  assert (M : 0 < INR m) by (apply lt_0_INR; lia). assert (Q : 0 <= INR i / INR m <= 1).
  { split; [apply Rdiv_le_0_compat; [apply pos_INR|exact M]|]. apply Rmult_le_reg_r with (INR m); [exact M|]. unfold Rdiv. rewrite Rmult_assoc, Rinv_l by lra. rewrite Rmult_1_l, Rmult_1_r. apply le_INR. lia. }
  replace (INR i * ((b - a) / INR m)) with (INR i / INR m * (b - a)) by (field; lra). nra.
Qed.
(* Stineman's curve over a piece with zeros at both ends *)
Lemma spiece_below x y yp i t p : 0 <= p -> nth i x 0 <= t <= nth (S i) x 0 -> nth i x 0 < nth (S i) x 0 -> nth i y 0 = 0 -> nth (S i) y 0 = 0 -> nth i yp 0 = - p -> nth (S i) yp 0 = p -> spiece x y yp i t <= 0.
Proof.
  intros P T D Y0 Y1 P0 P1. unfold spiece. cbv zeta. unfold at_R. assert (S0 : secant x y i = 0). { unfold secant, at_R. rewrite Y0, Y1. unfold Rdiv. ring. }
  rewrite S0, Y0, P0, P1. set (a := (- p - 0) * (t - nth i x 0)). set (b := (p - 0) * (t - nth (S i) x 0)).
  assert (A : a <= 0) by (unfold a; nra). assert (B : b <= 0) by (unfold b; nra).
  destruct (Rlt_dec (a * b) 0) as [C|C]; [nra|]. destruct (Rlt_dec 0 (a * b)) as [E|E].
  - assert (a + b < 0) by nra. assert (1 / (a + b) < 0). { unfold Rdiv. rewrite Rmult_1_l. now apply Rinv_lt_0_compat. } nra.
  - lra.
Qed.
Lemma slope_nth x y i : StronglySorted Rlt x -> (3 <= List.length x)%nat -> (i < List.length x)%nat -> nth i (map (stineman_at x y) (seq 0 (List.length x))) 0 = stineman_at x y i.
Proof.
  intros H N Hi. rewrite (nth_indep _ 0 (stineman_at x y 0)) by (rewrite map_length, seq_length; exact Hi). rewrite map_nth, seq_nth by exact Hi. reflexivity.
Qed.
Lemma sgn0 : sgn 0 = 0.
Proof. unfold sgn. destruct (Rlt_dec 0 0); [lra|reflexivity]. Qed.
Lemma inner_low x y : increasing x -> (3 <= List.length x)%nat -> nth 0 y 0 = 0 -> nth 1 y 0 = 0 -> 0 <= nth 2 y 0 ->
  0 <= stineman_inner x y 1 /\ stineman_at x y 1 = stineman_inner x y 1 /\ stineman_at x y 0 = - stineman_inner x y 1.
Proof.
  intros I N Y0 Y1 Y2. pose proof (I 0%nat ltac:(lia)) as I0. pose proof (I 1%nat ltac:(lia)) as I1.
  assert (S0 : secant x y 0 = 0) by (unfold secant, at_R; rewrite Y0, Y1; unfold Rdiv; ring).
  assert (G0 : 0 < gap x 0) by (unfold gap, at_R; lra). assert (G1 : 0 < gap x 1) by (unfold gap, at_R; lra).
  assert (S1 : 0 <= secant x y 1). { unfold secant, at_R. rewrite Y1. apply Rdiv_le_0_compat; [lra|exact G1]. }
  split; [|split].
  - unfold stineman_inner. change (1 - 1)%nat with 0%nat. rewrite S0. apply Rdiv_le_0_compat.
    + assert (0 <= gap x 1 * secant x y 1) by (apply Rmult_le_pos; lra). assert (0 <= gap x 0 ^ 2) by nra. nra.
    + assert (0 <= secant x y 1 ^ 2) by nra. assert (0 < gap x 1 ^ 2) by nra. assert (0 < gap x 0 ^ 2) by nra. assert (0 < gap x 0 * gap x 1 ^ 2 * (1 + secant x y 1 ^ 2)) by (apply Rmult_lt_0_compat; [apply Rmult_lt_0_compat|]; lra).
      assert (0 < gap x 1 * gap x 0 ^ 2) by (apply Rmult_lt_0_compat; lra). nra.
  - unfold stineman_at. cbv zeta. destruct (Nat.eqb_spec 1 0); [lia|]. unfold npts. destruct (Nat.eqb_spec 1 (List.length x - 1)); [lia|].
    unfold reflected_ends, npts. destruct (Nat.eqb_spec 1 0); [lia|]. destruct (Nat.eqb_spec 1 (List.length x - 1)); [lia|reflexivity].
  - unfold stineman_at. cbv zeta. rewrite Nat.eqb_refl. unfold stineman_end. rewrite S0, sgn0, Rmult_0_l. destruct (Rle_dec 0 0); [|lra].
    unfold reflected_ends, npts. rewrite Nat.eqb_refl. destruct (Nat.eqb_spec (List.length x) 2); [lia|]. rewrite S0. ring.
Qed.
Lemma inner_high x y N : increasing x -> List.length x = (N + 3)%nat -> nth (N + 2) y 0 = 0 -> nth (N + 1) y 0 = 0 -> 0 <= nth N y 0 ->
  stineman_inner x y (N + 1) <= 0 /\ stineman_at x y (N + 1) = stineman_inner x y (N + 1) /\ stineman_at x y (N + 2) = - stineman_inner x y (N + 1).
Proof.
  intros I L Y2 Y1 Y0. pose proof (I N ltac:(lia)) as I0. pose proof (I (N + 1)%nat ltac:(lia)) as I1. replace (S (N + 1)) with (N + 2)%nat in I1 by lia. replace (S N) with (N + 1)%nat in I0 by lia.
  assert (S1 : secant x y (N + 1) = 0) by (unfold secant, at_R; replace (S (N + 1)) with (N + 2)%nat by lia; rewrite Y1, Y2; unfold Rdiv; ring).
  assert (G0 : 0 < gap x N) by (unfold gap, at_R; replace (S N) with (N + 1)%nat by lia; lra). assert (G1 : 0 < gap x (N + 1)) by (unfold gap, at_R; replace (S (N + 1)) with (N + 2)%nat by lia; lra).
  assert (S0 : secant x y N <= 0). { unfold secant, at_R. replace (S N) with (N + 1)%nat by lia. rewrite Y1. assert (0 < / gap x N) by now apply Rinv_0_lt_compat. unfold Rdiv. nra. }
  split; [|split].
  - unfold stineman_inner. replace (N + 1 - 1)%nat with N by lia. rewrite S1.
    assert (A : gap x N * secant x y N * gap x (N + 1) ^ 2 * (1 + 0 ^ 2) + gap x (N + 1) * 0 * gap x N ^ 2 * (1 + secant x y N ^ 2) <= 0).
    { assert (gap x N * secant x y N <= 0) by nra. assert (0 <= gap x (N + 1) ^ 2) by nra. nra. }
    assert (B : 0 < gap x N * gap x (N + 1) ^ 2 * (1 + 0 ^ 2) + gap x (N + 1) * gap x N ^ 2 * (1 + secant x y N ^ 2)).
    { assert (0 <= secant x y N ^ 2) by nra. assert (0 < gap x N ^ 2) by nra. assert (0 < gap x (N + 1) ^ 2) by nra. assert (0 < gap x N * gap x (N + 1) ^ 2) by (apply Rmult_lt_0_compat; lra).
      assert (0 < gap x (N + 1) * gap x N ^ 2) by (apply Rmult_lt_0_compat; lra). nra. }
    assert (0 < / (gap x N * gap x (N + 1) ^ 2 * (1 + 0 ^ 2) + gap x (N + 1) * gap x N ^ 2 * (1 + secant x y N ^ 2))) by now apply Rinv_0_lt_compat. unfold Rdiv. nra.
  - unfold stineman_at. cbv zeta. destruct (Nat.eqb_spec (N + 1) 0); [lia|]. unfold npts. destruct (Nat.eqb_spec (N + 1) (List.length x - 1)); [lia|].
    unfold reflected_ends, npts. destruct (Nat.eqb_spec (N + 1) 0); [lia|]. destruct (Nat.eqb_spec (N + 1) (List.length x - 1)); [lia|reflexivity].
  - unfold stineman_at. cbv zeta. destruct (Nat.eqb_spec (N + 2) 0); [lia|]. unfold npts. destruct (Nat.eqb_spec (N + 2) (List.length x - 1)); [|lia].
    replace (List.length x - 2)%nat with (N + 1)%nat by lia. unfold stineman_end. rewrite S1, sgn0, Rmult_0_l. destruct (Rle_dec 0 0); [|lra].
    unfold reflected_ends, npts. replace (List.length x - 1)%nat with (N + 2)%nat by lia. replace (List.length x - 2)%nat with (N + 1)%nat by lia. destruct (Nat.eqb_spec (N + 2) 0); [lia|]. rewrite Nat.eqb_refl. destruct (Nat.eqb_spec (List.length x) 2); [lia|]. rewrite S1. ring.
Qed.
Lemma stineman_low x y t : increasing x -> (3 <= List.length x)%nat -> nth 0 y 0 = 0 -> nth 1 y 0 = 0 -> 0 <= nth 2 y 0 -> nth 0 x 0 <= t <= nth 1 x 0 ->
  stineman_interp x y (map (stineman_at x y) (seq 0 (List.length x))) t <= 0.
Proof.
  intros I N Y0 Y1 Y2 T. pose proof (increasing_sorted x I) as H. destruct (inner_low x y I N Y0 Y1 Y2) as [A [B C]].
  rewrite (sinterp_piece _ _ _ 0) by (auto; lia). apply (spiece_below _ _ _ _ _ (stineman_inner x y 1)); auto; try (apply I; lia); rewrite slope_nth; auto; lia.
Qed.
Lemma stineman_high x y t N : increasing x -> List.length x = (N + 3)%nat -> nth (N + 2) y 0 = 0 -> nth (N + 1) y 0 = 0 -> 0 <= nth N y 0 -> nth (N + 1) x 0 <= t <= nth (N + 2) x 0 ->
  stineman_interp x y (map (stineman_at x y) (seq 0 (List.length x))) t <= 0.
Proof.
  intros I L Y2 Y1 Y0 T. pose proof (increasing_sorted x I) as H. destruct (inner_high x y N I L Y2 Y1 Y0) as [A [B C]].
  assert (E : S (N + 1) = (N + 2)%nat) by lia. pose proof (I (N + 1)%nat ltac:(lia)) as I1. rewrite E in I1.
  rewrite (sinterp_piece _ _ _ (N + 1)); [|exact H|lia|rewrite E; exact T].
  apply (spiece_below _ _ _ _ _ (- stineman_inner x y (N + 1))); try rewrite E; auto; try lra; rewrite slope_nth; auto; try lia. rewrite B. ring.
Qed.
(* straight lines *)
Lemma interp_piece x y i t : increasing x -> List.length y = List.length x -> (S i < List.length x)%nat -> nth i x 0 <= t <= nth (S i) x 0 ->
  interp x y t = nth i y 0 + (nth (S i) y 0 - nth i y 0) * ((t - nth i x 0) / (nth (S i) x 0 - nth i x 0)).
Proof. intros I L Hi T. apply (interp_polygon x y (eq_sym L) I i t Hi T). Qed.
Lemma interp_knot x y i : increasing x -> List.length y = List.length x -> (2 <= List.length x)%nat -> (i < List.length x)%nat -> interp x y (nth i x 0) = nth i y 0.
Proof.
  intros I L N Hi. destruct (Nat.eq_dec (S i) (List.length x)) as [E|E].
  - destruct i as [|j]; [lia|]. pose proof (I j ltac:(lia)). rewrite (interp_piece x y j) by (auto; lra). field. lra.
  - pose proof (I i ltac:(lia)). rewrite (interp_piece x y i) by (auto; try lia; lra). field. lra.
Qed.
Lemma interp_zero x y i t : increasing x -> List.length y = List.length x -> (S i < List.length x)%nat -> nth i x 0 <= t <= nth (S i) x 0 -> nth i y 0 = 0 -> nth (S i) y 0 = 0 -> interp x y t = 0.
Proof. intros. rewrite (interp_piece x y i) by assumption. rewrite H3, H4. unfold Rdiv. ring. Qed.
