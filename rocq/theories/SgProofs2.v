(* The piecewise filter: proofs. *)
From Coq Require Import Reals List ZArith Lra Lia Bool.
From Verif Require Import Base ArSpec ArProofs2 CsimProofs CsimProofs3 SgModel SgSpec SgProofs.
Import ListNotations.
Local Open Scope R_scope.

Lemma find_seq f a n : match find f (seq a n) with Some i => (a <= i < a + n)%nat /\ f i = true /\ (forall j, (a <= j < i)%nat -> f j = false) | None => forall j, (a <= j < a + n)%nat -> f j = false end.
Proof.
  revert a. induction n as [|n IH]; intros a; cbn [seq find]; [intros j J; lia|]. destruct (f a) eqn:F; [split; [lia|]; split; [exact F|intros j J; lia]|]. specialize (IH (S a)). destruct (find f (seq (S a) n)).
  - destruct IH as [A [B C]]. split; [lia|]. split; [exact B|]. intros j J. destruct (Nat.eq_dec j a) as [->|]; [exact F|apply C; lia].
  - intros j J. destruct (Nat.eq_dec j a) as [->|]; [exact F|apply IH; lia].
Qed.
Lemma ltb_false a b : ltb_R a b = false -> b <= a. Proof. unfold ltb_R. destruct (Rlt_dec a b); [discriminate|lra]. Qed.
Lemma ltb_true a b : ltb_R a b = true -> a < b. Proof. unfold ltb_R. destruct (Rlt_dec a b); [auto|discriminate]. Qed.
Lemma turnpoint_spec x t : get_turnpoint x = Ok t -> (2 <= List.length x)%nat /\ (t = 0%nat -> monotone x) /\ (t <> 0%nat -> (2 <= t < List.length x)%nat /\ monotone (firstn t x)).
Proof.
  destruct x as [|x0 [|x1 x]]; try discriminate. unfold get_turnpoint. set (l := x0 :: x1 :: x). assert (LL : (2 <= List.length l)%nat) by (cbn; lia). intros E. apply (f_equal (fun r => match r with Ok a => a | Err _ => 0%nat end)) in E. cbv iota in E. split; [exact LL|].
  destruct (ltb_R x0 x1) eqn:C; [pose proof (find_seq (fun i => ltb_R (nth i l 0) (nth (i - 1) l 0)) 1 (List.length l - 1)) as F|pose proof (find_seq (fun i => ltb_R (nth (i - 1) l 0) (nth i l 0)) 1 (List.length l - 1)) as F]; destruct (find _ _) as [i|] in F, E; subst t.
  - destruct F as [A [B D]]. split; [lia|]. intros _. assert (i <> 1)%nat by (intros ->; cbn in B; apply ltb_true in B; apply ltb_true in C; lra). split; [lia|]. left. intros j J. rewrite firstn_length in J. rewrite !nth_firstn_lt by lia. specialize (D (S j) ltac:(lia)). replace (S j - 1)%nat with j in D by lia. apply ltb_false, D.
  - split; [intros _|lia]. left. intros j J. specialize (F (S j) ltac:(lia)). replace (S j - 1)%nat with j in F by lia. apply ltb_false, F.
  - destruct F as [A [B D]]. split; [lia|]. intros _. assert (i <> 1)%nat by (intros ->; cbn in B; rewrite C in B; discriminate). split; [lia|]. right. intros j J. rewrite firstn_length in J. rewrite !nth_firstn_lt by lia. specialize (D (S j) ltac:(lia)). replace (S j - 1)%nat with j in D by lia. apply ltb_false, D.
  - split; [intros _|lia]. right. intros j J. specialize (F (S j) ltac:(lia)). replace (S j - 1)%nat with j in F by lia. apply ltb_false, F.
Qed.
Lemma sg_fuel pinv y w n d : savitzky_golay pinv y w n d <> Err OutOfFuel.
Proof. unfold savitzky_golay, check_window_size. destruct (negb _ || _); [discriminate|]. destruct (_ <? _)%nat; [discriminate|]. cbn [bind]. destruct (_ <? _)%nat; [discriminate|]. destruct y; discriminate. Qed.
Lemma piecewise_total fuel pinv x data w n : (List.length x < fuel)%nat -> piecewise fuel pinv x data w n <> Err OutOfFuel.
Proof.
  revert x data. induction fuel as [|fuel IH]; intros x data L; [lia|]. cbn [piecewise]. destruct (get_turnpoint x) as [t|e] eqn:T; cbn [bind].
  - destruct (turnpoint_spec x t T) as [LX [_ TN]]. destruct (Nat.eqb_spec t 0) as [->|N]; [apply sg_fuel|]. destruct (TN N) as [TL _]. pose proof (sg_fuel pinv (firstn t data) w n 0). destruct (savitzky_golay pinv (firstn t data) w n 0); cbn [bind]; [|congruence]. specialize (IH (skipn t x) (skipn t data)). rewrite skipn_length in IH. destruct (piecewise fuel pinv (skipn t x) (skipn t data) w n); cbn [bind]; [discriminate|]. apply IH. lia.
  - destruct x as [|a [|b x]]; cbn in T; try discriminate; injection T as <-; discriminate.
Qed.
Lemma piecewise_cut fuel pinv x data w n z : List.length x = List.length data -> piecewise fuel pinv x data w n = Ok z -> cut (fun d => savitzky_golay pinv d w n 0) x data z.
Proof.
  revert x data z. induction fuel as [|fuel IH]; intros x data z L; [discriminate|]. cbn [piecewise]. destruct (get_turnpoint x) as [t|e] eqn:T; cbn [bind]; [|discriminate]. destruct (turnpoint_spec x t T) as [LX [T0 TN]]. destruct (Nat.eqb_spec t 0) as [->|N].
  - intros E. exists [x], [data], [z]. cbn [concat map]. rewrite !app_nil_r, L. repeat (split; [reflexivity|]). split; [|repeat constructor; exact E]. intros p [<-|[]]. split; [apply T0; reflexivity|exact LX].
  - destruct (TN N) as [TL TM]. destruct (savitzky_golay pinv (firstn t data) w n 0) as [f|] eqn:F; cbn [bind]; [|discriminate]. destruct (piecewise fuel pinv (skipn t x) (skipn t data) w n) as [r|] eqn:RR; cbn [bind]; [|discriminate]. intros E. injection E as <-.
    destruct (IH (skipn t x) (skipn t data) r ltac:(rewrite !skipn_length; lia) RR) as [xs [ys [zs [A [B [C [D [G H]]]]]]]]. exists (firstn t x :: xs), (firstn t data :: ys), (f :: zs). cbn [concat map]. rewrite A, B, C, D, !firstn_skipn, !firstn_length, L. repeat (split; [reflexivity|]). split; [|constructor; assumption]. intros p [<-|P]; [|apply G, P]. split; [exact TM|]. rewrite firstn_length. lia.
Qed.
Lemma smoothed_pieces pinv x data w n z : List.length x = List.length data -> savitzky_golay_piecewise pinv x data w n = Ok z -> cut (fun d => savitzky_golay pinv d w n 0) x data z.
Proof. apply piecewise_cut. Qed.
Lemma piecewise_answers pinv x data w n : savitzky_golay_piecewise pinv x data w n <> Err OutOfFuel.
Proof. apply piecewise_total. lia. Qed.
(* a monotone x is one piece *)
Lemma increasing_whole pinv x data w n : (2 <= List.length x)%nat -> (forall i, (S i < List.length x)%nat -> nth i x 0 < nth (S i) x 0) -> savitzky_golay_piecewise pinv x data w n = savitzky_golay pinv data w n 0.
Proof.
  intros L M. unfold savitzky_golay_piecewise. cbn [piecewise]. destruct x as [|x0 [|x1 x]]; cbn in L; try lia. unfold get_turnpoint. set (l := x0 :: x1 :: x) in *. assert (C : ltb_R x0 x1 = true) by (unfold ltb_R; destruct (Rlt_dec x0 x1) as [|K]; [reflexivity|exfalso; apply K, (M 0%nat); cbn; lia]). rewrite C. pose proof (find_seq (fun i => ltb_R (nth i l 0) (nth (i - 1) l 0)) 1 (List.length l - 1)) as F. destruct (find _ _) as [i|]; [|reflexivity]. exfalso. destruct F as [A [B _]]. apply ltb_true in B. specialize (M (i - 1)%nat ltac:(lia)). replace (S (i - 1)) with i in M by lia. lra.
Qed.
Lemma decreasing_whole pinv x data w n : (2 <= List.length x)%nat -> (forall i, (S i < List.length x)%nat -> nth (S i) x 0 <= nth i x 0) -> savitzky_golay_piecewise pinv x data w n = savitzky_golay pinv data w n 0.
Proof.
  intros L M. unfold savitzky_golay_piecewise. cbn [piecewise]. destruct x as [|x0 [|x1 x]]; cbn in L; try lia. unfold get_turnpoint. set (l := x0 :: x1 :: x) in *. assert (C : ltb_R x0 x1 = false) by (unfold ltb_R; destruct (Rlt_dec x0 x1) as [K|]; [exfalso; pose proof (M 0%nat ltac:(cbn; lia)) as Q; cbn in Q; lra|reflexivity]). rewrite C. pose proof (find_seq (fun i => ltb_R (nth (i - 1) l 0) (nth i l 0)) 1 (List.length l - 1)) as F. destruct (find _ _) as [i|]; [|reflexivity]. exfalso. destruct F as [A [B _]]. apply ltb_true in B. specialize (M (i - 1)%nat ltac:(lia)). replace (S (i - 1)) with i in M by lia. lra.
Qed.
(* a concrete pseudo-inverse *)
Definition pinv3 (p q : nat) (b : matrix) : matrix := fun i r => match i with O => 1 / 3 | S O => (INR r - 1) / 2 | _ => 0 end.
Lemma pinv3_ok : pseudo_inverse (2 * 1 + 1) (1 + 1) (powers 1) (pinv3 (2 * 1 + 1) (1 + 1) (powers 1)).
Proof. split. - intros i l I L. destruct i as [|[|i]]; [| |lia]; (destruct l as [|[|l]]; [| |lia]); cbn [sum_to Nat.mul Nat.add Nat.eqb]; unfold pinv3, powers; cbn [INR pow]; field. - intros r s A B. destruct r as [|[|[|r]]]; [| | |lia]; (destruct s as [|[|[|s]]]; [| | |lia]); cbn [sum_to Nat.mul Nat.add]; unfold pinv3, powers; cbn [INR pow]; field. Qed.
Ltac eval3 := unfold savitzky_golay; try change (Z.abs_nat 3) with 3%nat; try change (Z.abs_nat (Z.of_nat (2 * 1 + 1))) with 3%nat; try change (Z.abs_nat 1) with 1%nat; try change (Z.abs_nat (Z.of_nat 1)) with 1%nat; unfold check_window_size, convolve_valid, padded; cbn; unfold pinv3, total; cbn [INR fold_right map].
Lemma first_derivative_refuted : exists y z, (forall i, (i < 3)%nat -> nth i y 0 = INR i) /\ savitzky_golay pinv3 y 3 1 1 = Ok z /\ nth 1 z 0 = -1.
Proof. exists [0; 1; 2]. eexists. split; [intros [|[|[|i]]] I; cbn; try lra; lia|]. split; [eval3; reflexivity|]. cbn. field. Qed.
Lemma decreasing_line_refuted : exists y z, (forall i, (i < 3)%nat -> nth i y 0 = 2 - INR i) /\ savitzky_golay pinv3 y 3 1 0 = Ok z /\ nth 0 z 0 = 4 / 3 /\ nth 2 z 0 = 2 / 3.
Proof.
  exists [2; 1; 0]. eexists. split; [intros [|[|[|i]]] I; cbn; try lra; lia|]. split; [eval3; reflexivity|]. cbn. replace (1 - 2) with (-1) by ring. replace (1 - 0) with 1 by ring. rewrite (Rabs_left (-1)), Rabs_R1 by lra. split; field.
Qed.
Lemma short_refuted pinv : exists y z, List.length y = 2%nat /\ savitzky_golay pinv y 7 1 0 = Ok z /\ List.length z = 4%nat.
Proof. exists [0; 1]. eexists. split; [reflexivity|]. split; [unfold savitzky_golay; change (Z.abs_nat 7) with 7%nat; change (Z.abs_nat 1) with 1%nat; unfold check_window_size, convolve_valid, padded; cbn; reflexivity|reflexivity]. Qed.
Lemma last_point_refuted : forall a b c : R, savitzky_golay_piecewise pinv3 [0; 1; 0] [a; b; c] 3 1 = Err IndexError /\ savitzky_golay_piecewise pinv3 [0; 0; 1] [a; b; c] 3 1 = Err IndexError.
Proof.
  intros a b c. unfold savitzky_golay_piecewise. cbn [piecewise List.length get_turnpoint]. assert (L1 : ltb_R 0 1 = true) by (unfold ltb_R; destruct (Rlt_dec 0 1); [reflexivity|lra]). assert (L2 : ltb_R 0 0 = false) by (unfold ltb_R; destruct (Rlt_dec 0 0); [lra|reflexivity]). assert (L3 : ltb_R 1 0 = false) by (unfold ltb_R; destruct (Rlt_dec 1 0); [lra|reflexivity]).
  rewrite L1, L2. cbn [seq Nat.sub find nth]. rewrite L1, L2, L3. cbn [seq find]. rewrite ?L1, ?L2, ?L3. split; reflexivity.
Qed.
(* examples *)
Lemma case_poly : exists y z c, (2 * 1 + 1 = 3)%nat /\ savitzky_golay pinv3 y (Z.of_nat (2 * 1 + 1)) (Z.of_nat 1) 0 = Ok z /\ List.length y = 4%nat /\ follows y 1 1 1 c /\ nth 1 z 0 = 5.
Proof. exists [3; 5; 7; 1], (match savitzky_golay pinv3 [3; 5; 7; 1] (Z.of_nat (2 * 1 + 1)) (Z.of_nat 1) 0 with Ok z => z | _ => [] end), (fun i => match i with O => 5 | S O => 2 | _ => 0 end). split; [reflexivity|]. split; [reflexivity|]. split; [reflexivity|]. split; [|eval3; field]. intros [|[|[|j]]] J; try lia; unfold poly; cbn; ring. Qed.
Lemma case_pieces : exists z, savitzky_golay_piecewise pinv3 [0; 1; 2; 1; 0] [0; 1; 2; 4; 5] 3 1 = Ok z /\ z = [0; 1; 2; 4; 5].
Proof.
  exists [0; 1; 2; 4; 5]. split; [|reflexivity].
  assert (A : savitzky_golay pinv3 [0; 1; 2] 3 1 0 = Ok [0; 1; 2]).
  { destruct (filter_value pinv3 [0; 1; 2] 1 1 0 ltac:(lia) ltac:(lia) ltac:(cbn; lia)) as [z [E _]]. assert (Q : z = [0; 1; 2]); [|rewrite Q in E; exact E]. apply (line_kept pinv3 [0; 1; 2] 1 1 z 0 1); [lia|lia|apply pinv3_ok|cbn; lia|lra|intros [|[|[|i]]] I; cbn in *; try lra; lia|exact E]. }
  assert (B : savitzky_golay pinv3 [4; 5] 3 1 0 = Ok [4; 5]).
  { destruct (filter_value pinv3 [4; 5] 1 1 0 ltac:(lia) ltac:(lia) ltac:(cbn; lia)) as [z [E _]]. assert (Q : z = [4; 5]); [|rewrite Q in E; exact E]. apply (line_kept pinv3 [4; 5] 1 1 z 4 1); [lia|lia|apply pinv3_ok|cbn; lia|lra|intros [|[|i]] I; cbn in *; try lra; lia|exact E]. }
  unfold savitzky_golay_piecewise. cbn [piecewise List.length get_turnpoint]. assert (L1 : ltb_R 0 1 = true) by (unfold ltb_R; destruct (Rlt_dec 0 1); [reflexivity|lra]). assert (L2 : ltb_R 1 0 = false) by (unfold ltb_R; destruct (Rlt_dec 1 0); [lra|reflexivity]). assert (L3 : ltb_R 2 1 = false) by (unfold ltb_R; destruct (Rlt_dec 2 1); [lra|reflexivity]). assert (L4 : ltb_R 1 2 = true) by (unfold ltb_R; destruct (Rlt_dec 1 2); [reflexivity|lra]).
  rewrite L1. cbn [seq Nat.sub find nth]. rewrite L2, L3, L4. cbn [bind Nat.eqb firstn skipn piecewise List.length get_turnpoint]. rewrite A. cbn [bind]. rewrite L2. cbn [seq Nat.sub find nth]. rewrite L2. cbn [bind Nat.eqb]. rewrite B. reflexivity.
Qed.
