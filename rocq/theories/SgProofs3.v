(* Savitzky-Golay filters: the statements. *)
From Coq Require Import Reals List ZArith Lra Lia Bool.
From Verif Require Import Base ArSpec ArProofs2 CsimProofs CsimProofs3 SgModel SgSpec SgProofs SgProofs2.
Import ListNotations.
Local Open Scope R_scope.

Lemma same_length pinv y h n d : (n + 2 <= 2 * h + 1)%nat -> (d <= n)%nat -> (h < List.length y)%nat -> exists z, savitzky_golay pinv y (Z.of_nat (2 * h + 1)) (Z.of_nat n) d = Ok z /\ List.length z = List.length y.
Proof. intros A B C. destruct (filter_value pinv y h n d A B C) as [z [E [L _]]]. exists z. split; assumption. Qed.
Lemma quiet pinv h n d : (n + 2 <= 2 * h + 1)%nat -> (d <= n)%nat -> pseudo_inverse (2 * h + 1) (n + 1) (powers h) (pinv (2 * h + 1)%nat (n + 1)%nat (powers h)) ->
  exists m, (forall y z k, savitzky_golay pinv y (Z.of_nat (2 * h + 1)) (Z.of_nat n) d = Ok z -> (h <= k)%nat -> (k + h < List.length y)%nat -> nth k z 0 = sum_to (2 * h + 1) (fun j => m j * nth (k + h - j) y 0)) /\
  forall m', (forall c, sum_to (2 * h + 1) (fun j => m' j * poly n c (INR h - INR j)) = (-1) ^ d * c d) -> sum_to (2 * h + 1) (fun j => m j ^ 2) <= sum_to (2 * h + 1) (fun j => m' j ^ 2).
Proof. intros W D PI. exists (weight pinv h n d). split; [intros y z k E K1 K2; apply inner with (d := d) (n := n); try assumption; lia|]. intros m' M. apply quietest; assumption. Qed.
Lemma derivative_sign : exists pinv y z, pseudo_inverse 3 2 (powers 1) (pinv 3%nat 2%nat (powers 1)) /\ (forall i, (i < 3)%nat -> nth i y 0 = INR i) /\ savitzky_golay pinv y 3 1 1 = Ok z /\ nth 1 z 0 = -1.
Proof. destruct first_derivative_refuted as [y [z H]]. exists pinv3, y, z. split; [exact pinv3_ok|exact H]. Qed.
Lemma decreasing_end : exists pinv y z, pseudo_inverse 3 2 (powers 1) (pinv 3%nat 2%nat (powers 1)) /\ (forall i, (i < 3)%nat -> nth i y 0 = 2 - INR i) /\ savitzky_golay pinv y 3 1 0 = Ok z /\ nth 0 z 0 = 4 / 3 /\ nth 2 z 0 = 2 / 3.
Proof. destruct decreasing_line_refuted as [y [z H]]. exists pinv3, y, z. split; [exact pinv3_ok|exact H]. Qed.
Lemma trailing pinv a b c w n s : savitzky_golay pinv [a; b] w n 0 = Ok s -> savitzky_golay_piecewise pinv [0; 1; 0] [a; b; c] w n = Err IndexError /\ savitzky_golay_piecewise pinv [0; 0; 1] [a; b; c] w n = Err IndexError.
Proof.
  intros E. unfold savitzky_golay_piecewise. cbn [piecewise List.length get_turnpoint]. assert (L1 : ltb_R 0 1 = true) by (unfold ltb_R; destruct (Rlt_dec 0 1); [reflexivity|lra]). assert (L2 : ltb_R 0 0 = false) by (unfold ltb_R; destruct (Rlt_dec 0 0); [lra|reflexivity]). assert (L3 : ltb_R 1 0 = false) by (unfold ltb_R; destruct (Rlt_dec 1 0); [lra|reflexivity]).
  rewrite L1, L2. cbn [seq Nat.sub find nth]. rewrite L1, L2, L3. cbn [bind Nat.eqb firstn skipn piecewise List.length get_turnpoint]. rewrite E. split; reflexivity.
Qed.
Lemma smooth_case : exists pinv y z c, pseudo_inverse 3 2 (powers 1) (pinv 3%nat 2%nat (powers 1)) /\ savitzky_golay pinv y 3 1 0 = Ok z /\ List.length y = 4%nat /\ follows y 1 1 1 c /\ nth 1 z 0 = 5.
Proof. destruct case_poly as [y [z [c [_ [A [B [C D]]]]]]]. exists pinv3, y, z, c. split; [exact pinv3_ok|]. split; [exact A|]. split; [exact B|]. split; assumption. Qed.
Lemma piece_case : exists pinv, pseudo_inverse 3 2 (powers 1) (pinv 3%nat 2%nat (powers 1)) /\ savitzky_golay_piecewise pinv [0; 1; 2; 1; 0] [0; 1; 2; 4; 5] 3 1 = Ok [0; 1; 2; 4; 5].
Proof. exists pinv3. split; [exact pinv3_ok|]. destruct case_pieces as [z [E Z]]. rewrite E, Z. reflexivity. Qed.
