(* Savitzky-Golay filters: proofs. *)
From Coq Require Import Reals List ZArith Lra Lia Bool.
From Verif Require Import Base ArSpec ArProofs2 CsimProofs CsimProofs3 SgModel SgSpec.
Import ListNotations.
Local Open Scope R_scope.

Lemma total_seq f n : total (map f (seq 0 n)) = sum_to n f.
Proof. assert (TA : forall a b, total (a ++ b) = total a + total b) by (intros a b; unfold total; induction a as [|x a IH]; cbn; [ring|]; rewrite IH; ring). induction n as [|n IH]; [reflexivity|]. rewrite seq_S, map_app, TA, IH. cbn. ring. Qed.
Lemma neg_pow x i : (- x) ^ i = (-1) ^ i * x ^ i. Proof. rewrite <- Rpow_mult_distr. f_equal. ring. Qed.
Lemma one_pow i : (-1) ^ i * (-1) ^ i = 1. Proof. rewrite <- Rpow_mult_distr. replace (-1 * -1) with 1 by ring. apply pow1. Qed.
Lemma check_ok w min : w mod 2 = 1%nat -> (min <= w)%nat -> check_window_size w min = Ok tt.
Proof. intros A B. assert (w <> 0)%nat by (intros ->; discriminate). unfold check_window_size. rewrite A. cbn [Nat.eqb negb orb]. destruct (Nat.ltb_spec w 1); [lia|]. destruct (Nat.ltb_spec w min); [lia|reflexivity]. Qed.
Lemma odd_half h : ((2 * h + 1) mod 2 = 1)%nat /\ ((2 * h + 1 - 1) / 2 = h)%nat.
Proof. split; [rewrite Nat.add_comm, Nat.mul_comm, Nat.mod_add by lia; reflexivity|]. rewrite Nat.add_sub, Nat.mul_comm. apply Nat.div_mul. lia. Qed.
Lemma padded_length y h : (h < List.length y)%nat -> List.length (padded y h) = (List.length y + 2 * h)%nat.
Proof. intros H. unfold padded. cbv zeta. rewrite !app_length, !map_length, !rev_length, skipn_length, !firstn_length, skipn_length. lia. Qed.
Lemma padded_mid y h i : (h < List.length y)%nat -> (i < List.length y)%nat -> nth (h + i) (padded y h) 0 = nth i y 0.
Proof.
  intros H I. unfold padded. cbv zeta. set (a := map _ (rev (firstn h _))). set (b := map _ (rev (skipn _ _))). assert (LA : List.length a = h) by (unfold a; rewrite map_length, rev_length, firstn_length, skipn_length; lia).
  rewrite app_nth2 by lia. rewrite LA. replace (h + i - h)%nat with i by lia. rewrite app_nth1 by exact I. reflexivity.
Qed.
Lemma rev_nth' (l : list R) i : (i < List.length l)%nat -> nth i (rev l) 0 = nth (List.length l - S i) l 0. Proof. intros H. apply rev_nth, H. Qed.
Lemma nth_firstn_lt (l : list R) k i : (i < k)%nat -> nth i (firstn k l) 0 = nth i l 0.
Proof. revert k i. induction l as [|a l IH]; intros k i H; [rewrite firstn_nil; destruct i; reflexivity|]. destruct k; [lia|]. destruct i; [reflexivity|]. cbn. apply IH. lia. Qed.
Lemma nth_skipn_add (l : list R) k i : nth i (skipn k l) 0 = nth (k + i) l 0.
Proof. revert k. induction l as [|a l IH]; intros k; [rewrite skipn_nil; destruct (k + i)%nat; destruct i; reflexivity|]. destruct k; [reflexivity|]. cbn. apply IH. Qed.
Lemma last_nth (l : list R) : last l 0 = nth (List.length l - 1) l 0.
Proof. induction l as [|a [|b l] IH]; [reflexivity|reflexivity|]. change (last (a :: b :: l) 0) with (last (b :: l) 0). rewrite IH. cbn [List.length]. replace (S (S (List.length l)) - 1)%nat with (S (S (List.length l) - 1)) by lia. reflexivity. Qed.
Lemma padded_left y h i : (h < List.length y)%nat -> (i < h)%nat -> nth i (padded y h) 0 = nth 0 y 0 - Rabs (nth (h - i) y 0 - nth 0 y 0).
Proof.
  intros H I. unfold padded. cbv zeta. assert (LA : List.length (firstn h (skipn 1 y)) = h) by (rewrite firstn_length, skipn_length; lia). rewrite app_nth1 by (rewrite map_length, rev_length, LA; exact I).
  rewrite (nth_indep _ 0 (nth 0 y 0 - Rabs (0 - nth 0 y 0))) by (rewrite map_length, rev_length, LA; exact I). rewrite (map_nth (fun v => nth 0 y 0 - Rabs (v - nth 0 y 0))). rewrite rev_nth' by (rewrite LA; exact I). rewrite LA, nth_firstn_lt by lia. rewrite nth_skipn_add. replace (1 + (h - S i))%nat with (h - i)%nat by lia. reflexivity.
Qed.
Lemma padded_right y h i : (h < List.length y)%nat -> (i < h)%nat -> let n := List.length y in nth (h + n + i) (padded y h) 0 = nth (n - 1) y 0 + Rabs (nth (n - 2 - i) y 0 - nth (n - 1) y 0).
Proof.
  intros H I n. unfold padded. cbv zeta. fold n. rewrite last_nth. fold n. set (a := map _ (rev (firstn h _))). assert (LA : List.length a = h) by (unfold a; rewrite map_length, rev_length, firstn_length, skipn_length; unfold n in *; lia). rewrite app_nth2 by lia. rewrite app_nth2 by (fold n; lia). fold n. rewrite LA. replace (h + n + i - h - n)%nat with i by lia.
  set (l := skipn (n - 1 - h) (firstn (n - 1) y)). assert (LL : List.length l = h) by (unfold l; rewrite skipn_length, firstn_length; fold n; unfold n in *; lia).
  rewrite (nth_indep _ 0 (nth (n - 1) y 0 + Rabs (0 - nth (n - 1) y 0))) by (rewrite map_length, rev_length, LL; exact I). rewrite (map_nth (fun v => nth (n - 1) y 0 + Rabs (v - nth (n - 1) y 0))). rewrite rev_nth' by (rewrite LL; exact I). rewrite LL. unfold l. rewrite nth_skipn_add, nth_firstn_lt by (unfold n in *; lia). replace (n - 1 - h + (h - S i))%nat with (n - 2 - i)%nat by (unfold n in *; lia). reflexivity.
Qed.
(* the filter as a weighted sum *)
Definition weight (pinv : nat -> nat -> matrix -> matrix) (h n d j : nat) : R := pinv (2 * h + 1)%nat (n + 1)%nat (powers h) d j.
Lemma filter_value pinv y h n d : (n + 2 <= 2 * h + 1)%nat -> (d <= n)%nat -> (h < List.length y)%nat ->
  exists z, savitzky_golay pinv y (Z.of_nat (2 * h + 1)) (Z.of_nat n) d = Ok z /\ List.length z = List.length y /\
  forall k, (k < List.length y)%nat -> nth k z 0 = sum_to (2 * h + 1) (fun j => weight pinv h n d j * nth (k + 2 * h - j) (padded y h) 0).
Proof.
  intros W D L. unfold savitzky_golay. rewrite !Zabs2Nat.id. destruct (odd_half h) as [O1 O2]. rewrite check_ok by (assumption). cbn [bind]. rewrite O2. destruct (Nat.ltb_spec n d); [lia|]. destruct y as [|a y]; [cbn in L; lia|]. set (y' := a :: y) in *. eexists. split; [reflexivity|].
  unfold convolve_valid. rewrite map_length, seq_length. rewrite padded_length by exact L. destruct (Nat.leb_spec (2 * h + 1) (List.length y' + 2 * h)); [|lia]. rewrite padded_length by exact L. split; [rewrite !map_length, !seq_length; lia|].
  intros k K. rewrite map_seq_nth'. 2: { rewrite map_length, seq_length. lia. } rewrite map_length, seq_length, Nat.add_0_l, total_seq. apply sum_ext. intros j J. rewrite map_seq_nth' by exact J. rewrite Nat.add_0_l. unfold weight. do 2 f_equal. lia.
Qed.
Lemma sum_flip h f : sum_to (2 * h + 1) f = sum_to (2 * h + 1) (fun j => f (2 * h - j)%nat).
Proof. rewrite sum_rev. apply sum_ext. intros j J. f_equal. lia. Qed.
(* inside, for values of a polynomial, for any window that does not touch the ends *)
Lemma inner pinv y h n d z k : (n + 2 <= 2 * h + 1)%nat -> (d <= n)%nat -> (h < List.length y)%nat -> savitzky_golay pinv y (Z.of_nat (2 * h + 1)) (Z.of_nat n) d = Ok z -> (h <= k)%nat -> (k + h < List.length y)%nat ->
  nth k z 0 = sum_to (2 * h + 1) (fun j => weight pinv h n d j * nth (k + h - j) y 0).
Proof.
  intros W D L E K1 K2. destruct (filter_value pinv y h n d W D L) as [z' [E' [_ V]]]. rewrite E in E'. injection E' as <-. rewrite V by lia. apply sum_ext. intros j J. f_equal. replace (k + 2 * h - j)%nat with (h + (k + h - j))%nat by lia. apply padded_mid; lia.
Qed.
Lemma reproduces (pinv : nat -> nat -> matrix -> matrix) h n d (v : nat -> R) c : (d <= n)%nat -> pseudo_inverse (2 * h + 1) (n + 1) (powers h) (pinv (2 * h + 1)%nat (n + 1)%nat (powers h)) -> (forall j, (j <= 2 * h)%nat -> v j = poly n c (INR h - INR j)) ->
  sum_to (2 * h + 1) (fun j => weight pinv h n d j * v j) = (-1) ^ d * c d.
Proof.
  intros D [PI _] V. rewrite (sum_ext _ _ (fun j => sum_to (n + 1) (fun i => ((-1) ^ i * c i) * (weight pinv h n d j * powers h j i)))).
  2: { intros j J. rewrite V by lia. unfold poly. rewrite <- sum_scal. apply sum_ext. intros i _. unfold powers. replace (INR h - INR j) with (- (INR j - INR h)) by ring. rewrite neg_pow. ring. }
  rewrite sum_swap. rewrite (sum_ext _ _ (fun i => if (i =? d)%nat then (-1) ^ i * c i else 0)). 2: { intros i I. rewrite sum_scal. unfold weight. rewrite PI by lia. rewrite Nat.eqb_sym. destruct (i =? d)%nat; ring. }
  rewrite (sum_pick (n + 1) d); [rewrite Nat.eqb_refl; reflexivity|lia|]. intros i _ NE. destruct (Nat.eqb_spec i d); [contradiction|reflexivity].
Qed.
Lemma polynomial_kept pinv y h n d z k c : (n + 2 <= 2 * h + 1)%nat -> (d <= n)%nat -> pseudo_inverse (2 * h + 1) (n + 1) (powers h) (pinv (2 * h + 1)%nat (n + 1)%nat (powers h)) ->
  savitzky_golay pinv y (Z.of_nat (2 * h + 1)) (Z.of_nat n) d = Ok z -> (h <= k)%nat -> (k + h < List.length y)%nat -> follows y k h n c -> nth k z 0 = (-1) ^ d * c d.
Proof.
  intros W D PI E K1 K2 F. rewrite (inner pinv y h n d z k W D ltac:(lia) E K1 K2). apply reproduces; [exact D|exact PI|]. intros j J. specialize (F (2 * h - j)%nat ltac:(lia)). replace (k + (2 * h - j) - h)%nat with (k + h - j)%nat in F by lia. rewrite F. f_equal. rewrite minus_INR by lia. rewrite mult_INR. cbn [INR]. ring.
Qed.
(* least squares *)
Lemma normal_equations p q B P : pseudo_inverse p q B P -> forall v l, (l < q)%nat -> sum_to p (fun r => (v r - sum_to q (fun i => sum_to p (fun s => P i s * v s) * B r i)) * B r l) = 0.
Proof.
  intros [P1 P2] v l L.
  assert (E : forall s, (s < p)%nat -> sum_to p (fun r => sum_to q (fun i => B r i * P i s) * B r l) = B s l).
  { intros s Sp. rewrite (sum_ext _ _ (fun r => sum_to q (fun i => B s i * (P i r * B r l)))). 2: { intros r Rp. rewrite (P2 r s Rp Sp). rewrite Rmult_comm, <- sum_scal. apply sum_ext. intros; ring. }
    rewrite sum_swap. rewrite (sum_ext _ _ (fun i => if (i =? l)%nat then B s i else 0)). 2: { intros i I. rewrite sum_scal, P1 by assumption. destruct (i =? l)%nat; ring. } rewrite (sum_pick q l); [rewrite Nat.eqb_refl; reflexivity|exact L|]. intros i _ NE. destruct (Nat.eqb_spec i l); [contradiction|reflexivity]. }
  transitivity (sum_to p (fun r => v r * B r l) - sum_to p (fun s => v s * sum_to p (fun r => sum_to q (fun i => B r i * P i s) * B r l))).
  - rewrite (sum_ext _ _ (fun r => 1 * (v r * B r l) + -1 * (sum_to p (fun s => v s * (sum_to q (fun i => B r i * P i s) * B r l))))).
    2: { intros r _. rewrite Rmult_minus_distr_r. unfold Rminus. f_equal; [ring|]. rewrite <- Ropp_mult_distr_l_reverse. transitivity (-1 * (sum_to q (fun i => sum_to p (fun s => P i s * v s) * B r i) * B r l)); [ring|]. f_equal. rewrite Rmult_comm, <- sum_scal. rewrite (sum_ext _ _ (fun i => sum_to p (fun s => v s * (B r i * P i s * B r l)))). 2: { intros i _. rewrite Rmult_comm, Rmult_assoc, Rmult_comm, <- sum_scal. apply sum_ext. intros; ring. } rewrite sum_swap. apply sum_ext. intros s _. rewrite sum_scal. f_equal. rewrite Rmult_comm, <- sum_scal. apply sum_ext. intros; ring. }
    rewrite sum_lin. rewrite Rmult_1_l. unfold Rminus. f_equal. rewrite sum_swap. transitivity (- sum_to p (fun j => sum_to p (fun i => v j * (sum_to q (fun i0 => B i i0 * P i0 j) * B i l)))); [ring|]. f_equal. apply sum_ext. intros s _. rewrite sum_scal. reflexivity.
  - rewrite (sum_ext _ (fun s => v s * sum_to p (fun r => sum_to q (fun i => B r i * P i s) * B r l)) (fun s => v s * B s l)) by (intros s Sp; rewrite E by exact Sp; reflexivity). ring.
Qed.
Lemma least_squares p q B P : pseudo_inverse p q B P -> forall v a, sum_to p (fun r => (v r - sum_to q (fun i => sum_to p (fun s => P i s * v s) * B r i)) ^ 2) <= sum_to p (fun r => (v r - sum_to q (fun i => a i * B r i)) ^ 2).
Proof.
  intros PI v a. set (e := fun r => v r - sum_to q (fun i => sum_to p (fun s => P i s * v s) * B r i)). set (b := fun i => sum_to p (fun s => P i s * v s) - a i).
  change (sum_to p (fun r => e r ^ 2) <= sum_to p (fun r => (v r - sum_to q (fun i => a i * B r i)) ^ 2)).
  rewrite (sum_ext _ (fun r => (v r - sum_to q (fun i => a i * B r i)) ^ 2) (fun r => (1 * (e r ^ 2) + 1 * (sum_to q (fun i => b i * B r i)) ^ 2) + 2 * (e r * sum_to q (fun i => b i * B r i)))).
  2: { intros r _. replace (sum_to q (fun i => b i * B r i)) with (sum_to q (fun i => sum_to p (fun s => P i s * v s) * B r i) - sum_to q (fun i => a i * B r i)); [unfold e; ring|]. unfold b. rewrite (sum_ext _ (fun i => (_ - a i) * B r i) (fun i => 1 * (sum_to p (fun s => P i s * v s) * B r i) + -1 * (a i * B r i))) by (intros; ring). rewrite sum_lin. ring. }
  rewrite sum_plus, sum_lin, sum_scal. replace (sum_to p (fun r => e r * sum_to q (fun i => b i * B r i))) with 0.
  - pose proof (sum_nonneg p (fun r => sum_to q (fun i => b i * B r i) ^ 2) ltac:(intros; apply pow2_ge_0)). cbv beta in *. lra.
  - symmetry. rewrite (sum_ext _ _ (fun r => sum_to q (fun i => b i * (e r * B r i)))) by (intros r _; rewrite <- sum_scal; apply sum_ext; intros; ring). rewrite sum_swap. rewrite (sum_ext _ _ (fun _ => 0)); [apply sum_0|]. intros i I. rewrite sum_scal. unfold e. rewrite (normal_equations p q B P PI v i I). ring.
Qed.
Lemma fitted pinv y h n d z k : (n + 2 <= 2 * h + 1)%nat -> (d <= n)%nat -> pseudo_inverse (2 * h + 1) (n + 1) (powers h) (pinv (2 * h + 1)%nat (n + 1)%nat (powers h)) ->
  savitzky_golay pinv y (Z.of_nat (2 * h + 1)) (Z.of_nat n) d = Ok z -> (h <= k)%nat -> (k + h < List.length y)%nat -> exists c, (forall c', misfit y k h n c <= misfit y k h n c') /\ nth k z 0 = (-1) ^ d * c d.
Proof.
  intros W D PI E K1 K2. set (P := pinv (2 * h + 1)%nat (n + 1)%nat (powers h)) in *. set (v := fun j => nth (k + h - j) y 0). exists (fun i => (-1) ^ i * sum_to (2 * h + 1) (fun s => P i s * v s)).
  assert (M : forall c, misfit y k h n c = sum_to (2 * h + 1) (fun r => (v r - sum_to (n + 1) (fun i => (-1) ^ i * c i * powers h r i)) ^ 2)).
  { intros c. unfold misfit. rewrite sum_flip. apply sum_ext. intros j J. unfold v. replace (k + (2 * h - j) - h)%nat with (k + h - j)%nat by lia. f_equal. f_equal. unfold poly. apply sum_ext. intros i _. unfold powers. replace (INR (2 * h - j) - INR h) with (- (INR j - INR h)) by (rewrite minus_INR by lia; rewrite mult_INR; cbn [INR]; ring). rewrite neg_pow. ring. }
  split.
  - intros c'. rewrite !M. rewrite (sum_ext _ (fun r => (v r - sum_to (n + 1) (fun i => (-1) ^ i * ((-1) ^ i * sum_to (2 * h + 1) (fun s => P i s * v s)) * powers h r i)) ^ 2) (fun r => (v r - sum_to (n + 1) (fun i => sum_to (2 * h + 1) (fun s => P i s * v s) * powers h r i)) ^ 2)). 2: { intros r _. do 2 f_equal. apply sum_ext. intros i _. rewrite <- Rmult_assoc, one_pow. ring. }
    apply (least_squares _ _ _ _ PI v (fun i => (-1) ^ i * c' i)).
  - rewrite (inner pinv y h n d z k W D ltac:(lia) E K1 K2). rewrite <- Rmult_assoc, one_pow, Rmult_1_l. reflexivity.
Qed.
(* noise *)
Lemma least_norm p q B P d m' : pseudo_inverse p q B P -> (d < q)%nat -> (forall l, (l < q)%nat -> sum_to p (fun r => m' r * B r l) = if (d =? l)%nat then 1 else 0) -> sum_to p (fun r => P d r ^ 2) <= sum_to p (fun r => m' r ^ 2).
Proof.
  intros [P1 P2] D M.
  assert (RW : forall r, (r < p)%nat -> P d r = sum_to q (fun i => sum_to p (fun s => P d s * P i s) * B r i)).
  { intros r Rp. transitivity (sum_to p (fun s => P d s * sum_to q (fun i => B s i * P i r))).
    - rewrite (sum_ext _ _ (fun s => sum_to q (fun i => P i r * (P d s * B s i)))) by (intros s _; rewrite <- sum_scal; apply sum_ext; intros; ring). rewrite sum_swap. rewrite (sum_ext _ _ (fun i => if (i =? d)%nat then P i r else 0)). 2: { intros i I. rewrite sum_scal, P1 by assumption. rewrite Nat.eqb_sym. destruct (i =? d)%nat; ring. } rewrite (sum_pick q d); [rewrite Nat.eqb_refl; reflexivity|exact D|]. intros i _ NE. destruct (Nat.eqb_spec i d); [contradiction|reflexivity].
    - rewrite (sum_ext _ _ (fun s => sum_to q (fun i => B r i * (P d s * P i s)))) by (intros s Sp; rewrite (P2 s r Sp Rp); rewrite <- sum_scal; apply sum_ext; intros; ring). rewrite sum_swap. apply sum_ext. intros i _. rewrite sum_scal. ring. }
  assert (Z : sum_to p (fun r => P d r * (m' r - P d r)) = 0).
  { rewrite (sum_ext _ _ (fun r => sum_to q (fun i => sum_to p (fun s => P d s * P i s) * (m' r * B r i + -1 * (P d r * B r i))))). 2: { intros r Rp. transitivity ((m' r - P d r) * sum_to q (fun i => sum_to p (fun s => P d s * P i s) * B r i)); [rewrite <- (RW r Rp); ring|]. rewrite <- sum_scal. apply sum_ext. intros; ring. }
    rewrite sum_swap. rewrite (sum_ext _ _ (fun _ => 0)); [apply sum_0|]. intros i I. rewrite sum_scal. rewrite (sum_ext _ (fun r => m' r * B r i + -1 * (P d r * B r i)) (fun r => 1 * (m' r * B r i) + -1 * (P d r * B r i))) by (intros; ring). rewrite sum_lin, M, P1 by assumption. ring. }
  rewrite (sum_ext _ (fun r => m' r ^ 2) (fun r => (1 * (P d r ^ 2) + 1 * (m' r - P d r) ^ 2) + 2 * (P d r * (m' r - P d r)))) by (intros; ring). rewrite sum_plus, sum_lin, sum_scal, Z. pose proof (sum_nonneg p (fun r => (m' r - P d r) ^ 2) ltac:(intros; apply pow2_ge_0)). cbv beta in *. lra.
Qed.
Lemma quietest pinv h n d m' : (d <= n)%nat -> pseudo_inverse (2 * h + 1) (n + 1) (powers h) (pinv (2 * h + 1)%nat (n + 1)%nat (powers h)) -> (forall c, sum_to (2 * h + 1) (fun j => m' j * poly n c (INR h - INR j)) = (-1) ^ d * c d) -> sum_to (2 * h + 1) (fun j => weight pinv h n d j ^ 2) <= sum_to (2 * h + 1) (fun j => m' j ^ 2).
Proof.
  intros D PI M. apply (least_norm _ (n + 1) (powers h) (pinv (2 * h + 1)%nat (n + 1)%nat (powers h)) d m' PI); [lia|]. intros l L. specialize (M (fun i => if (i =? l)%nat then (-1) ^ l else 0)). cbv beta in M. rewrite (sum_ext _ _ (fun r => m' r * poly n (fun i => if (i =? l)%nat then (-1) ^ l else 0) (INR h - INR r))).
  - rewrite M. destruct (Nat.eqb_spec d l) as [->|]; [apply one_pow|ring].
  - intros r _. f_equal. unfold poly. rewrite (sum_pick (n + 1) l); [|lia|intros i _ NE; destruct (Nat.eqb_spec i l); [contradiction|ring]]. rewrite Nat.eqb_refl. replace (INR h - INR r) with (- (INR r - INR h)) by ring. rewrite neg_pow, <- Rmult_assoc, one_pow. unfold powers. ring.
Qed.
(* increasing straight lines, also at the ends *)
Lemma line_padded y h a b : (h < List.length y)%nat -> 0 <= b -> (forall i, (i < List.length y)%nat -> nth i y 0 = a + b * INR i) -> forall i, (i < List.length y + 2 * h)%nat -> nth i (padded y h) 0 = a + b * (INR i - INR h).
Proof.
  intros L B Y i I. destruct (Nat.lt_ge_cases i h) as [C|C].
  - rewrite padded_left by assumption. rewrite !Y by lia. rewrite minus_INR by lia. cbn [INR]. replace (a + b * (INR h - INR i) - (a + b * 0)) with (b * (INR h - INR i)) by ring. rewrite Rabs_pos_eq; [ring|]. apply lt_INR in C. nra.
  - destruct (Nat.lt_ge_cases i (h + List.length y)) as [C'|C'].
    + replace i with (h + (i - h))%nat at 1 by lia. rewrite padded_mid by lia. rewrite Y by lia. rewrite minus_INR by lia. ring.
    + replace i with (h + List.length y + (i - h - List.length y))%nat at 1 by lia. rewrite padded_right by lia. rewrite !Y by lia. set (t := (i - h - List.length y)%nat) in *. replace (List.length y - 1)%nat with ((List.length y - 2 - t) + (t + 1))%nat by lia. rewrite !plus_INR. cbn [INR]. set (u := INR (List.length y - 2 - t)). replace (a + b * u - (a + b * (u + (INR t + 1)))) with (- (b * (INR t + 1))) by ring. rewrite Rabs_Ropp, Rabs_pos_eq. 2: { pose proof (pos_INR t). nra. }
      assert (E : INR i - INR h = u + 2 * (INR t + 1)) by (unfold u; replace i with (h + ((List.length y - 2 - t) + 2 * (t + 1)))%nat by lia; rewrite !plus_INR, mult_INR, plus_INR; cbn [INR]; ring). rewrite E. ring.
Qed.
Lemma line_kept pinv y h n z a b : (1 <= n)%nat -> (n + 2 <= 2 * h + 1)%nat -> pseudo_inverse (2 * h + 1) (n + 1) (powers h) (pinv (2 * h + 1)%nat (n + 1)%nat (powers h)) -> (h < List.length y)%nat -> 0 <= b -> (forall i, (i < List.length y)%nat -> nth i y 0 = a + b * INR i) ->
  savitzky_golay pinv y (Z.of_nat (2 * h + 1)) (Z.of_nat n) 0 = Ok z -> z = y.
Proof.
  intros N W PI L B Y E. destruct (filter_value pinv y h n 0 W ltac:(lia) L) as [z' [E' [LZ V]]]. rewrite E in E'. injection E' as <-. apply nth_ext with 0 0; [exact LZ|]. intros k K. rewrite LZ in K. rewrite V, Y by exact K.
  rewrite (reproduces pinv h n 0 (fun j => nth (k + 2 * h - j) (padded y h) 0) (fun i => match i with O => a + b * INR k | S O => b | _ => 0 end) ltac:(lia) PI); [ring|].
  intros j J. rewrite (line_padded y h a b L B Y) by lia. unfold poly. replace (n + 1)%nat with (1 + (1 + (n - 1)))%nat by lia. rewrite !sum_split. rewrite (sum_ext (n - 1) _ (fun _ => 0)) by (intros i _; cbv beta; replace (1 + (1 + i))%nat with (S (S i)) by lia; ring). rewrite sum_0. cbn [sum_to]. rewrite Nat.add_0_r. rewrite minus_INR by lia. rewrite plus_INR, mult_INR. cbn [INR pow]. ring.
Qed.
Lemma constant_kept pinv y h n z a : (n + 2 <= 2 * h + 1)%nat -> pseudo_inverse (2 * h + 1) (n + 1) (powers h) (pinv (2 * h + 1)%nat (n + 1)%nat (powers h)) -> (h < List.length y)%nat -> (forall i, (i < List.length y)%nat -> nth i y 0 = a) ->
  savitzky_golay pinv y (Z.of_nat (2 * h + 1)) (Z.of_nat n) 0 = Ok z -> z = y.
Proof.
  intros W PI L Y E. destruct (filter_value pinv y h n 0 W ltac:(lia) L) as [z' [E' [LZ V]]]. rewrite E in E'. injection E' as <-. apply nth_ext with 0 0; [exact LZ|]. intros k K. rewrite LZ in K. rewrite V, Y by exact K.
  rewrite (reproduces pinv h n 0 (fun j => nth (k + 2 * h - j) (padded y h) 0) (fun i => match i with O => a | _ => 0 end) ltac:(lia) PI); [ring|].
  intros j J. rewrite (line_padded y h a 0 L ltac:(lra)) by (try lia; intros i I; rewrite Y by exact I; ring). unfold poly. replace (n + 1)%nat with (1 + n)%nat by lia. rewrite sum_split. rewrite (sum_ext n _ (fun _ => 0)) by (intros i _; cbv beta; replace (1 + i)%nat with (S i) by lia; ring). rewrite sum_0. cbn [sum_to]. ring.
Qed.
(* arguments *)
Lemma rejected pinv y w n d : (savitzky_golay pinv y w n d = Err TypeError <-> (Z.even w = true \/ (Z.abs w < Z.abs n + 2)%Z)) /\
  (Z.even w = false -> (Z.abs n + 2 <= Z.abs w)%Z -> (y = [] \/ (Z.abs n < Z.of_nat d)%Z) -> savitzky_golay pinv y w n d = Err IndexError).
Proof.
  assert (EV : Z.even w = true <-> (Z.abs_nat w mod 2 <> 1)%nat).
  { assert (X : Z.even w = Nat.even (Z.abs_nat w)). { rewrite <- (Nat2Z.id (Z.abs_nat w)). rewrite Nat2Z.id. destruct w as [|p|p]; cbn [Z.abs_nat Z.even]; [reflexivity| |]; destruct p as [p|p|]; cbn [Pos.to_nat]; try reflexivity; symmetry; [rewrite Pos2Nat.inj_xI|rewrite Pos2Nat.inj_xO|rewrite Pos2Nat.inj_xI|rewrite Pos2Nat.inj_xO]; rewrite ?Nat.even_succ, <- ?Nat.negb_even, Nat.even_mul; reflexivity. }
    rewrite X. rewrite Nat.even_spec. split.
    - intros [k ->] H. rewrite Nat.mul_comm, Nat.mod_mul in H by lia. discriminate.
    - intros H. exists (Z.abs_nat w / 2)%nat. pose proof (Nat.div_mod (Z.abs_nat w) 2 ltac:(lia)). pose proof (Nat.mod_upper_bound (Z.abs_nat w) 2 ltac:(lia)). lia. }
  unfold savitzky_golay. split.
  - unfold check_window_size. destruct (Nat.eqb_spec (Z.abs_nat w mod 2) 1) as [A|A]; cbn [negb orb].
    + destruct (Nat.ltb_spec (Z.abs_nat w) 1) as [B|B]; [replace (Z.abs_nat w) with 0%nat in A by lia; discriminate|]. destruct (Nat.ltb_spec (Z.abs_nat w) (Z.abs_nat n + 2)) as [C|C]; cbn [bind].
      * split; [intros _; right; lia|reflexivity].
      * destruct (Z.abs_nat n <? d)%nat; [split; [discriminate|]|destruct y; (split; [discriminate|])]; intros [F|F]; try lia; apply EV in F; contradiction.
    + split; [intros _; left; apply EV, A|reflexivity].
  - intros A B C. rewrite check_ok; [cbn [bind]| |lia].
    + destruct (Nat.ltb_spec (Z.abs_nat n) d); [reflexivity|]. destruct C as [->|C]; [reflexivity|lia].
    + destruct (Nat.eq_dec (Z.abs_nat w mod 2) 1); [assumption|]. apply EV in n0. congruence.
Qed.
