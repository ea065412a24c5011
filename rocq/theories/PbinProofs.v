(* Expectations over independent trials. *)
From Coq Require Import Reals Lra Lia.
From Verif Require Import Base PbinModel PbinSpec.
Local Open Scope R_scope.

Definition sumR (l : list R) : R := fold_right Rplus 0 l.
Lemma sumR_app l m : sumR (l ++ m) = sumR l + sumR m.
Proof. unfold sumR. induction l as [|a l IH]; cbn; [ring|]. rewrite IH. ring. Qed.
Lemma sumR_scal {A} (l : list A) f c : sumR (map (fun a => c * f a) l) = c * sumR (map f l).
Proof. unfold sumR. induction l as [|a l IH]; cbn; [ring|]. rewrite IH. ring. Qed.
Lemma sumR_add {A} (l : list A) f g : sumR (map (fun a => f a + g a) l) = sumR (map f l) + sumR (map g l).
Proof. unfold sumR. induction l as [|a l IH]; cbn; [ring|]. rewrite IH. ring. Qed.
Lemma sumR_ext {A} (l : list A) f g : (forall a, In a l -> f a = g a) -> sumR (map f l) = sumR (map g l).
Proof. intros H. f_equal. apply map_ext_in. exact H. Qed.

Lemma expect_nil f : expect [] f = f 0%nat.
Proof. unfold expect. cbn. unfold successes. cbn. ring. Qed.
Lemma expect_cons p probs f : expect (p :: probs) f = p * expect probs (fun k => f (S k)) + (1 - p) * expect probs f.
Proof.
  unfold expect. cbn [List.length outcomes]. rewrite map_app, !map_map. fold sumR. rewrite sumR_app.
  rewrite <- !sumR_scal. f_equal; apply sumR_ext; intros o _; cbn [chance]; unfold successes; cbn [filter List.length]; ring.
Qed.
Lemma expect_ext probs f g : (forall k, (k <= List.length probs)%nat -> f k = g k) -> expect probs f = expect probs g.
Proof.
  revert f g. induction probs as [|p probs IH]; intros f g H; [rewrite !expect_nil; apply H; cbn; lia|].
  rewrite !expect_cons. rewrite (IH (fun k => f (S k)) (fun k => g (S k))) by (intros; apply H; cbn; lia). rewrite (IH f g) by (intros; apply H; cbn; lia). reflexivity.
Qed.
Lemma expect_add probs f g : expect probs (fun k => f k + g k) = expect probs f + expect probs g.
Proof. revert f g. induction probs as [|p probs IH]; intros f g; [rewrite !expect_nil; reflexivity|]. rewrite !expect_cons, !IH. ring. Qed.
Lemma expect_scal probs f c : expect probs (fun k => c * f k) = c * expect probs f.
Proof. revert f. induction probs as [|p probs IH]; intros f; [rewrite !expect_nil; reflexivity|]. rewrite !expect_cons, !IH. ring. Qed.
Lemma expect_const probs c : expect probs (fun _ => c) = c.
Proof. induction probs as [|p probs IH]; [apply expect_nil|]. rewrite expect_cons, IH. ring. Qed.
Lemma expect_nonneg probs f : probabilities probs -> (forall k, (k <= List.length probs)%nat -> 0 <= f k) -> 0 <= expect probs f.
Proof.
  revert f. induction probs as [|p probs IH]; intros f P H; [rewrite expect_nil; apply H; cbn; lia|]. rewrite expect_cons.
  assert (Q : probabilities probs) by (intros q I; apply P; right; exact I). specialize (P p (or_introl eq_refl)).
  assert (A := IH (fun k => f (S k)) Q ltac:(intros; apply H; cbn; lia)). assert (B := IH f Q ltac:(intros; apply H; cbn; lia)).
  assert (0 <= p * expect probs (fun k => f (S k))) by (apply Rmult_le_pos; lra). assert (0 <= (1 - p) * expect probs f) by (apply Rmult_le_pos; lra). lra.
Qed.
Lemma expect_le probs f g : probabilities probs -> (forall k, (k <= List.length probs)%nat -> f k <= g k) -> expect probs f <= expect probs g.
Proof.
  intros P H. assert (A := expect_nonneg probs (fun k => g k + -1 * f k) P ltac:(intros k I; specialize (H k I); lra)).
  rewrite expect_add, expect_scal in A. lra.
Qed.

(* probability of exactly k successes *)
Definition pk (probs : list R) (k : nat) : R := prob probs (Nat.eqb k).
Lemma pk_nonneg probs k : probabilities probs -> 0 <= pk probs k.
Proof. intros P. apply expect_nonneg; [exact P|]. intros i _. destruct (Nat.eqb k i); lra. Qed.
Lemma prob_range probs e : probabilities probs -> 0 <= prob probs e <= 1.
Proof.
  intros P. split; [apply expect_nonneg; [exact P|]; intros i _; destruct (e i); lra|].
  rewrite <- (expect_const probs 1). apply expect_le; [exact P|]. intros i _. destruct (e i); lra.
Qed.
(* an expectation is the sum over the numbers of successes *)
Fixpoint rs (n : nat) (f : nat -> R) : R := match n with O => 0 | S m => rs m f + f m end.
Lemma rs_ext n f g : (forall i, (i < n)%nat -> f i = g i) -> rs n f = rs n g.
Proof. induction n as [|n IH]; intros H; [reflexivity|]. cbn [rs]. rewrite IH by (intros; apply H; lia). rewrite H by lia. reflexivity. Qed.
Lemma rs_add n f g : rs n (fun i => f i + g i) = rs n f + rs n g.
Proof. induction n as [|n IH]; cbn [rs]; [ring|]. rewrite IH. ring. Qed.
Lemma rs_scal n c f : rs n (fun i => c * f i) = c * rs n f.
Proof. induction n as [|n IH]; cbn [rs]; [ring|]. rewrite IH. ring. Qed.
Lemma rs_pick n f k : (k < n)%nat -> rs n (fun i => if Nat.eqb i k then f i else 0) = f k.
Proof.
  induction n as [|n IH]; intros L; [lia|]. cbn [rs]. destruct (Nat.eq_dec k n) as [->|N].
  - rewrite Nat.eqb_refl. rewrite (rs_ext n _ (fun i => 0 * f i)) by (intros i I; destruct (Nat.eqb_spec i n); [lia|ring]). rewrite rs_scal. ring.
  - rewrite IH by lia. destruct (Nat.eqb_spec n k); [lia|ring].
Qed.
Lemma expect_rs probs (h : nat -> nat -> R) n : expect probs (fun k => rs n (fun i => h i k)) = rs n (fun i => expect probs (h i)).
Proof. induction n as [|n IH]; cbn [rs]; [apply expect_const|]. rewrite <- IH. apply expect_add. Qed.
Lemma prob_sum probs e n : (n <= List.length probs + 1)%nat -> (forall k, (n <= k)%nat -> e k = false) ->
  prob probs e = rs n (fun i => if e i then pk probs i else 0).
Proof.
  intros L H. unfold prob. rewrite (expect_ext probs _ (fun k => rs n (fun i => (if e i then 1 else 0) * (if Nat.eqb i k then 1 else 0)))).
  - rewrite expect_rs. apply rs_ext. intros i I. rewrite expect_scal. unfold pk, prob. destruct (e i); ring.
  - intros k K. destruct (Nat.lt_ge_cases k n) as [A|A].
    + rewrite (rs_ext n _ (fun i => if Nat.eqb i k then (if e i then 1 else 0) else 0)) by (intros i I; destruct (Nat.eqb i k); ring). rewrite rs_pick by exact A. reflexivity.
    + rewrite H by exact A. rewrite (rs_ext n _ (fun i => 0 * 0)) by (intros i I; destruct (Nat.eqb_spec i k); [lia|ring]). rewrite rs_scal. ring.
Qed.

(* ---- moments ---- *)
Definition mu (probs : list R) : R := rtotal probs.
Definition v2 (probs : list R) : R := rtotal (map (fun p => p * (1 - p)) probs).
Definition v3 (probs : list R) : R := rtotal (map (fun p => (1 - 2 * p) * (1 - p) * p) probs).
Definition v4 (probs : list R) : R := rtotal (map (fun p => (1 - 6 * (1 - p) * p) * (1 - p) * p) probs).
Definition cm (probs : list R) (j : nat) : R := expect probs (fun k => (INR k - mu probs) ^ j).
Lemma shift_expect probs m d : let E j := expect probs (fun k => (INR k - m) ^ j) in
  expect probs (fun k => (INR k - m + d) ^ 1) = E 1%nat + d /\
  expect probs (fun k => (INR k - m + d) ^ 2) = E 2%nat + 2 * d * E 1%nat + d ^ 2 /\
  expect probs (fun k => (INR k - m + d) ^ 3) = E 3%nat + 3 * d * E 2%nat + 3 * d ^ 2 * E 1%nat + d ^ 3 /\
  expect probs (fun k => (INR k - m + d) ^ 4) = E 4%nat + 4 * d * E 3%nat + 6 * d ^ 2 * E 2%nat + 4 * d ^ 3 * E 1%nat + d ^ 4.
Proof.
  intros E. unfold E. repeat split.
  - rewrite (expect_ext probs _ (fun k => (INR k - m) ^ 1 + d)) by (intros; ring). rewrite expect_add, expect_const. ring.
  - rewrite (expect_ext probs _ (fun k => (INR k - m) ^ 2 + (2 * d * (INR k - m) ^ 1 + d ^ 2))) by (intros; ring). rewrite !expect_add, expect_scal, expect_const. ring.
  - rewrite (expect_ext probs _ (fun k => (INR k - m) ^ 3 + (3 * d * (INR k - m) ^ 2 + (3 * d ^ 2 * (INR k - m) ^ 1 + d ^ 3)))) by (intros; ring). rewrite !expect_add, !expect_scal, expect_const. ring.
  - rewrite (expect_ext probs _ (fun k => (INR k - m) ^ 4 + (4 * d * (INR k - m) ^ 3 + (6 * d ^ 2 * (INR k - m) ^ 2 + (4 * d ^ 3 * (INR k - m) ^ 1 + d ^ 4))))) by (intros; ring). rewrite !expect_add, !expect_scal, expect_const. ring.
Qed.
Lemma cm_cons p probs j : cm (p :: probs) j = p * expect probs (fun k => (INR k - mu probs + (1 - p)) ^ j) + (1 - p) * expect probs (fun k => (INR k - mu probs + - p) ^ j).
Proof.
  unfold cm. rewrite expect_cons. f_equal; f_equal; apply expect_ext; intros k _; f_equal; unfold mu, rtotal; cbn [fold_right]; [rewrite S_INR|]; ring.
Qed.
Lemma moments probs : cm probs 1 = 0 /\ cm probs 2 = v2 probs /\ cm probs 3 = v3 probs /\ cm probs 4 = v4 probs + 3 * v2 probs ^ 2.
Proof.
  induction probs as [|p probs IH].
  - unfold cm. rewrite !expect_nil. unfold mu, v2, v3, v4, rtotal. cbn. repeat split; ring.
  - destruct IH as [A [B [C D]]]. rewrite !cm_cons.
    destruct (shift_expect probs (mu probs) (1 - p)) as [a1 [a2 [a3 a4]]]. destruct (shift_expect probs (mu probs) (- p)) as [b1 [b2 [b3 b4]]].
    rewrite a1, a2, a3, a4, b1, b2, b3, b4. fold (cm probs 1) (cm probs 2) (cm probs 3) (cm probs 4). rewrite A, B, C, D.
    unfold v2, v3, v4, rtotal. cbn [map fold_right]. repeat split; ring.
Qed.
Lemma mean_expect probs : expect probs INR = mu probs.
Proof.
  destruct (moments probs) as [A _]. unfold cm in A. rewrite (expect_ext probs _ (fun k => INR k + - mu probs)) in A by (intros; ring). rewrite expect_add, expect_const in A. lra.
Qed.
