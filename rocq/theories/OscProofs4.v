From Coq Require Import Reals List Lra Lia Bool Arith ZArith.
From Coquelicot Require Import Coquelicot.
From Verif Require Import Base ArSpec PolyModel DftModel DftProofs CsimProofs ArProofs2 PadeProofs Sg2Proofs2 OscModel OscSpec OscProofs OscProofs2 OscProofs3.
Import ListNotations.
Local Open Scope R_scope.
Set Bullet Behavior "Strict Subproofs".

(* ---- Lagrange's polynomials ---- *)
Fixpoint product (l : list R) (t : R) : R := match l with [] => 1 | r :: l' => (t - r) * product l' t end.
Lemma product_powers l : spanned powers (S (List.length l)) (product l).
Proof.
  induction l as [|r l IH].
  - apply (span_ext powers 1 (powers 0)); [intros; reflexivity|apply span_one; lia].
  - apply (span_ext _ _ (fun t => 1 * (t * product l t) + (- r) * product l t)); [intros t; cbn [product]; ring|].
    apply (span_plus _ _ (fun t => t * product l t) (product l)); [now apply span_times_t|apply (span_more _ (S (List.length l))); [cbn; lia|exact IH]].
Qed.
Lemma product_zero l t : product l t = 0 <-> In t l.
Proof.
  induction l as [|r l IH]; cbn [product In]; [split; [lra|tauto]|]. split.
  - intros H. apply Rmult_integral in H. destruct H as [H|H]; [left; lra|right; now apply IH].
  - intros [->|H]; [ring|]. apply IH in H. rewrite H. ring.
Qed.
Definition without (i : nat) (x : list R) := firstn i x ++ skipn (S i) x.
Definition ell (x : list R) (i : nat) (t : R) : R := product (without i x) t / product (without i x) (at_R x i).
Lemma without_length i x : (i < List.length x)%nat -> List.length (without i x) = (List.length x - 1)%nat.
Proof. intros H. unfold without. rewrite app_length, firstn_length, skipn_length. lia. Qed.
Lemma split_at x i : (i < List.length x)%nat -> x = firstn i x ++ at_R x i :: skipn (S i) x.
Proof. revert x. induction i as [|i IH]; intros [|r x] H; cbn in H; try lia; [reflexivity|]. cbn [firstn skipn app]. f_equal. apply (IH x). lia. Qed.
Lemma without_in x i t : NoDup x -> (i < List.length x)%nat -> (In t (without i x) <-> In t x /\ t <> at_R x i).
Proof.
  intros N H. pose proof (split_at x i H) as E. unfold without. rewrite E in N. assert (M : ~ In (at_R x i) (firstn i x ++ skipn (S i) x)) by (now apply NoDup_remove_2 in N).
  split.
  - intros K. split; [rewrite E; apply in_app_iff; apply in_app_iff in K; cbn; tauto|]. intros ->. contradiction.
  - intros [K Ne]. rewrite E in K. apply in_app_iff in K. apply in_app_iff. cbn [In] in K. destruct K as [K|[K|K]]; [tauto|congruence|tauto].
Qed.
Lemma ell_at x i j : NoDup x -> (i < List.length x)%nat -> (j < List.length x)%nat -> ell x i (at_R x j) = unit_ i j.
Proof.
  intros N Hi Hj. unfold ell, unit_. assert (P : product (without i x) (at_R x i) <> 0) by (intros E; apply product_zero, (without_in x i _ N Hi) in E; tauto).
  destruct (Nat.eqb_spec j i) as [->|Ne]; [field; exact P|]. replace (product (without i x) (at_R x j)) with 0; [field; exact P|]. symmetry. apply product_zero, (without_in x i _ N Hi). split; [apply nth_In; exact Hj|].
  intros E. apply Ne. exact (proj1 (NoDup_nth x 0) N j i Hj Hi E).
Qed.
Lemma ell_powers x i : (i < List.length x)%nat -> spanned powers (List.length x) (ell x i).
Proof.
  intros H. apply (span_ext _ _ (fun t => / product (without i x) (at_R x i) * product (without i x) t + 0 * product (without i x) t)); [intros t; unfold ell, Rdiv; ring|].
  pose proof (product_powers (without i x)) as P. rewrite without_length in P by exact H. replace (S (List.length x - 1)) with (List.length x) in P by lia. now apply span_plus.
Qed.
Lemma interpolation x f t : NoDup x -> spanned powers (List.length x) f -> f t = sum_to (List.length x) (fun i => f (at_R x i) * ell x i t).
Proof.
  intros N F. assert (D : spanned powers (List.length x) (fun t => 1 * f t + (-1) * sum_to (List.length x) (fun i => f (at_R x i) * ell x i t))).
  { apply (span_plus _ _ f (fun t => sum_to (List.length x) (fun i => f (at_R x i) * ell x i t))); [exact F|]. apply span_sum. intros i Hi. now apply ell_powers. }
  destruct D as [p P]. assert (Z : sum_to (List.length x) (fun u => p u * t ^ u) = 0).
  { apply (many_roots (List.length x) p x N (Nat.le_refl _)). intros r Hr. apply (In_nth x r 0) in Hr. destruct Hr as [j [Hj <-]]. specialize (P (at_R x j)). unfold powers in P. unfold at_R in P at 4. rewrite <- P. rewrite (sum_ext _ _ (fun i => unit_ j i * f (at_R x i))).
    - rewrite (unit_sum (List.length x) j (fun i => f (at_R x i)) Hj). unfold at_R. ring.
    - intros i Hi. rewrite ell_at by assumption. unfold unit_. rewrite Nat.eqb_sym. apply Rmult_comm. }
  specialize (P t). unfold powers in P. rewrite Z in P. lra.
Qed.

(* ---- integrals ---- *)
Lemma continuous_span n f t : spanned powers n f -> continuous f t.
Proof. intros [p P]. apply (continuous_ext (poly n p)); [intros; symmetry; apply P|apply poly_continuous]. Qed.
Lemma sum_integral n (f : nat -> R -> R) (v : nat -> R) a b : (forall i, (i < n)%nat -> is_RInt (f i) a b (v i)) -> is_RInt (fun t => sum_to n (fun i => f i t)) a b (sum_to n v).
Proof.
  induction n as [|n IH]; intros H; cbn [sum_to].
  - pose proof (is_RInt_const (V := R_NormedModule) a b 0) as K. unfold scal in K; cbn in K; unfold mult in K; cbn in K. rewrite Rmult_0_r in K. exact K.
  - apply (is_RInt_plus (V := R_NormedModule) (fun t => sum_to n (fun i => f i t)) (f n)); [apply IH; intros; apply H; lia|apply H; lia].
Qed.
Lemma scal_integral f a b v k : is_RInt f a b v -> is_RInt (fun t => k * f t) a b (k * v).
Proof. intros H. exact (is_RInt_scal (V := R_NormedModule) f a b k v H). Qed.
Lemma minus_integral f g a b v w : is_RInt f a b v -> is_RInt g a b w -> is_RInt (fun t => f t - g t) a b (v - w).
Proof. intros H K. exact (is_RInt_minus (V := R_NormedModule) f g a b v w H K). Qed.
Lemma plus_integral f g a b v w : is_RInt f a b v -> is_RInt g a b w -> is_RInt (fun t => f t + g t) a b (v + w).
Proof. intros H K. exact (is_RInt_plus (V := R_NormedModule) f g a b v w H K). Qed.
Lemma unique_integral (f : R -> R) a b v w : is_RInt f a b v -> is_RInt f a b w -> v = w.
Proof. intros H K. rewrite <- (is_RInt_unique _ _ _ _ H). exact (is_RInt_unique _ _ _ _ K). Qed.
Lemma integral_exists (f : R -> R) a b : (forall t, continuous f t) -> is_RInt f a b (RInt f a b).
Proof. intros H. apply (RInt_correct (V := R_CompleteNormedModule)). apply (ex_RInt_continuous (V := R_CompleteNormedModule)). intros; apply H. Qed.
Lemma poly'_powers n p : spanned powers n (poly' n p).
Proof.
  apply (span_sum powers n n (fun k t => INR k * t ^ (k - 1)) p). intros k Hk. apply (span_ext _ _ (fun t => INR k * powers (k - 1) t + 0 * powers (k - 1) t)); [intros t; unfold powers; ring|]. apply span_plus; apply span_one; lia.
Qed.
Lemma poly_powers n p : spanned powers n (poly n p). Proof. now exists p. Qed.
(* phases al t + be: the functions are polynomials, and the weights are the integrals of Lagrange's polynomials *)
Lemma linear_rule om g dg al be a b x : (forall t, g t = al * t + be) -> (forall t, dg t = al) -> NoDup x -> has_rule om g dg a b x.
Proof.
  intros G D N. assert (Ph : phase g dg).
  { intros t. split; [apply (is_derive_ext (fun t => al * t + be)); [intros; symmetry; apply G|]; rewrite D; auto_derive; [exact I|ring]|]. apply (continuous_ext (fun _ => al)); [intros; symmetry; apply D|apply continuous_const]. }
  set (n := List.length x). set (wc := fun i => RInt (fun t => ell x i t * cos (om * g t)) a b). set (ws := fun i => RInt (fun t => ell x i t * sin (om * g t)) a b).
  assert (Wc : forall i, (i < n)%nat -> is_RInt (fun t => ell x i t * cos (om * g t)) a b (wc i)).
  { intros i Hi. apply integral_exists. intros t. apply cmult_R; [apply (continuous_span n), ell_powers; exact Hi|apply (cos_c om g dg t Ph)]. }
  assert (Ws : forall i, (i < n)%nat -> is_RInt (fun t => ell x i t * sin (om * g t)) a b (ws i)).
  { intros i Hi. apply integral_exists. intros t. apply cmult_R; [apply (continuous_span n), ell_powers; exact Hi|apply (sin_c om g dg t Ph)]. }
  exists (fun i => (wc i, ws i)). intros c. fold n. destruct (amplitude_integral om g dg n c a b Ph) as [I1 I2].
  set (A1 := fun t => fst (amplitude om dg n c t)). set (A2 := fun t => snd (amplitude om dg n c t)).
  assert (S1 : spanned powers n A1).
  { apply (span_ext _ _ (fun t => 1 * poly' n (fun k => fst (c k)) t + (- (om * al)) * poly n (fun k => snd (c k)) t)); [intros t; unfold A1, amplitude, Cplus, Cmult; cbn [fst snd]; rewrite dpoly_fst, cpoly_fst, cpoly_snd, D; ring|]. apply span_plus; [apply poly'_powers|apply poly_powers]. }
  assert (S2 : spanned powers n A2).
  { apply (span_ext _ _ (fun t => 1 * poly' n (fun k => snd (c k)) t + (om * al) * poly n (fun k => fst (c k)) t)); [intros t; unfold A2, amplitude, Cplus, Cmult; cbn [fst snd]; rewrite dpoly_snd, cpoly_fst, cpoly_snd, D; ring|]. apply span_plus; [apply poly'_powers|apply poly_powers]. }
  unfold rule_value. fold n. apply C_ext.
  - rewrite csum_fst. apply (unique_integral (fun t => fst (oscillating om g (amplitude om dg n c) t)) a b); [|exact I1].
    apply (is_RInt_ext (fun t => sum_to n (fun i => A1 (at_R x i) * (ell x i t * cos (om * g t)) - A2 (at_R x i) * (ell x i t * sin (om * g t))))).
    + intros t _. unfold oscillating, Cmult, cis. cbn [fst snd]. change (fst (amplitude om dg n c t)) with (A1 t). change (snd (amplitude om dg n c t)) with (A2 t). rewrite (interpolation x A1 t N S1), (interpolation x A2 t N S2). fold n.
      rewrite (sum_ext n _ (fun i => cos (om * g t) * (A1 (at_R x i) * ell x i t) + (- sin (om * g t)) * (A2 (at_R x i) * ell x i t))) by (intros; ring). rewrite sum_lin. rring.
    + rewrite (sum_ext n _ (fun i => A1 (at_R x i) * wc i - A2 (at_R x i) * ws i)) by (intros i _; cbn; change (fst (amplitude om dg n c (at_R x i))) with (A1 (at_R x i)); change (snd (amplitude om dg n c (at_R x i))) with (A2 (at_R x i)); ring).
      apply (sum_integral n (fun i t => A1 (at_R x i) * (ell x i t * cos (om * g t)) - A2 (at_R x i) * (ell x i t * sin (om * g t))) (fun i => A1 (at_R x i) * wc i - A2 (at_R x i) * ws i)). intros i Hi. apply minus_integral; apply scal_integral; [now apply Wc|now apply Ws].
  - rewrite csum_snd. apply (unique_integral (fun t => snd (oscillating om g (amplitude om dg n c) t)) a b); [|exact I2].
    apply (is_RInt_ext (fun t => sum_to n (fun i => A1 (at_R x i) * (ell x i t * sin (om * g t)) + A2 (at_R x i) * (ell x i t * cos (om * g t))))).
    + intros t _. unfold oscillating, Cmult, cis. cbn [fst snd]. change (fst (amplitude om dg n c t)) with (A1 t). change (snd (amplitude om dg n c t)) with (A2 t). rewrite (interpolation x A1 t N S1), (interpolation x A2 t N S2). fold n.
      rewrite (sum_ext n _ (fun i => sin (om * g t) * (A1 (at_R x i) * ell x i t) + cos (om * g t) * (A2 (at_R x i) * ell x i t))) by (intros; ring). rewrite sum_lin. rring.
    + rewrite (sum_ext n _ (fun i => A1 (at_R x i) * ws i + A2 (at_R x i) * wc i)) by (intros i _; cbn; change (fst (amplitude om dg n c (at_R x i))) with (A1 (at_R x i)); change (snd (amplitude om dg n c (at_R x i))) with (A2 (at_R x i)); ring).
      apply (sum_integral n (fun i t => A1 (at_R x i) * (ell x i t * sin (om * g t)) + A2 (at_R x i) * (ell x i t * cos (om * g t))) (fun i => A1 (at_R x i) * ws i + A2 (at_R x i) * wc i)). intros i Hi. apply plus_integral; apply scal_integral; [now apply Ws|now apply Wc].
Qed.

(* ---- every polynomial is the amplitude of one ---- *)
Lemma amplitude_lin om dg n c d u v t : amplitude om dg n (fun k => Cplus (Cmult u (c k)) (Cmult v (d k))) t = Cplus (Cmult u (amplitude om dg n c t)) (Cmult v (amplitude om dg n d t)).
Proof.
  unfold amplitude, dpoly, cpoly. rewrite (csum_ext n (fun k => Cmult (Cplus (Cmult u (c k)) (Cmult v (d k))) (RtoC (INR k * t ^ (k - 1)))) (fun k => Cplus (Cmult u (Cmult (c k) (RtoC (INR k * t ^ (k - 1))))) (Cmult v (Cmult (d k) (RtoC (INR k * t ^ (k - 1))))))) by (intros; ring).
  rewrite (csum_ext n (fun k => Cmult (Cplus (Cmult u (c k)) (Cmult v (d k))) (RtoC (t ^ k))) (fun k => Cplus (Cmult u (Cmult (c k) (RtoC (t ^ k)))) (Cmult v (Cmult (d k) (RtoC (t ^ k)))))) by (intros; ring).
  rewrite !csum_add, !csum_mul. ring.
Qed.
Lemma power_amplitude om dg al n k : om * al <> 0 -> (forall t, dg t = al) -> (k < n)%nat -> exists d, forall t, amplitude om dg n d t = RtoC (t ^ k).
Proof.
  intros Nz D. assert (Nc : (0, om * al) <> RtoC 0) by (intros E; injection E; lra).
  induction k as [|k IH]; intros Hk.
  - exists (fun j => Cplus (Cmult (Cinv (0, om * al)) (cunit 0 j)) (Cmult (RtoC 0) (cunit 0 j))). intros t. rewrite amplitude_lin. unfold amplitude, dpoly, cpoly. rewrite (cunit_sum n 0 (fun k => RtoC (INR k * t ^ (k - 1))) Hk), (cunit_sum n 0 (fun k => RtoC (t ^ k)) Hk), D. cbn [INR pow]. rewrite Rmult_0_l. field. exact Nc.
  - destruct IH as [d Hd]; [lia|]. exists (fun j => Cplus (Cmult (Cinv (0, om * al)) (cunit (S k) j)) (Cmult (Copp (Cmult (Cinv (0, om * al)) (RtoC (INR (S k))))) (d j))). intros t. rewrite amplitude_lin, Hd. unfold amplitude, dpoly, cpoly.
    rewrite (cunit_sum n (S k) (fun k => RtoC (INR k * t ^ (k - 1))) Hk), (cunit_sum n (S k) (fun k => RtoC (t ^ k)) Hk), D. replace (S k - 1)%nat with k by lia. rewrite RtoC_mult. field. exact Nc.
Qed.
Lemma poly_amplitude om dg al n m c : om * al <> 0 -> (forall t, dg t = al) -> (m <= n)%nat -> exists d, forall t, amplitude om dg n d t = cpoly m c t.
Proof.
  intros Nz D. induction m as [|m IH]; intros L.
  - exists (fun _ => RtoC 0). intros t. unfold amplitude, dpoly, cpoly. rewrite !csum_mul. cbn [csum]. ring.
  - destruct IH as [d Hd]; [lia|]. destruct (power_amplitude om dg al n m Nz D) as [e He]; [lia|]. exists (fun j => Cplus (Cmult (RtoC 1) (d j)) (Cmult (c m) (e j))). intros t. rewrite amplitude_lin, Hd, He. unfold cpoly. cbn [csum]. ring.
Qed.
