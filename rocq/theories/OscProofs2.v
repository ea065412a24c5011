From Coq Require Import Reals List Lra Lia Bool Arith ZArith.
From Coquelicot Require Import Coquelicot.
From Verif Require Import Base ArSpec PolyModel DftModel DftProofs CsimProofs ArProofs2 ChebSpec ChebProofs PadeProofs OscModel OscSpec OscProofs.
Import ListNotations.
Local Open Scope R_scope.
Set Bullet Behavior "Strict Subproofs".

(* ---- powers ---- *)
Lemma horner_poly n : forall c t, horner n c t = poly n c t.
Proof.
  induction n as [|n IH]; intros c t; [reflexivity|]. cbn [horner]. rewrite IH. unfold poly. rewrite (sum_first (S n)) by lia. replace (S n - 1)%nat with n by lia.
  cbn [pow]. rewrite Rmult_1_r. f_equal. rewrite Rmult_comm, <- sum_scal. apply sum_ext. intros k _. ring.
Qed.
Lemma poly_basis_ok : is_basis poly_basis.
Proof.
  split; [|split].
  - intros k t. cbn [poly_basis fst snd]. replace (if (k =? 0)%nat then _ else _) with (INR k * t ^ (k - 1)); [apply pow_derive|]. destruct (Nat.eqb_spec k 0) as [->|N].
    + cbn. ring.
    + rewrite horner_poly. unfold poly. rewrite (sum_pick k (k - 1)); [|lia|].
      * replace (S (k - 1)) with k by lia. unfold unit_. rewrite Nat.eqb_refl. ring.
      * intros i Hi Ne. unfold unit_. destruct (Nat.eqb_spec (S i) k); [lia|]. ring.
  - intros n k Hk. exists (unit_ k). intros t. rewrite (sum_pick n k); [|exact Hk|].
    + unfold unit_. rewrite Nat.eqb_refl. cbn. ring.
    + intros i _ Ne. unfold unit_. destruct (Nat.eqb_spec i k); [lia|]. ring.
  - intros n k Hk. exists (unit_ k). intros t. rewrite (sum_pick n k); [|exact Hk|].
    + unfold unit_. rewrite Nat.eqb_refl. cbn. ring.
    + intros i _ Ne. unfold unit_. destruct (Nat.eqb_spec i k); [lia|]. ring.
Qed.

(* ---- Chebyshev polynomials ---- *)
Lemma clenshaw_sum i : forall c c0 c1 t, let '(r0, r1) := clenshaw_loop i c c0 c1 t in r0 + r1 * t = sum_to i (fun j => c j * chebT j t) + c0 * chebT i t + c1 * chebT (S i) t.
Proof.
  induction i as [|i IH]; intros c c0 c1 t.
  - cbn [clenshaw_loop sum_to]. unfold chebT. rewrite V_0, V_1. ring.
  - cbn [clenshaw_loop]. specialize (IH c (c i - c1) (c0 + c1 * (2 * t)) t). destruct (clenshaw_loop i c (c i - c1) (c0 + c1 * (2 * t)) t) as [r0 r1]. rewrite IH. cbn [sum_to]. unfold chebT. rewrite (V_SS 1 i). ring.
Qed.
Lemma cheb_eval_sum n c t : cheb_eval n c t = sum_to n (fun j => c j * chebT j t).
Proof.
  destruct n as [|[|m]]; [reflexivity| |].
  - unfold cheb_eval. cbn [sum_to]. unfold chebT. rewrite V_0. ring.
  - unfold cheb_eval. pose proof (clenshaw_sum m c (c m) (c (S m)) t) as H. destruct (clenshaw_loop m c (c m) (c (S m)) t) as [r0 r1]. rewrite H. cbn [sum_to]. ring.
Qed.
Lemma update_same c i v : update c i v i = v. Proof. unfold update. now rewrite Nat.eqb_refl. Qed.
Lemma update_other c i v j : j <> i -> update c i v j = c j. Proof. intros H. unfold update. now destruct (Nat.eqb_spec j i). Qed.
Definition slope (k : nat) t := INR k * W k t.
Lemma slope_SS k t : slope (S (S (S k))) t = INR (S (S (S k))) * (2 * chebT (S (S k)) t + slope (S k) t / INR (S k)).
Proof. unfold slope. rewrite W_T. field. apply not_0_INR. lia. Qed.
(* the loop: what is left of the sum and what has been written *)
Lemma der_loop N : forall j c der t, (j <= N)%nat -> (2 <= j)%nat ->
  let '(c', der') := chebder_loop j c der in
  sum_to (S j) (fun i => c i * slope i t) + sum_to (N - j) (fun i => der (j + i)%nat * chebT (j + i) t)
  = sum_to 3 (fun i => c' i * slope i t) + sum_to (N - 2) (fun i => der' (2 + i)%nat * chebT (2 + i) t).
Proof.
  induction j as [|j IH]; intros c der t L H; [lia|]. destruct (Nat.eq_dec j 1) as [->|Ne]; [reflexivity|]. destruct j as [|[|j]]; [lia|lia|].
  change (chebder_loop (S (S (S j))) c der) with (chebder_loop (S (S j)) (update c (S j) (c (S j) + INR (S (S (S j))) * c (S (S (S j))) / INR (S j))) (update der (S (S j)) (2 * INR (S (S (S j))) * c (S (S (S j)))))). specialize (IH (update c (S j) (c (S j) + INR (S (S (S j))) * c (S (S (S j))) / INR (S j))) (update der (S (S j)) (2 * INR (S (S (S j))) * c (S (S (S j))))) t ltac:(lia) ltac:(lia)).
  destruct (chebder_loop (S (S j)) _ _) as [c' der']. rewrite <- IH. clear IH.
  replace (N - S (S j))%nat with (S (N - S (S (S j))))%nat by lia. rewrite (sum_first (S (N - S (S (S j))))) by lia. replace (S (N - S (S (S j))) - 1)%nat with (N - S (S (S j)))%nat by lia.
  rewrite Nat.add_0_r, update_same. rewrite (sum_ext (N - S (S (S j))) (fun k => update der (S (S j)) (2 * INR (S (S (S j))) * c (S (S (S j)))) (S (S j) + S k) * chebT (S (S j) + S k) t) (fun i => der (S (S (S j)) + i)%nat * chebT (S (S (S j)) + i) t)).
  2:{ intros i _. rewrite update_other by lia. replace (S (S j) + S i)%nat with (S (S (S j)) + i)%nat by lia. reflexivity. }
  change (sum_to (S (S (S (S j)))) (fun i => c i * slope i t)) with (sum_to (S j) (fun i => c i * slope i t) + c (S j) * slope (S j) t + c (S (S j)) * slope (S (S j)) t + c (S (S (S j))) * slope (S (S (S j))) t).
  change (sum_to (S (S (S j))) (fun i => update c (S j) (c (S j) + INR (S (S (S j))) * c (S (S (S j))) / INR (S j)) i * slope i t)) with
    (sum_to (S j) (fun i => update c (S j) (c (S j) + INR (S (S (S j))) * c (S (S (S j))) / INR (S j)) i * slope i t) + update c (S j) (c (S j) + INR (S (S (S j))) * c (S (S (S j))) / INR (S j)) (S j) * slope (S j) t + update c (S j) (c (S j) + INR (S (S (S j))) * c (S (S (S j))) / INR (S j)) (S (S j)) * slope (S (S j)) t).
  rewrite update_same, update_other by lia. rewrite (sum_ext (S j) (fun i => update c (S j) (c (S j) + INR (S (S (S j))) * c (S (S (S j))) / INR (S j)) i * slope i t) (fun i => c i * slope i t)) by (intros i Hi; rewrite update_other by lia; reflexivity).
  rewrite (slope_SS j t). field. apply not_0_INR. lia.
Qed.
Lemma slope_0 t : slope 0 t = 0. Proof. unfold slope. cbn. ring. Qed.
Lemma slope_1 t : slope 1 t = 1. Proof. unfold slope. cbn [W INR]. unfold chebU. rewrite V_0. ring. Qed.
Lemma slope_2 t : slope 2 t = 4 * chebT 1 t. Proof. unfold slope. cbn [W INR]. unfold chebU, chebT. rewrite !V_1. ring. Qed.
Lemma cheb_der_sum n c t : (1 <= n)%nat -> sum_to n (fun i => cheb_der n c i * chebT i t) = sum_to (S n) (fun i => c i * slope i t).
Proof.
  intros H. destruct (Nat.eq_dec n 1) as [->|N1].
  - cbn [cheb_der chebder_loop Nat.ltb Nat.leb sum_to]. rewrite update_same, slope_0, slope_1. unfold chebT. rewrite V_0. ring.
  - unfold cheb_der. pose proof (der_loop n n c (fun _ => 0) t ltac:(lia) ltac:(lia)) as K. destruct (chebder_loop n c (fun _ => 0)) as [c' der']. destruct (Nat.ltb_spec 1 n); [|lia]. rewrite Nat.sub_diag in K. cbn [sum_to] in K. rewrite Rplus_0_r in K.
    change (sum_to (S n) (fun i => c i * slope i t)) with (sum_to n (fun i => c i * slope i t) + c n * slope n t). rewrite K.
    replace n with (2 + (n - 2))%nat at 1 by lia. rewrite sum_split. cbn [sum_to]. rewrite update_same, update_other, update_same by lia.
    rewrite (sum_ext (n - 2) (fun m => update (update der' 1 (4 * c' 2%nat)) 0 (c' 1%nat) (2 + m) * chebT (2 + m) t) (fun i => der' (2 + i)%nat * chebT (2 + i) t)) by (intros i _; rewrite !update_other by lia; reflexivity).
    rewrite slope_0, slope_1, slope_2. unfold chebT at 1. rewrite V_0. ring.
Qed.
Lemma T_is_derive k t : is_derive (chebT k) t (slope k t). Proof. apply is_derive_Reals, T_derivative. Qed.
Lemma unit_sum n k (f : nat -> R) : (k < n)%nat -> sum_to n (fun j => unit_ k j * f j) = f k.
Proof. intros H. rewrite (sum_pick n k); [unfold unit_; rewrite Nat.eqb_refl; ring|exact H|]. intros i _ Ne. unfold unit_. destruct (Nat.eqb_spec i k); [lia|]. ring. Qed.
Lemma cheb_basis_T k t : fst chebyshev_basis k t = chebT k t.
Proof. cbn [chebyshev_basis fst]. rewrite cheb_eval_sum. apply (unit_sum (k + 1) k (fun j => chebT j t)). lia. Qed.
(* combinations of the first n functions *)
Definition spanned (b : nat -> R -> R) (n : nat) (f : R -> R) : Prop := exists p, forall t, f t = sum_to n (fun j => p j * b j t).
Lemma span_one b n k : (k < n)%nat -> spanned b n (b k).
Proof. intros H. exists (unit_ k). intros t. symmetry. apply (unit_sum n k (fun j => b j t)). exact H. Qed.
Lemma span_plus b n f g x y : spanned b n f -> spanned b n g -> spanned b n (fun t => x * f t + y * g t).
Proof. intros [p P] [q Q]. exists (fun j => x * p j + y * q j). intros t. rewrite P, Q, <- sum_lin. apply sum_ext. intros j _. ring. Qed.
Lemma span_ext b n f g : (forall t, f t = g t) -> spanned b n f -> spanned b n g.
Proof. intros E [p P]. exists p. intros t. now rewrite <- E. Qed.
Lemma span_sum b n m (f : nat -> R -> R) q : (forall j, (j < m)%nat -> spanned b n (f j)) -> spanned b n (fun t => sum_to m (fun j => q j * f j t)).
Proof.
  induction m as [|m IH]; intros H; cbn [sum_to].
  - exists (fun _ => 0). intros t. rewrite (sum_ext _ _ (fun _ => 0)) by (intros; ring). symmetry. apply sum_0.
  - apply (span_ext b n (fun t => 1 * sum_to m (fun j => q j * f j t) + q m * f m t)); [intros; ring|]. apply (span_plus b n (fun t => sum_to m (fun j => q j * f j t)) (f m)); [apply IH; intros; apply H; lia|apply H; lia].
Qed.
Lemma span_more b n m f : (n <= m)%nat -> spanned b n f -> spanned b m f.
Proof. intros L [p P]. apply (span_ext b m (fun t => sum_to n (fun j => p j * b j t))); [intros; symmetry; apply P|]. apply span_sum. intros j Hj. apply span_one. lia. Qed.
Definition powers (j : nat) (t : R) := t ^ j.
Lemma span_times_t n f : spanned powers n f -> spanned powers (S n) (fun t => t * f t).
Proof.
  intros [p P]. exists (fun j => match j with O => 0 | S i => p i end). intros t. rewrite P, (sum_first (S n)) by lia. replace (S n - 1)%nat with n by lia. rewrite Rmult_0_l, Rplus_0_l, <- sum_scal. apply sum_ext. intros j _. unfold powers. cbn [pow]. ring.
Qed.
Lemma T_powers k : spanned powers (S k) (chebT k).
Proof.
  revert k. apply (two_step (fun k => spanned powers (S k) (chebT k))).
  - apply (span_ext powers 1 (powers 0)); [intros t; unfold powers, chebT; rewrite V_0; reflexivity|apply span_one; lia].
  - apply (span_ext powers 2 (powers 1)); [intros t; unfold powers, chebT; rewrite V_1; cbn; ring|apply span_one; lia].
  - intros k H1 H2. apply (span_ext _ _ (fun t => 2 * (t * chebT (S k) t) + (-1) * chebT k t)); [intros t; unfold chebT; rewrite V_SS; ring|].
    apply (span_plus _ _ (fun t => t * chebT (S k) t) (chebT k)); [apply span_times_t; exact H2|apply (span_more _ (S k)); [lia|exact H1]].
Qed.
Lemma span_times_T n f : spanned chebT n f -> spanned chebT (S n) (fun t => t * f t).
Proof.
  intros [p P]. apply (span_ext _ _ (fun t => sum_to n (fun j => p j * (t * chebT j t)))).
  - intros t. rewrite P, <- sum_scal. apply sum_ext. intros; ring.
  - apply (span_sum chebT (S n) n (fun j t => t * chebT j t)). intros j Hj. destruct j as [|j].
    + apply (span_ext _ _ (chebT 1)); [intros t; unfold chebT; rewrite V_1, V_0; ring|apply span_one; lia].
    + apply (span_ext _ _ (fun t => / 2 * chebT (S (S j)) t + / 2 * chebT j t)); [intros t; unfold chebT; rewrite V_SS; field|]. apply span_plus; apply span_one; lia.
Qed.
Lemma powers_T k : spanned chebT (S k) (powers k).
Proof.
  induction k as [|k IH].
  - apply (span_ext chebT 1 (chebT 0)); [intros t; unfold powers, chebT; rewrite V_0; reflexivity|apply span_one; lia].
  - apply (span_ext _ _ (fun t => t * powers k t)); [reflexivity|]. now apply span_times_T.
Qed.
Lemma chebyshev_basis_ok : is_basis chebyshev_basis.
Proof.
  split; [|split].
  - intros k t. apply (is_derive_ext (chebT k)); [intros u; symmetry; apply cheb_basis_T|]. replace (snd chebyshev_basis k t) with (slope k t); [apply T_is_derive|].
    cbn [chebyshev_basis snd]. destruct (Nat.eqb_spec k 0) as [->|N]; [rewrite slope_0; cbn; ring|]. rewrite cheb_eval_sum, cheb_der_sum by lia. symmetry. apply (unit_sum (S k) k (fun i => slope i t)). lia.
  - intros n k Hk. destruct (span_more _ _ n _ Hk (T_powers k)) as [p P]. exists p. intros t. rewrite cheb_basis_T. apply P.
  - intros n k Hk. destruct (span_more _ _ n _ Hk (powers_T k)) as [p P]. exists p. intros t. change (t ^ k) with (powers k t). rewrite P. apply sum_ext. intros j _. now rewrite cheb_basis_T.
Qed.
