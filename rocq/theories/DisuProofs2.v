From Coq Require Import Reals List Arith Lra Lia.
From Coquelicot Require Import Complex.
From Verif Require Import Base DisuModel DisuSpec DisuProofs.
Import ListNotations.
Set Bullet Behavior "Strict Subproofs".

Lemma zeros_nth n q : nth q (repeat (RtoC 0) n) (RtoC 0) = RtoC 0.
Proof. destruct (le_lt_dec n q); [apply nth_overflow; rewrite repeat_length; assumption|]. apply nth_repeat. Qed.

Lemma disufq_terms : forall rA iA w kw h g nmin nmax m n, (2 * (nmax - 1) < n)%nat ->
  exists v, disufq rA iA w kw h g nmin nmax m n = Ok v /\ List.length v = (n * m)%nat /\
  forall k i, (i < m)%nat ->
    nth (k * m + i) v (RtoC 0) = second_order (case_of rA iA m i) (plus_part w kw h g) (minus_part w kw h g) (nmin - 1) nmax k.
Proof.
  intros rA iA w kw h g nmin nmax m n N. unfold disufq. destruct (Rlt_dec 10000 h) as [D|D].
  - destruct (perform_ok (loops rA iA m nmin nmax (fun i => deep_Ep1 (nth i kw 0)) (fun _ => None) (fun i j => deep_Ep2 (nth i kw 0) (nth j kw 0))
      (fun i j => deep_Ed2 (nth i kw 0) (nth j kw 0)))%R (repeat (RtoC 0) (n * m))) as [r [E [L V]]].
    { intros x X. rewrite repeat_length. revert x X. apply writes_in. exact N. }
    exists r. split; [exact E|]. split; [rewrite L; apply repeat_length|]. intros k i I. rewrite V, zeros_nth, Cplus_0_l.
    apply loops_sum; [exact I| | | |]; unfold minus_part, plus_part; destruct (Rlt_dec 10000 h); try contradiction.
    + intros ix. lra.
    + intros ix jy _. unfold deep_Ed2. lra.
    + intros ix. rewrite Nat.eqb_refl. reflexivity.
    + intros ix jy J. destruct (Nat.eqb_spec ix jy); [lia|]. unfold deep_Ep2. lra.
  - destruct (perform_ok (loops rA iA m nmin nmax (fun i => finite_Ep1 (nth i w 0) (nth i kw 0) h g) (fun i => Some (finite_Ed1 (nth i w 0) (nth i kw 0) h g))
      (fun i j => finite_Ep2 (nth i w 0) (nth i kw 0) (nth j w 0) (nth j kw 0) h g)
      (fun i j => finite_Ed2 (nth i w 0) (nth i kw 0) (nth j w 0) (nth j kw 0) h g))%R (repeat (RtoC 0) (n * m))) as [r [E [L V]]].
    { intros x X. rewrite repeat_length. revert x X. apply writes_in. exact N. }
    exists r. split; [exact E|]. split; [rewrite L; apply repeat_length|]. intros k i I. rewrite V, zeros_nth, Cplus_0_l.
    apply loops_sum; [exact I| | | |]; unfold minus_part, plus_part; destruct (Rlt_dec 10000 h); try contradiction.
    + intros ix. rewrite Nat.eqb_refl. reflexivity.
    + intros ix jy J. destruct (Nat.eqb_spec ix jy); [lia|]. reflexivity.
    + intros ix. rewrite Nat.eqb_refl. reflexivity.
    + intros ix jy J. destruct (Nat.eqb_spec ix jy); [lia|]. reflexivity.
Qed.
Lemma disufq_outside : forall rA iA w kw h g nmin nmax m n, (1 <= m)%nat -> (nmin - 1 < nmax)%nat -> (n <= 2 * (nmax - 1))%nat ->
  disufq rA iA w kw h g nmin nmax m n = Err MemoryError.
Proof.
  intros rA iA w kw h g nmin nmax m n M W N. unfold disufq. destruct (Rlt_dec 10000 h).
  - match goal with |- perform ?ws _ = _ => assert (X : exists x, In x ws /\ (n * m <= fst x)%nat) by (apply write_out; assumption) end.
    destruct X as [x [I B]]. apply (perform_bad _ _ x I). rewrite repeat_length. exact B.
  - match goal with |- perform ?ws _ = _ => assert (X : exists x, In x ws /\ (n * m <= fst x)%nat) by (apply write_out; assumption) end.
    destruct X as [x [I B]]. apply (perform_bad _ _ x I). rewrite repeat_length. exact B.
Qed.
(* the frequencies of the spectrum are 0, ..., n/2 *)
Lemma disufq_all_frequencies : ~ (forall rA iA w kw h g nmin nmax m n, List.length rA = (n * m)%nat -> List.length iA = (n * m)%nat ->
  List.length w = (n / 2 + 1)%nat -> List.length kw = (n / 2 + 1)%nat -> (1 <= nmin)%nat -> (nmax <= n / 2 + 1)%nat ->
  exists v, disufq rA iA w kw h g nmin nmax m n = Ok v).
Proof.
  intros H. destruct (H (repeat 0%R 32) (repeat 0%R 32) (repeat 0%R 17) (repeat 0%R 17) 10%R 10%R 2%nat 17%nat 1%nat 32%nat) as [v E];
    try reflexivity; try (cbn; lia). rewrite disufq_outside in E by lia. discriminate E.
Qed.

(* cases do not mix *)
Lemma one_case_nth l m n i k : (k < n)%nat -> nth k (one_case l m n i) 0%R = nth (k * m + i) l 0%R.
Proof.
  intros K. unfold one_case. rewrite (nth_indep _ 0%R (nth (0 * m + i) l 0%R)) by (rewrite map_length, seq_length; exact K).
  rewrite (map_nth (fun k => nth (k * m + i) l 0%R)), seq_nth by exact K. reflexivity.
Qed.
Lemma second_order_ext A B Ep Ed lo hi k : (forall q, (q < hi)%nat -> A q = B q) -> second_order A Ep Ed lo hi k = second_order B Ep Ed lo hi k.
Proof.
  intros H. apply (csum_ext (T := nat)). intros ix IX. apply in_seq in IX. rewrite (H ix) by lia. f_equal.
  apply (csum_ext (T := nat)). intros jy JY. apply in_seq in JY. rewrite (H jy) by lia. reflexivity.
Qed.
Lemma disufq_cases : forall rA iA w kw h g nmin nmax m n i, (2 * (nmax - 1) < n)%nat -> (i < m)%nat ->
  exists v u, disufq rA iA w kw h g nmin nmax m n = Ok v /\ disufq (one_case rA m n i) (one_case iA m n i) w kw h g nmin nmax 1 n = Ok u /\
    forall k, (k < n)%nat -> nth k u (RtoC 0) = nth (k * m + i) v (RtoC 0).
Proof.
  intros rA iA w kw h g nmin nmax m n i N I. destruct (disufq_terms rA iA w kw h g nmin nmax m n N) as [v [E [_ V]]].
  destruct (disufq_terms (one_case rA m n i) (one_case iA m n i) w kw h g nmin nmax 1 n N) as [u [E' [_ U]]].
  exists v, u. split; [exact E|]. split; [exact E'|]. intros k K. specialize (U k 0%nat ltac:(lia)). rewrite Nat.mul_1_r, Nat.add_0_r in U.
  rewrite U, (V k i I). apply second_order_ext. intros q Q. unfold case_of. rewrite Nat.mul_1_r, Nat.add_0_r, !one_case_nth by lia. reflexivity.
Qed.

(* amplitudes c times as large *)
Lemma csum_scale {T} (f : T -> C) z l : csum (fun a => Cmult z (f a)) l = Cmult z (csum f l).
Proof. induction l as [|a l IH]; [rewrite !csum_nil, Cmult_0_r; reflexivity|]. rewrite !csum_cons, IH. ring. Qed.
Lemma only_scale b z x : only_if b (Cmult z x) = Cmult z (only_if b x).
Proof. destruct b; cbn; [reflexivity|rewrite Cmult_0_r; reflexivity]. Qed.
Definition outer A (Ep Ed : nat -> nat -> R) k ix : C :=
  (only_if (2 * ix =? k)%nat (RtoC (2 * Ep ix ix)%R * (A ix * A ix)) + only_if (0 =? k)%nat (RtoC (2 * Ed ix ix)%R * (Cconj (A ix) * A ix)))%C.
Definition inner A (Ep Ed : nat -> nat -> R) k ix jy : C :=
  (only_if (ix + jy =? k)%nat (RtoC (4 * Ep ix jy)%R * (A ix * A jy)) + only_if (jy - ix =? k)%nat (RtoC (4 * Ed ix jy)%R * (Cconj (A ix) * A jy)))%C.
Lemma so_csum A Ep Ed lo hi k : second_order A Ep Ed lo hi k =
  csum (fun ix => Cplus (outer A Ep Ed k ix) (csum (inner A Ep Ed k ix) (seq (ix + 1) (hi - (ix + 1))))) (seq lo (hi - lo)).
Proof. reflexivity. Qed.
Lemma second_order_scale A B Ep Ed c lo hi k : (forall q, A q = Cmult (RtoC c) (B q)) ->
  second_order A Ep Ed lo hi k = Cmult (RtoC (c * c)) (second_order B Ep Ed lo hi k).
Proof.
  intros H. rewrite !so_csum, <- csum_scale. apply csum_ext. intros ix _.
  assert (Q : Cconj (A ix) = Cmult (RtoC c) (Cconj (B ix))) by (rewrite H; destruct (B ix) as [b1 b2]; unfold Cconj, RtoC, Cmult; cbn; f_equal; ring).
  rewrite Cmult_plus_distr_l, <- csum_scale. f_equal.
  - unfold outer. rewrite Q, !H, !Cmult_plus_distr_l, <- !only_scale. f_equal; f_equal; rewrite (RtoC_mult c c); ring.
  - apply csum_ext. intros jy _. unfold inner. rewrite Q, !H, !Cmult_plus_distr_l, <- !only_scale. f_equal; f_equal; rewrite (RtoC_mult c c); ring.
Qed.
Lemma disufq_scale : forall c rA iA w kw h g nmin nmax m n, (2 * (nmax - 1) < n)%nat ->
  exists v u, disufq rA iA w kw h g nmin nmax m n = Ok v /\ disufq (map (Rmult c) rA) (map (Rmult c) iA) w kw h g nmin nmax m n = Ok u /\
    forall p, (p < n * m)%nat -> nth p u (RtoC 0) = Cmult (RtoC (c * c)) (nth p v (RtoC 0)).
Proof.
  intros c rA iA w kw h g nmin nmax m n N. destruct (disufq_terms rA iA w kw h g nmin nmax m n N) as [v [E [_ V]]].
  destruct (disufq_terms (map (Rmult c) rA) (map (Rmult c) iA) w kw h g nmin nmax m n N) as [u [E' [_ U]]].
  exists v, u. split; [exact E|]. split; [exact E'|]. intros p P. assert (M : m <> 0%nat) by (intros ->; lia).
  rewrite (Nat.div_mod p m M), (Nat.mul_comm m). pose proof (Nat.mod_upper_bound p m M) as B. rewrite U, V by exact B. apply second_order_scale.
  intros q. unfold case_of. assert (Z : forall l j, nth j (map (Rmult c) l) 0%R = (c * nth j l 0)%R) by (intros l j; rewrite <- (Rmult_0_r c) at 1; apply map_nth).
  rewrite !Z. unfold Cmult, RtoC. cbn. f_equal; ring.
Qed.

(* finite and deep water agree for the sum frequencies when k = w^2 / g *)
Local Open Scope R_scope.
Lemma plus_agree : forall w1 w2 h g, 0 < w1 -> 0 < w2 -> 0 < g ->
  finite_Ep1 w1 (w1 ^ 2 / g) h g = deep_Ep1 (w1 ^ 2 / g) /\ finite_Ep2 w1 (w1 ^ 2 / g) w2 (w2 ^ 2 / g) h g = deep_Ep2 (w1 ^ 2 / g) (w2 ^ 2 / g).
Proof.
  intros w1 w2 h g W1 W2 G. split.
  - unfold finite_Ep1, deep_Ep1. cbv zeta.
    replace (3 * (1 / 2 * g * (w1 ^ 2 / g / w1) * (w1 ^ 2 / g / w1) - 1 / 2 * w1 * w1 / g)) with 0 by (field; lra).
    unfold Rdiv at 1. rewrite Rmult_0_l. field. lra.
  - unfold finite_Ep2, deep_Ep2. cbv zeta.
    replace (g * (w1 ^ 2 / g / w1) * (w2 ^ 2 / g / w2) - 1 / 2 / g * (w1 * w1 + w2 * w2 + w1 * w2)
      + 1 / 2 * g * (w1 * (w2 ^ 2 / g) * (w2 ^ 2 / g) + w2 * (w1 ^ 2 / g) * (w1 ^ 2 / g)) / (w1 * w2 * (w1 + w2))) with 0 by (field; repeat split; lra).
    unfold Rdiv at 1. rewrite Rmult_0_l. field. repeat split; lra.
Qed.
(* one realization, three frequencies, deep water *)
Lemma disufq_case : disufq [0; 1; 2; 0; 0] [0; 0; 1; 0; 0] [0; 1; 2] [0; 1; 4] 20000 1 2 3 1 5 =
  Ok [RtoC 0; (-12, -6); (2, 0); (20, 10); (24, 32)].
Proof.
  unfold disufq. destruct (Rlt_dec 10000 20000); [|lra]. cbn -[Rmult Rplus Rminus Rdiv kfact]. f_equal.
  unfold kfact, deep_Ep1, deep_Ep2, deep_Ed2, Cplus, RtoC. cbn [fst snd].
  repeat (f_equal; try lra).
Qed.
