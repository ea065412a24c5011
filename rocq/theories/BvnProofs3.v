From Coq Require Import Reals List ZArith Bool Lra Lia Psatz.
From Coquelicot Require Import Coquelicot.
From Verif Require Import RvModel RvnModel RvnProofs PolyModel BvnModel BvnSpec BvnProofs.
Import ListNotations.
Local Open Scope R_scope.

(* linear forms in the coefficients *)
Fixpoint lin (c : list R) (j : nat) (m : nat -> R) : R := match c with [] => 0 | a :: c => a * m j + lin c (S j) m end.
Definition rule_moment (l : list (R * R)) (k : nat) : R := fold_right Rplus 0 (map (fun xw => snd xw * ((- fst xw) ^ k + fst xw ^ k)) l).
Definition true_moment (k : nat) : R := (1 - (-1) ^ (S k)) / INR (S k).
Lemma rule_lin l c j : fold_right Rplus 0 (map (fun xw => snd xw * ((- fst xw) ^ j * poly c (- fst xw) + fst xw ^ j * poly c (fst xw))) l) = lin c j (rule_moment l).
Proof.
  revert j. induction c as [|a c IH]; intros j; cbn [lin poly].
  - induction l as [|p l IHl]; cbn; [reflexivity|]. rewrite IHl. ring.
  - rewrite <- (IH (S j)). clear IH. unfold rule_moment. induction l as [|p l IHl]; cbn [map fold_right]; [ring|]. rewrite IHl. cbn [pow]. ring.
Qed.
Lemma power_integral k : is_RInt (fun x => x ^ k) (-1) 1 (true_moment k).
Proof.
  unfold true_moment. replace ((1 - (-1) ^ (S k)) / INR (S k)) with (minus (1 ^ (S k) / INR (S k)) ((-1) ^ (S k) / INR (S k))).
  2: { unfold minus, plus, opp; cbn -[INR pow]. rewrite pow1. field. apply not_0_INR. lia. }
  apply (is_RInt_derive (V := R_CompleteNormedModule) (fun x => x ^ (S k) / INR (S k))).
  1: { intros x _. auto_derive; [exact I|]. cbn [Nat.pred]. change (match k with 0%nat => 1 | S _ => INR k + 1 end) with (INR (S k)). field. apply not_0_INR. lia. }
  intros x _. apply (ex_derive_continuous (fun x => x ^ k)). auto_derive. exact I.
Qed.
Lemma poly_integral c j : is_RInt (fun x => x ^ j * poly c x) (-1) 1 (lin c j true_moment).
Proof.
  revert j. induction c as [|a c IH]; intros j; cbn [lin poly].
  - apply (is_RInt_ext (fun _ : R => 0)). 1: { intros x _. symmetry. apply Rmult_0_r. }
    pose proof (is_RInt_const (V := R_CompleteNormedModule) (-1) 1 0) as K. refine (eq_ind _ (fun v : R => is_RInt (fun _ : R => 0) (-1) 1 v) K 0 _). unfold scal; cbn; unfold mult; cbn. ring.
  - apply (is_RInt_ext (fun x => plus (scal a (x ^ j)) (x ^ (S j) * poly c x))). 1: { intros x _. unfold plus, scal; cbn. unfold mult; cbn. ring. }
    apply (is_RInt_plus (V := R_CompleteNormedModule) (fun x => scal a (x ^ j)) (fun x => x ^ (S j) * poly c x)); [|apply IH].
    apply (is_RInt_scal (V := R_CompleteNormedModule) (fun x => x ^ j)). apply power_integral.
Qed.
Lemma lin_close eps n c j m m' : (j + List.length c <= n)%nat -> (forall k, (k < n)%nat -> Rabs (m k - m' k) <= eps) -> Rabs (lin c j m - lin c j m') <= eps * size c.
Proof.
  revert j. induction c as [|a c IH]; intros j L H; cbn [lin size fold_right List.length] in *.
  - rewrite Rminus_0_r, Rabs_R0. lra.
  - specialize (IH (S j) ltac:(lia) H). specialize (H j ltac:(lia)). replace (a * m j + lin c (S j) m - (a * m' j + lin c (S j) m')) with (a * (m j - m' j) + (lin c (S j) m - lin c (S j) m')) by ring.
    eapply Rle_trans; [apply Rabs_triang|]. rewrite Rabs_mult. change (fold_right (fun a0 s => Rabs a0 + s) 0 c) with (size c) in *. pose proof (Rabs_pos a). nra.
Qed.
Lemma exact_from eps n X W : (forall k, (k < n)%nat -> Rabs (rule_moment (combine X W) k - true_moment k) <= eps) -> exact_rule eps n X W.
Proof.
  intros H c L. pose proof (rule_lin (combine X W) c 0) as E. pose proof (poly_integral c 0) as P.
  assert (Q : RInt (poly c) (-1) 1 = lin c 0 true_moment). { apply (is_RInt_unique (V := R_CompleteNormedModule)). apply (is_RInt_ext (fun x => x ^ 0 * poly c x)); [|exact P]. intros x _. cbn. apply Rmult_1_l. }
  rewrite Q. rewrite (map_ext _ (fun xw => snd xw * ((- fst xw) ^ 0 * poly c (- fst xw) + fst xw ^ 0 * poly c (fst xw)))) by (intros a; cbn; ring). rewrite E. now apply (lin_close eps n).
Qed.

(* whole numbers *)
Definition zsum (l : list (Z * Z)) (k : nat) : Z := fold_right Z.add 0%Z (map (fun p => (snd p * fst p ^ Z.of_nat k)%Z) l).
Lemma ten_pos n : 0 < 10 ^ n. Proof. apply pow_lt. lra. Qed.
Lemma rule_whole p q k l : Nat.Even k -> rule_moment (map (fun ab => (- (IZR (fst ab) / 10 ^ p), IZR (snd ab) / 10 ^ q)) l) k = 2 * IZR (zsum l k) / 10 ^ (p * k + q).
Proof.
  intros [m ->]. unfold rule_moment, zsum. induction l as [|[a b] l IH]; cbn [map fold_right fst snd].
  - unfold Rdiv. rewrite Rmult_0_r, Rmult_0_l. reflexivity.
  - rewrite IH. rewrite plus_IZR, mult_IZR. rewrite <- pow_IZR. assert (S1 : forall y, (- y) ^ (2 * m) = y ^ (2 * m)). { intros y. rewrite !pow_mult. f_equal. ring. }
    rewrite !S1. pose proof (ten_pos p) as Pp. pose proof (ten_pos q) as Pq. assert (D : (IZR a / 10 ^ p) ^ (2 * m) = IZR a ^ (2 * m) / (10 ^ p) ^ (2 * m)). { unfold Rdiv. rewrite Rpow_mult_distr, <- (Rinv_pow (10 ^ p)) by lra. reflexivity. }
    rewrite D. rewrite pow_add, (pow_mult 10 p (2 * m)). assert (Pm : 0 < (10 ^ p) ^ (2 * m)) by (apply pow_lt; assumption). set (A := (10 ^ p) ^ (2 * m)) in *. set (B := 10 ^ q) in *. set (U := IZR a ^ (2 * m)) in *. set (F := fold_right _ _ _). field. split; lra.
Qed.
Lemma odd_zero l k : Nat.Odd k -> rule_moment l k = 0.
Proof.
  intros [m ->]. unfold rule_moment. induction l as [|[a b] l IH]; cbn [map fold_right fst snd]; [reflexivity|]. rewrite IH. rewrite !pow_add, !pow_mult. replace ((- a) ^ 2) with (a ^ 2) by ring. ring.
Qed.
Lemma true_even k : Nat.Even k -> true_moment k = 2 / INR (S k).
Proof. intros [m ->]. unfold true_moment. cbn [pow]. rewrite pow_mult. replace ((-1) ^ 2) with 1 by ring. rewrite pow1. f_equal. ring. Qed.
Lemma true_odd k : Nat.Odd k -> true_moment k = 0.
Proof. intros [m ->]. unfold true_moment. replace (S (2 * m + 1)) with (2 * (m + 1))%nat by lia. rewrite pow_mult. replace ((-1) ^ 2) with 1 by ring. rewrite pow1. unfold Rdiv. ring. Qed.
(* 10 ^ d |2 (k+1) N - 2 10^e| <= u (k+1) 10^e *)
Definition close_enough (u d : Z) (p q : nat) (l : list (Z * Z)) (k : nat) : bool :=
  let K := Z.of_nat (S k) in let e := (10 ^ Z.of_nat (p * k + q))%Z in
  (10 ^ d * Z.abs (2 * K * zsum l k - 2 * e) <=? u * K * e)%Z.
Lemma close_ok u d p q l k : (0 <= d)%Z -> Nat.Even k -> close_enough u d p q l k = true ->
  Rabs (2 * IZR (zsum l k) / 10 ^ (p * k + q) - 2 / INR (S k)) <= IZR u / IZR (10 ^ d).
Proof.
  intros Hd E H. unfold close_enough in H. apply Z.leb_le, IZR_le in H. rewrite !mult_IZR, abs_IZR, minus_IZR, !mult_IZR in H. rewrite <- INR_IZR_INZ in H. rewrite <- (pow_IZR 10 (p * k + q)) in H.
  set (e := 10 ^ (p * k + q)) in *. assert (P : 0 < e) by apply ten_pos. set (K := INR (S k)) in *. assert (Kp : 0 < K) by (apply lt_0_INR; lia). set (N := IZR (zsum l k)) in *. set (D := IZR (10 ^ d)) in *. assert (Dp : 0 < D). { apply IZR_lt. apply Z.pow_pos_nonneg; lia. }
  replace (2 * N / e - 2 / K) with ((2 * K * N - 2 * e) / (K * e)) by (field; split; lra). rewrite Rabs_div by (apply Rgt_not_eq, Rmult_lt_0_compat; assumption). rewrite (Rabs_right (K * e)) by (apply Rle_ge, Rlt_le, Rmult_lt_0_compat; assumption).
  apply (Rmult_le_reg_r (K * e * D)); [repeat apply Rmult_lt_0_compat; assumption|]. replace (IZR u / D * (K * e * D)) with (IZR u * K * e) by (field; lra).
  replace (Rabs (2 * K * N - 2 * e) / (K * e) * (K * e * D)) with (D * Rabs (2 * K * N - 2 * e)) by (field; split; lra). exact H.
Qed.
Lemma all_moments u d p q l n : (0 <= u)%Z -> (0 <= d)%Z -> forallb (fun k => if Nat.even k then close_enough u d p q l k else true) (seq 0 n) = true ->
  forall k, (k < n)%nat -> Rabs (rule_moment (map (fun ab => (- (IZR (fst ab) / 10 ^ p), IZR (snd ab) / 10 ^ q)) l) k - true_moment k) <= IZR u / IZR (10 ^ d).
Proof.
  intros Hu Hd H k L. rewrite forallb_forall in H. specialize (H k ltac:(apply in_seq; lia)). assert (Dp : 0 < IZR (10 ^ d)). { apply IZR_lt. apply Z.pow_pos_nonneg; lia. }
  destruct (Nat.even k) eqn:E.
  - apply Nat.even_spec in E. rewrite rule_whole, true_even by exact E. now apply close_ok.
  - assert (O : Nat.Odd k). { apply Nat.odd_spec. unfold Nat.odd. now rewrite E. } rewrite odd_zero, true_odd by exact O. rewrite Rminus_0_r, Rabs_R0. apply Rdiv_le_0_compat; [apply IZR_le; exact Hu|exact Dp].
Qed.
Lemma combine_map {A B C D} (f : A -> C) (g : B -> D) l l' : combine (map f l) (map g l') = map (fun ab => (f (fst ab), g (snd ab))) (combine l l').
Proof. revert l'. induction l as [|a l IH]; intros [|b l']; cbn; auto. now rewrite IH. Qed.
Lemma exact6 : exact_rule (2 / 10 ^ 15) 12 X6 W6.
Proof.
  apply exact_from. unfold X6, W6. rewrite combine_map. intros k L. replace (2 / 10 ^ 15) with (IZR 2 / IZR (10 ^ 15)) by (rewrite (pow_IZR 10 15); reflexivity). revert k L. apply (all_moments 2 15 16 16); [lia|lia|vm_compute; reflexivity].
Qed.
Lemma exact12 : exact_rule (3 / 10 ^ 16) 24 X12 W12.
Proof.
  apply exact_from. unfold X12, W12. rewrite combine_map. intros k L. replace (3 / 10 ^ 16) with (IZR 3 / IZR (10 ^ 16)) by (rewrite (pow_IZR 10 16); reflexivity). revert k L. apply (all_moments 3 16 16 17); [lia|lia|vm_compute; reflexivity].
Qed.
Lemma exact20 : exact_rule (1 / 10 ^ 16) 40 X20 W20.
Proof.
  apply exact_from. unfold X20, W20. rewrite combine_map. intros k L. replace (1 / 10 ^ 16) with (IZR 1 / IZR (10 ^ 16)) by (rewrite (pow_IZR 10 16); reflexivity). revert k L. apply (all_moments 1 16 17 17); [lia|lia|vm_compute; reflexivity].
Qed.
