From Coq Require Import Reals List Lra Lia Bool Arith ZArith.
From Verif Require Import Base PolyModel TransModel PolySpec ArSpec ArProofs2 CsimProofs KernelProofs7 Sg2Proofs Sg2Proofs2 PadeModel PadeSpec.
Import ListNotations.
Local Open Scope R_scope.
Set Bullet Behavior "Strict Subproofs".

(* polynomials by their coefficients, lowest order first *)
Definition poly (n : nat) (f : nat -> R) (x : R) : R := sum_to n (fun u => f u * x ^ u).
Lemma poly_list n f x : peval (rev (map f (seq 0 n))) x = poly n f x. Proof. apply peval_sum. Qed.
Lemma list_poly p x : peval p x = poly (List.length p) (fun u => nth u (rev p) 0) x.
Proof.
  rewrite <- poly_list. set (g := fun u => nth u (rev p) 0).
  assert (E : rev p = map g (seq 0 (List.length p))).
  { apply (nth_ext _ _ 0 0); [rewrite map_length, seq_length, rev_length; reflexivity|]. intros i Hi. rewrite rev_length in Hi. rewrite (nth_indep (map g (seq 0 (List.length p))) 0 (g 0%nat)) by (rewrite map_length, seq_length; exact Hi). rewrite map_nth, seq_nth by exact Hi. reflexivity. }
  rewrite <- E, rev_involutive. reflexivity.
Qed.
Lemma poly_ext n f g x : (forall u, (u < n)%nat -> f u = g u) -> poly n f x = poly n g x.
Proof. intros H. apply sum_ext. intros u Hu. now rewrite H. Qed.
Lemma poly_more n m f x : (n <= m)%nat -> poly n f x = poly m (fun u => if (u <? n)%nat then f u else 0) x.
Proof.
  intros H. unfold poly. replace m with (n + (m - n))%nat by lia. rewrite sum_split. rewrite (sum_ext (m - n) _ (fun _ => 0)), sum_0.
  - rewrite Rplus_0_r. apply sum_ext. intros u Hu. apply Nat.ltb_lt in Hu. now rewrite Hu.
  - intros u _. destruct (Nat.ltb_spec (n + u) n); [lia|ring].
Qed.
(* x^i times a polynomial *)
Lemma poly_shift i n f x : x ^ i * poly n f x = poly (n + i) (fun u => if (u <? i)%nat then 0 else f (u - i)%nat) x.
Proof.
  unfold poly. replace (n + i)%nat with (i + n)%nat by lia. rewrite sum_split. rewrite (sum_ext i _ (fun _ => 0)), sum_0.
  - rewrite Rplus_0_l, <- sum_scal. apply sum_ext. intros u Hu. destruct (Nat.ltb_spec (i + u) i); [lia|]. replace (i + u - i)%nat with u by lia. rewrite pow_add. ring.
  - intros u Hu. apply Nat.ltb_lt in Hu. rewrite Hu. ring.
Qed.
Lemma poly_plus n f g x : poly n f x + poly n g x = poly n (fun u => f u + g u) x.
Proof. unfold poly. rewrite <- sum_plus. apply sum_ext. intros; ring. Qed.
Lemma poly_scal n a f x : a * poly n f x = poly n (fun u => a * f u) x.
Proof. unfold poly. rewrite <- sum_scal. apply sum_ext. intros; ring. Qed.
Lemma poly_0 n x : poly n (fun _ => 0) x = 0.
Proof. unfold poly. rewrite (sum_ext _ _ (fun _ => 0)) by (intros; ring). apply sum_0. Qed.
Lemma poly_mul n f m g : exists h, forall x, poly n f x * poly m g x = poly (n + m - 1) h x.
Proof.
  induction n as [|n [h H]].
  - exists (fun _ => 0). intros x. rewrite poly_0. change (poly 0 f x) with 0. ring.
  - destruct m as [|m]; [exists (fun _ => 0); intros x; rewrite poly_0; change (poly 0 g x) with 0; ring|].
    exists (fun u => (if (u <? n + m)%nat then h u else 0) + f n * (if (u <? n)%nat then 0 else g (u - n)%nat)). intros x.
    replace (S n + S m - 1)%nat with (S m + n)%nat by lia. rewrite <- poly_plus. rewrite <- (poly_more (n + m) (S m + n)) by lia. rewrite <- (poly_scal _ (f n)), <- poly_shift.
    replace (n + m)%nat with (n + S m - 1)%nat by lia. rewrite <- H. unfold poly at 1. cbn [sum_to]. fold (poly n f x). ring.
Qed.
(* a polynomial of degree less than L that has the factor x^L is 0 *)
Lemma no_low_terms L d K r : (forall x, poly L d x = x ^ L * poly K r x) -> forall x, poly L d x = 0.
Proof.
  intros H. assert (Z : forall u, (u < L)%nat -> d u = 0).
  { assert (Z : forall t, poly (K + L) (fun u => (if (u <? L)%nat then d u else 0) + - (if (u <? L)%nat then 0 else r (u - L)%nat)) t = 0).
    { intros t. rewrite <- poly_plus. rewrite <- (poly_more L (K + L)) by lia. rewrite H.
      rewrite (poly_ext _ (fun u => - (if (u <? L)%nat then 0 else r (u - L)%nat)) (fun u => -1 * (if (u <? L)%nat then 0 else r (u - L)%nat))) by (intros; ring).
      rewrite <- poly_scal, <- poly_shift. ring. }
    intros u Hu. pose proof (zero_coefs _ _ Z u ltac:(lia)) as E. cbn beta in E. apply Nat.ltb_lt in Hu. rewrite Hu in E. lra. }
  intros x. unfold poly. rewrite (sum_ext _ _ (fun _ => 0)); [apply sum_0|]. intros u Hu. rewrite (Z u Hu). ring.
Qed.
Lemma poly_minus n f g x : poly n f x - poly n g x = poly n (fun u => f u - g u) x.
Proof. unfold poly. rewrite <- sum_minus. apply sum_ext. intros; ring. Qed.
Lemma poly_as_more n m f : (n <= m)%nat -> exists g, forall x, poly n f x = poly m g x.
Proof. intros H. eexists. intros x. apply poly_more. exact H. Qed.
(* two approximations that agree with f to the order of their sizes are the same *)
Lemma unique_quotient L f num den num' den' : agrees L f num den -> agrees L f num' den' -> (List.length num + List.length den' <= L + 1)%nat -> (List.length num' + List.length den <= L + 1)%nat -> same_quotient num den num' den'.
Proof.
  intros [r H] [r' H'] L1 L2 x.
  destruct (poly_mul (List.length num) (fun u => nth u (rev num) 0) (List.length den') (fun u => nth u (rev den') 0)) as [h1 E1].
  destruct (poly_mul (List.length num') (fun u => nth u (rev num') 0) (List.length den) (fun u => nth u (rev den) 0)) as [h2 E2].
  destruct (poly_mul (List.length r') (fun u => nth u (rev r') 0) (List.length den) (fun u => nth u (rev den) 0)) as [h3 E3].
  destruct (poly_mul (List.length r) (fun u => nth u (rev r) 0) (List.length den') (fun u => nth u (rev den') 0)) as [h4 E4].
  destruct (poly_as_more (List.length num + List.length den' - 1) L h1 ltac:(lia)) as [g1 G1]. destruct (poly_as_more (List.length num' + List.length den - 1) L h2 ltac:(lia)) as [g2 G2].
  set (K := (List.length r' + List.length den + List.length r + List.length den')%nat).
  destruct (poly_as_more (List.length r' + List.length den - 1) K h3 ltac:(unfold K; lia)) as [g3 G3]. destruct (poly_as_more (List.length r + List.length den' - 1) K h4 ltac:(unfold K; lia)) as [g4 G4].
  assert (Z : poly L (fun u => g1 u - g2 u) x = 0).
  { apply (no_low_terms L _ K (fun u => g3 u - g4 u)). intros t. rewrite <- !poly_minus, <- G1, <- G2, <- G3, <- G4, <- E1, <- E2, <- E3, <- E4, <- !list_poly.
    pose proof (H t) as Ht. pose proof (H' t) as Ht'. 
    replace (peval num t) with (peval den t * peval f t - t ^ L * peval r t) by lra. replace (peval num' t) with (peval den' t * peval f t - t ^ L * peval r' t) by lra. ring. }
  rewrite <- poly_minus, <- G1, <- G2, <- E1, <- E2, <- !list_poly in Z. lra.
Qed.

(* ---- pade ---- *)
(* low terms of x^i times a polynomial of L terms *)
Lemma truncated_shift i L a x : x ^ i * poly L a x = poly L (fun r => if (i <=? r)%nat then a (r - i)%nat else 0) x + x ^ L * poly i (fun t => if (L + t <? i)%nat then 0 else a (L + t - i)%nat) x.
Proof.
  rewrite poly_shift. unfold poly at 1. rewrite sum_split. f_equal.
  - apply sum_ext. intros u Hu. destruct (Nat.ltb_spec u i), (Nat.leb_spec i u); try lia; reflexivity.
  - unfold poly. rewrite <- sum_scal. apply sum_ext. intros u Hu. rewrite pow_add. ring.
Qed.
Lemma pade_agrees L a m q p n : (n + m + 1 = L)%nat -> (forall r, (r < L)%nat -> sum_to (m + 1) (fun i => if (i <=? r)%nat then q i * a (r - i)%nat else 0) = if (r <=? n)%nat then p r else 0) ->
  exists h, forall x, poly (m + 1) q x * poly L a x - poly (n + 1) p x = x ^ L * poly (m + 1) h x.
Proof.
  intros HL H. exists (fun t => sum_to (m + 1) (fun i => q i * (if (t <? i)%nat then (if (L + t <? i)%nat then 0 else a (L + t - i)%nat) else 0))). intros x.
  assert (E : poly (m + 1) q x * poly L a x = sum_to (m + 1) (fun i => q i * (x ^ i * poly L a x))) by (unfold poly at 1; rewrite <- sum_scal_r; apply sum_ext; intros; ring).
  rewrite E. rewrite (sum_ext (m + 1) _ (fun i => poly L (fun r => if (i <=? r)%nat then q i * a (r - i)%nat else 0) x + x ^ L * poly (m + 1) (fun t => q i * (if (t <? i)%nat then (if (L + t <? i)%nat then 0 else a (L + t - i)%nat) else 0)) x)).
  - rewrite sum_plus, sum_scal.
    assert (S1 : sum_to (m + 1) (fun i => poly L (fun r => if (i <=? r)%nat then q i * a (r - i)%nat else 0) x) = poly (n + 1) p x).
    { unfold poly. rewrite sum_swap. rewrite (sum_ext L _ (fun r => (if (r <? n + 1)%nat then p r else 0) * x ^ r)).
      - fold (poly L (fun r => if (r <? n + 1)%nat then p r else 0) x). rewrite <- poly_more by lia. reflexivity.
      - intros r Hr. rewrite sum_scal_r, (H r Hr). f_equal. destruct (Nat.leb_spec r n), (Nat.ltb_spec r (n + 1)); try lia; reflexivity. }
    rewrite S1. unfold Rminus. rewrite Rplus_comm, <- Rplus_assoc, Rplus_opp_l, Rplus_0_l. f_equal. unfold poly. rewrite sum_swap. apply sum_ext. intros t Ht. now rewrite <- sum_scal_r.
  - intros i Hi. rewrite truncated_shift, Rmult_plus_distr_l, poly_scal. f_equal.
    + apply poly_ext. intros u Hu. destruct (i <=? u)%nat; ring.
    + rewrite (poly_more i (m + 1)) by lia. rewrite <- poly_scal. ring.
Qed.
Lemma at_list l k : at_R l k = nth k l 0. Proof. reflexivity. Qed.
Lemma pade_spec solve an m num den : solves solve -> pade solve an m = Ok (num, den) ->
  (0 <= m < Z.of_nat (List.length an))%Z /\ List.length den = Z.to_nat (m + 1) /\ (List.length num + Z.to_nat m = List.length an)%nat /\ peval den 0 = 1 /\ agrees (List.length an) (rev an) num den.
Proof.
  intros [Sv _] H. unfold pade in H. destruct ((m <? 0) || (Z.of_nat (List.length an) - 1 <? m))%Z%bool eqn:C; [discriminate|]. apply orb_false_iff in C. destruct C as [C1 C2]. apply Z.ltb_ge in C1, C2.
  set (n := Z.to_nat (Z.of_nat (List.length an) - 1 - m)) in *. set (k := Z.to_nat m) in *. destruct (solve (List.length an) (system an n) (at_R an)) as [pq|e] eqn:E; [|discriminate]. cbn [bind] in H. assert (Hn : num = rev (map pq (seq 0 (n + 1)))) by congruence. assert (Hd : den = rev (1 :: map pq (seq (n + 1) k))) by congruence. clear H. subst num den.
  pose proof (Sv _ _ _ _ E) as Sy. assert (HL : (n + k + 1 = List.length an)%nat) by (unfold n, k; lia).
  set (q := fun i => match i with O => 1 | S i => pq (n + 1 + i)%nat end).
  assert (Q : 1 :: map pq (seq (n + 1) k) = map q (seq 0 (k + 1))).
  { replace (k + 1)%nat with (S k) by lia. cbn [seq map]. f_equal. rewrite <- seq_shift, map_map. apply (nth_ext _ _ 0 0); [now rewrite !map_length, !seq_length|]. intros i Hi. rewrite map_length, seq_length in Hi.
    rewrite (nth_indep (map pq (seq (n + 1) k)) 0 (pq 0%nat)) by (now rewrite map_length, seq_length). rewrite map_nth, seq_nth by exact Hi.
    set (g := fun i => q (S i)). change (map (fun x => q (S x)) (seq 0 k)) with (map g (seq 0 k)). rewrite (nth_indep (map g (seq 0 k)) 0 (g 0%nat)) by (now rewrite map_length, seq_length). rewrite map_nth, seq_nth by exact Hi. reflexivity. }
  split; [lia|]. split; [rewrite rev_length; cbn [List.length]; rewrite map_length, seq_length; unfold k; lia|]. split; [rewrite rev_length, map_length, seq_length; fold k; lia|].
  rewrite Q. split.
  - rewrite poly_list. unfold poly. rewrite (sum_first (k + 1)) by lia. rewrite (sum_ext _ _ (fun _ => 0)) by (intros; cbn [pow]; ring). rewrite sum_0. cbn [pow q]. ring.
  - destruct (pade_agrees (List.length an) (at_R an) k q pq n HL) as [h Hh].
    + intros r Hr. pose proof (Sy r Hr) as Er. replace (List.length an) with ((n + 1) + k)%nat in Er by lia. rewrite sum_split in Er.
      rewrite (sum_ext (n + 1) _ (fun j => if (r =? j)%nat then pq j else 0)) in Er.
      2: { intros j Hj. unfold system. destruct (Nat.leb_spec j n); [|lia]. destruct (Nat.eqb_spec r j); ring. }
      rewrite (sum_ext k _ (fun i => if (i <? r)%nat then - at_R an (r - 1 - i) * pq (n + 1 + i)%nat else 0)) in Er.
      2: { intros i Hi. unfold system. destruct (Nat.leb_spec (n + 1 + i) n); [lia|]. cbv zeta. replace (n + 1 + i - n - 1)%nat with i by lia. destruct (i <? r)%nat; ring. }
      assert (F : sum_to (n + 1) (fun j => if (r =? j)%nat then pq j else 0) = if (r <=? n)%nat then pq r else 0).
      { destruct (Nat.leb_spec r n) as [Hn|Hn].
        - rewrite (sum_pick (n + 1) r); [now rewrite Nat.eqb_refl|lia|]. intros j _ Nj. destruct (Nat.eqb_spec r j); [congruence|reflexivity].
        - rewrite (sum_ext _ _ (fun _ => 0)); [apply sum_0|]. intros j Hj. destruct (Nat.eqb_spec r j); [lia|reflexivity]. }
      rewrite F in Er. rewrite (sum_first (k + 1)) by lia. replace (k + 1 - 1)%nat with k by lia. change (0 <=? r)%nat with true. change (q 0%nat) with 1. cbv iota. rewrite Nat.sub_0_r.
      rewrite (sum_ext k _ (fun i => -1 * (if (i <? r)%nat then - at_R an (r - 1 - i) * pq (n + 1 + i)%nat else 0))).
      * rewrite sum_scal. lra.
      * intros i Hi. change (S i <=? r)%nat with (i <? r)%nat. destruct (Nat.ltb_spec i r); [|ring]. change (q (S i)) with (pq (n + 1 + i)%nat). replace (r - S i)%nat with (r - 1 - i)%nat by lia. ring.
    + exists (rev (map h (seq 0 (k + 1)))). intros x. rewrite !poly_list, <- Hh. f_equal. f_equal. rewrite (list_poly (rev an)), rev_involutive, rev_length. reflexivity.
Qed.
