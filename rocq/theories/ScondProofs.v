(* Prediction of missing values: the linear algebra. *)
From Coq Require Import Reals List ZArith Lra Lia Bool.
From Verif Require Import Base PolyModel SpectModel SpectProofs7 ArSpec ArProofs2 CsimModel CsimProofs CsimProofs3 ScondModel ScondSpec.
Import ListNotations.
Local Open Scope R_scope.

Lemma total_app a b : total (a ++ b) = total a + total b.
Proof. unfold total. induction a as [|x a IH]; cbn; [ring|]. rewrite IH. ring. Qed.
Lemma total_seq f n : total (map f (seq 0 n)) = sum_to n f.
Proof. induction n as [|n IH]; [reflexivity|]. rewrite seq_S, map_app, total_app, IH. cbn. ring. Qed.
Lemma cov_ext r n v w v' w' : (forall i, (i < n)%nat -> v i = v' i) -> (forall i, (i < n)%nat -> w i = w' i) -> cov r n v w = cov r n v' w'.
Proof. intros A B. unfold cov. apply sum_ext. intros i I. apply sum_ext. intros j J. rewrite A, B by assumption. reflexivity. Qed.
Lemma distance_sym i j : distance i j = distance j i. Proof. unfold distance. lia. Qed.
Lemma cov_sym r n v w : cov r n v w = cov r n w v.
Proof. unfold cov. rewrite sum_swap. apply sum_ext. intros i _. apply sum_ext. intros j _. rewrite distance_sym. ring. Qed.
Lemma cov_plus r n u v w : cov r n (fun i => u i + v i) w = cov r n u w + cov r n v w.
Proof. unfold cov. rewrite <- sum_plus. apply sum_ext. intros i _. rewrite <- sum_plus. apply sum_ext. intros j _. ring. Qed.
Lemma cov_minus r n u v w : cov r n (minus u v) w = cov r n u w - cov r n v w.
Proof. rewrite (cov_ext r n (minus u v) w (fun i => u i + (-1) * v i) w) by (intros; unfold minus; ring || reflexivity). rewrite cov_plus. replace (cov r n (fun i => -1 * v i) w) with (-1 * cov r n v w); [ring|]. unfold cov. rewrite <- sum_scal. apply sum_ext. intros i _. rewrite <- sum_scal. apply sum_ext. intros j _. ring. Qed.
Lemma cov_minus_r r n u v w : cov r n w (minus u v) = cov r n w u - cov r n w v.
Proof. rewrite cov_sym, cov_minus, (cov_sym r n u), (cov_sym r n v). reflexivity. Qed.
(* sums with units *)
Lemma sum_unit1 n k g : (k < n)%nat -> sum_to n (fun i => unit k i * g i) = g k.
Proof. intros H. rewrite (sum_pick n k); [unfold unit; rewrite Nat.eqb_refl; ring|exact H|]. intros i _ NE. unfold unit. destruct (Nat.eqb_spec k i); [lia|ring]. Qed.
Lemma cov_unit r n v b : (b < n)%nat -> cov r n v (unit b) = sum_to n (fun i => v i * r (distance i b)).
Proof. intros H. unfold cov. apply sum_ext. intros i _. rewrite (sum_ext _ _ (fun j => unit b j * (v i * r (distance i j)))) by (intros; ring). exact (sum_unit1 n b (fun j => v i * r (distance i j)) H). Qed.
Definition spread (K : list nat) (x : nat -> R) (i : nat) : R := sum_to (List.length K) (fun j => x j * unit (nth j K 0%nat) i).
Lemma sum_spread n K x g : (forall j, (j < List.length K)%nat -> (nth j K 0 < n)%nat) -> sum_to n (fun i => spread K x i * g i) = sum_to (List.length K) (fun j => x j * g (nth j K 0%nat)).
Proof.
  intros H. unfold spread. rewrite (sum_ext _ _ (fun i => sum_to (List.length K) (fun j => x j * (unit (nth j K 0%nat) i * g i)))). 2: { intros i _. rewrite Rmult_comm, <- sum_scal. apply sum_ext. intros j _. ring. }
  rewrite sum_swap. apply sum_ext. intros j J. rewrite sum_scal. rewrite sum_unit1 by (apply H, J). reflexivity.
Qed.
Lemma cov_spread r n K x v : (forall j, (j < List.length K)%nat -> (nth j K 0 < n)%nat) -> cov r n (spread K x) v = sum_to (List.length K) (fun j => x j * cov r n (unit (nth j K 0%nat)) v).
Proof.
  intros H. unfold cov at 1. rewrite (sum_ext _ _ (fun i => spread K x i * sum_to n (fun j => v j * r (distance i j)))). 2: { intros i _. rewrite <- sum_scal. apply sum_ext. intros j _. ring. }
  rewrite sum_spread by exact H. apply sum_ext. intros j J. rewrite cov_sym, cov_unit by (apply H, J). f_equal. apply sum_ext. intros i _. rewrite distance_sym. reflexivity.
Qed.
Lemma cov_units r n a b : (a < n)%nat -> (b < n)%nat -> cov r n (unit a) (unit b) = r (distance a b).
Proof. intros A B. rewrite cov_unit by exact B. exact (sum_unit1 n a (fun i => r (distance i b)) A). Qed.
Lemma in_nth_pos (K : list nat) i : In i K -> exists j, (j < List.length K)%nat /\ nth j K 0%nat = i.
Proof. intros H. destruct (In_nth K i 0%nat H) as [j [A B]]. exists j. split; assumption. Qed.
Lemma spread_out K x i : ~ In i K -> spread K x i = 0.
Proof. intros H. unfold spread. rewrite (sum_ext _ _ (fun _ => 0)); [apply sum_0|]. intros j J. unfold unit. destruct (Nat.eqb_spec (nth j K 0%nat) i) as [E|]; [|ring]. exfalso. apply H. rewrite <- E. apply nth_In, J. Qed.

(* the conditional distribution *)
Lemma conditional r n solve sigma K U : (forall i j, (i < n)%nat -> (j < n)%nat -> sigma i j = r (distance i j)) -> (forall i, In i K -> (i < n)%nat) -> (forall i, In i U -> (i < n)%nat) ->
  solution_of (List.length K) (List.length U) (fun i j => 2 * r (distance (nth i K 0%nat) (nth j K 0%nat))) (fun i u => 2 * r (distance (nth i K 0%nat) (nth u U 0%nat))) (weights solve sigma K U) ->
  let w := weights solve sigma K U in let P u := spread K (fun j => w j u) in
  (forall u v, (u < List.length U)%nat -> nth u (means w K U v) 0 = sum_to n (fun i => P u i * v i)) /\
  (forall u i, (u < List.length U)%nat -> (i < n)%nat -> In i K -> cov r n (minus (unit (nth u U 0%nat)) (P u)) (unit i) = 0) /\
  (forall u v, (u < List.length U)%nat -> (v < List.length U)%nat -> left_over sigma w K U u v = cov r n (minus (unit (nth u U 0%nat)) (P u)) (minus (unit (nth v U 0%nat)) (P v))).
Proof.
  intros SG IK IU SO w P. assert (NK : forall j, (j < List.length K)%nat -> (nth j K 0 < n)%nat) by (intros j J; apply IK, nth_In, J). assert (NU : forall j, (j < List.length U)%nat -> (nth j U 0 < n)%nat) by (intros j J; apply IU, nth_In, J).
  assert (C0 : forall u i, (u < List.length U)%nat -> (i < n)%nat -> In i K -> cov r n (minus (unit (nth u U 0%nat)) (P u)) (unit i) = 0).
  { intros u i Hu I IN. destruct (in_nth_pos K i IN) as [k [Hk <-]]. rewrite cov_minus, cov_units by (try apply NU; assumption). unfold P. rewrite cov_spread by exact NK. pose proof (SO k u Hk Hu) as Q. fold w in Q. rewrite (sum_ext _ _ (fun j => 2 * (w j u * r (distance (nth j K 0%nat) (nth k K 0%nat))))) in Q by (intros; rewrite (distance_sym (nth k K 0%nat)); ring). rewrite sum_scal in Q. rewrite (sum_ext _ _ (fun j => w j u * r (distance (nth j K 0%nat) (nth k K 0%nat)))) by (intros j J; rewrite cov_units by (try apply NK; assumption); reflexivity). rewrite (distance_sym (nth u U 0%nat)). lra. }
  split; [|split; [exact C0|]].
  - intros u v Hu. unfold means. rewrite map_seq_nth' by exact Hu. rewrite Nat.add_0_l, total_seq. unfold P. rewrite sum_spread by exact NK. reflexivity.
  - intros u v Hu Hv. rewrite cov_minus_r. assert (CZ : cov r n (minus (unit (nth u U 0%nat)) (P u)) (P v) = 0). { unfold P at 2. rewrite cov_sym, cov_spread by exact NK. rewrite (sum_ext _ _ (fun _ => 0)); [rewrite sum_0; reflexivity|]. intros j J. rewrite cov_sym, C0 by (try apply NK; try apply nth_In; assumption). ring. }
    rewrite CZ, Rminus_0_r, cov_minus, cov_units by (apply NU; assumption). unfold left_over. rewrite SG by (apply NU; assumption). rewrite total_seq. unfold P. rewrite cov_spread by exact NK. f_equal. apply sum_ext. intros j J. rewrite SG, cov_units by (try apply NU; try apply NK; assumption). reflexivity.
Qed.
Lemma optimal r n K k P : semidefinite r n -> (forall i, ~ In i K -> P i = 0) -> (forall i, (i < n)%nat -> In i K -> cov r n (minus (unit k) P) (unit i) = 0) -> (forall i, In i K -> (i < n)%nat) -> best r n (fun i => In i K) k P.
Proof.
  intros SD Z C IK. split; [exact Z|]. split; [exact C|]. intros P' Z'. set (e := minus (unit k) P) in *. set (d := minus P P').
  assert (E0 : cov r n e d = 0). { unfold cov. rewrite sum_swap. rewrite (sum_ext _ _ (fun _ => 0)); [apply sum_0|]. intros j J. rewrite (sum_ext _ _ (fun i => d j * (e i * r (distance i j)))) by (intros; ring). rewrite sum_scal, <- cov_unit by exact J. destruct (in_dec Nat.eq_dec j K) as [G|G]; [rewrite C by assumption; ring|]. unfold d, minus. rewrite Z, Z' by exact G. ring. }
  assert (E1 : cov r n (minus (unit k) P') (minus (unit k) P') = cov r n e e + 2 * cov r n e d + cov r n d d).
  { rewrite (cov_ext r n (minus (unit k) P') (minus (unit k) P') (fun i => e i + d i) (fun i => e i + d i)) by (intros; unfold e, d, minus; ring). rewrite cov_plus, (cov_sym r n e (fun i => e i + d i)), (cov_sym r n d (fun i => e i + d i)), !cov_plus. rewrite (cov_sym r n d e). ring. }
  rewrite E1, E0. pose proof (SD d). lra.
Qed.
Lemma nonneg_left r n v : semidefinite r n -> 0 <= cov r n v v. Proof. intros H. apply H. Qed.
(* sparse and dense matrices are the same *)
Lemma nth_firstn_lt (l : list R) k i : (i < k)%nat -> nth i (firstn k l) 0 = nth i l 0.
Proof. revert k i. induction l as [|a l IH]; intros k i H; [rewrite firstn_nil; destruct i; reflexivity|]. destruct k; [lia|]. destruct i; [reflexivity|]. cbn. apply IH. lia. Qed.
Lemma cut_list acf m n k : (m <= List.length acf)%nat -> nth k (firstn m acf ++ repeat 0 (n - m)) 0 = cut m acf k.
Proof.
  intros L. unfold cut. destruct (Nat.ltb_spec k m) as [H|H].
  - rewrite app_nth1 by (rewrite firstn_length; lia). apply nth_firstn_lt, H.
  - rewrite app_nth2 by (rewrite firstn_length; lia). apply nth_repeat.
Qed.
Lemma total_pick (f : nat -> R) l k : NoDup l -> In k l -> total (map (fun i => if (k =? i)%nat then f i else 0) l) = f k.
Proof.
  induction l as [|a l IH]; intros ND I; [destruct I|]. inversion ND as [|? ? N1 N2]; subst. cbn [map]. change (total (?x :: ?y)) with (x + total y). destruct (Nat.eqb_spec k a) as [->|NE].
  - replace (total _) with 0; [ring|]. clear IH ND I N2. induction l as [|b l IH]; [reflexivity|]. cbn [map]. change (total (?x :: ?y)) with (x + total y). destruct (Nat.eqb_spec a b) as [->|]; [exfalso; apply N1; left; reflexivity|]. rewrite <- IH by (intros Q; apply N1; right; exact Q). ring.
  - destruct I as [->|I]; [congruence|]. rewrite IH by assumption. ring.
Qed.
Lemma total_none (f : nat -> R) l k : ~ In k l -> total (map (fun i => if (k =? i)%nat then f i else 0) l) = 0.
Proof. induction l as [|a l IH]; intros I; [reflexivity|]. cbn [map]. change (total (?x :: ?y)) with (x + total y). destruct (Nat.eqb_spec k a) as [->|NE]; [exfalso; apply I; left; reflexivity|]. rewrite IH by (intros Q; apply I; right; exact Q). ring. Qed.
Lemma total_zero l (f : nat -> R) : (forall k, In k l -> f k = 0) -> total (map f l) = 0.
Proof. induction l as [|a l IH]; intros H; [reflexivity|]. cbn [map]. change (total (?x :: ?y)) with (x + total y). rewrite H by (left; reflexivity). rewrite IH; [ring|]. intros k K. apply H. right. exact K. Qed.
Lemma nonzero_in c k : In k (nonzero c) <-> (k < List.length c)%nat /\ nth k c 0 <> 0.
Proof. unfold nonzero. rewrite filter_In, in_seq. destruct (Req_EM_T (nth k c 0) 0); split; intros [A B]; split; try lia; try discriminate; try contradiction; try assumption; reflexivity. Qed.
Lemma nonzero_nodup c : NoDup (nonzero c). Proof. apply NoDup_filter, seq_NoDup. Qed.
Lemma sptoeplitz_spec c : nth 0 c 0 <> 0 -> exists sigma, sptoeplitz c = Ok sigma /\ forall i j, sigma i j = toeplitz c i j.
Proof.
  intros H. assert (L : (0 < List.length c)%nat) by (destruct c; [cbn in H; lra|cbn; lia]). unfold sptoeplitz. destruct (nonzero c) as [|k0 ks] eqn:E; [exfalso; assert (Q : In 0%nat (nonzero c)) by (apply nonzero_in; split; assumption); rewrite E in Q; destruct Q|].
  assert (K0 : k0 = 0%nat). { unfold nonzero in E. destruct c as [|a c]; [cbn in L; lia|]. cbn [List.length seq filter nth] in E. destruct (Req_EM_T a 0) as [Q|Q]; [cbn in H; contradiction|]. injection E as E _. exact (eq_sym E). } subst k0. cbn [Nat.eqb]. eexists. split; [reflexivity|]. intros i j. cbv beta.
  assert (ND : NoDup (0%nat :: ks)) by (rewrite <- E; apply nonzero_nodup). assert (IN : forall k, In k (0%nat :: ks) <-> (k < List.length c)%nat /\ nth k c 0 <> 0) by (intros k; rewrite <- E; apply nonzero_in). inversion ND as [|? ? N0 N1]; subst. unfold toeplitz.
  assert (A : forall l d, NoDup l -> (In d l -> True) -> (forall k, In k l <-> (k < List.length c)%nat /\ nth k c 0 <> 0) \/ ((forall k, In k l <-> (k < List.length c)%nat /\ nth k c 0 <> 0 /\ k <> 0%nat) /\ d <> 0%nat) -> total (map (fun k => if (d =? k)%nat then nth k c 0 else 0) l) = nth d c 0).
  { intros l d NDl _ IL. destruct (in_dec Nat.eq_dec d l) as [G|G]; [exact (total_pick (fun k => nth k c 0) l d NDl G)|]. rewrite (total_none (fun k => nth k c 0) l d G). destruct (Nat.ltb_spec d (List.length c)) as [G1|G1]; [|rewrite nth_overflow by exact G1; reflexivity]. destruct (Req_EM_T (nth d c 0) 0) as [Q|Q]; [symmetry; exact Q|]. exfalso. apply G. destruct IL as [IL|[IL D]]; apply IL; repeat split; assumption. }
  destruct (Nat.le_gt_cases i j) as [G|G].
  - rewrite (map_ext _ (fun k => if (j - i =? k)%nat then nth k c 0 else 0)). 2: { intros k. destruct (Nat.eqb_spec j (i + k)); destruct (Nat.eqb_spec (j - i) k); try lia; reflexivity. }
    rewrite A by (try exact ND; try (intros; exact I); left; exact IN). replace (total _) with 0; [rewrite Rplus_0_r; f_equal; lia|]. symmetry. apply total_zero. intros k Hk. destruct (Nat.eqb_spec i (j + k)) as [Q|]; [|reflexivity]. assert (k = 0%nat) by lia. subst k. contradiction.
  - rewrite total_zero. 2: { intros k Hk. destruct (Nat.eqb_spec j (i + k)); [lia|reflexivity]. }
    rewrite (map_ext _ (fun k => if (i - j =? k)%nat then nth k c 0 else 0)). 2: { intros k. destruct (Nat.eqb_spec i (j + k)); destruct (Nat.eqb_spec (i - j) k); try lia; reflexivity. }
    rewrite A; [rewrite Rplus_0_l; f_equal; lia|exact N1|intros; exact I|]. right. split; [|lia]. intros k. specialize (IN k). split.
    + intros Q. destruct (proj1 IN (or_intror Q)) as [Q1 Q2]. split; [exact Q1|]. split; [exact Q2|]. intros ->. contradiction.
    + intros [Q1 [Q2 Q3]]. destruct (proj2 IN (conj Q1 Q2)) as [Q|Q]; [congruence|exact Q].
Qed.
