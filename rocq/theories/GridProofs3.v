From Coq Require Import Reals Lra Lia Permutation.
From Verif Require Import Base PolyModel FilterModel FilterProofs3 SlopesProofs3 GridModel GridSpec GridProofs GridProofs2.
Local Open Scope R_scope.

(* ---- one dimension ---- *)
Definition bnat (q : R * R) (v : R) : nat := Z.to_nat (Int_part ((v - fst q) / snd q)).
Lemma node_0 q : node q 0 = fst q. Proof. unfold node. cbn. lra. Qed.
Lemma node_S q i : node q (S i) = node q i + snd q. Proof. unfold node. rewrite S_INR. lra. Qed.
Lemma bin_spec q v n : 0 < snd q -> (2 <= n)%nat -> node q 0 <= v < node q (n - 1) ->
  bin (map (node q) (seq 0 n)) v = Z.of_nat (bnat q v) /\ (S (bnat q v) < n)%nat /\ node q (bnat q v) <= v < node q (S (bnat q v)).
Proof.
  intros Hd Hn [H1 H2]. rewrite node_0 in H1. assert (E : bin (map (node q) (seq 0 n)) v = Int_part ((v - fst q) / snd q)).
  { unfold bin, step. destruct n as [|[|n]]; [lia|lia|]. cbn [seq map]. unfold at_R. cbn [nth]. rewrite node_S, node_0. do 2 f_equal. lra. }
  rewrite E. unfold bnat. set (r := (v - fst q) / snd q). destruct (base_Int_part r) as [B1 B2].
  assert (Hr : v = fst q + r * snd q) by (unfold r; field; lra).
  assert (P : (0 <= Int_part r)%Z).
  { assert (R0 : 0 <= r) by (unfold r, Rdiv; apply Rmult_le_pos; [lra|left; now apply Rinv_0_lt_compat]).
    assert (L : IZR (-1) < IZR (Int_part r)) by (cbn; lra). apply lt_IZR in L. lia. }
  rewrite Z2Nat.id by exact P. split; [reflexivity|].
  assert (Hb : node q (Z.to_nat (Int_part r)) <= v < node q (S (Z.to_nat (Int_part r)))).
  { rewrite node_S. unfold node. rewrite INR_IZR_INZ, Z2Nat.id by exact P. nra. }
  split; [|exact Hb]. assert (L : INR (Z.to_nat (Int_part r)) < INR (n - 1)).
  { unfold node in Hb, H2. nra. }
  apply INR_lt in L. lia.
Qed.
Lemma tent_split q v i b : 0 < snd q -> node q b <= v < node q (S b) ->
  snd q * tent ((v - node q i) / snd q) = (if (b =? i)%nat then node q (S b) - v else 0) + (if (S b =? i)%nat then v - node q b else 0).
Proof.
  intros Hd [H1 H2]. assert (T : forall t, t = (v - node q i) / snd q -> snd q * tent t = Rmax 0 (snd q - Rabs (v - node q i))).
  { intros t ->. unfold tent, Rdiv. rewrite Rabs_mult, (Rabs_pos_eq (/ snd q)) by (left; now apply Rinv_0_lt_compat).
    rewrite <- RmaxRmult by lra. f_equal; [ring|]. field. lra. }
  rewrite (T _ eq_refl). destruct (Nat.eqb_spec b i) as [->|N1].
  - destruct (Nat.eqb_spec (S i) i); [lia|]. rewrite Rabs_pos_eq by lra. rewrite node_S in *. rewrite Rmax_right; lra.
  - destruct (Nat.eqb_spec (S b) i) as [<-|N2].
    + rewrite Rabs_left1 by lra. rewrite node_S in *. rewrite Rmax_right; lra.
    + rewrite Rmax_left; [lra|]. destruct (le_lt_dec i b) as [L|L].
      * assert (B : INR i + 1 <= INR b) by (rewrite <- S_INR; apply le_INR; lia). assert (node q i + snd q <= node q b) by (unfold node in *; nra). rewrite Rabs_pos_eq; lra.
      * assert (B : INR (S b) + 1 <= INR i) by (rewrite <- S_INR; apply le_INR; lia). assert (node q (S b) + snd q <= node q i) by (unfold node in *; nra). rewrite Rabs_left1; lra.
Qed.
(* ---- bits ---- *)
Definition bz (b : bool) : Z := if b then 1%Z else 0%Z.
Definition bn (b : bool) : nat := if b then 1%nat else 0%nat.
Fixpoint bsum (d : nat) (F : list bool -> R) : R := match d with O => F [] | S d' => bsum d' (fun l => F (false :: l)) + bsum d' (fun l => F (true :: l)) end.
Lemma bsum_ext d : forall F G, (forall l, List.length l = d -> F l = G l) -> bsum d F = bsum d G.
Proof. induction d as [|d IH]; intros F G H; cbn [bsum]; [now apply H|]. f_equal; apply IH; intros l Hl; apply H; cbn; lia. Qed.
Lemma bsum_add d : forall F G, bsum d (fun l => F l + G l) = bsum d F + bsum d G.
Proof. induction d as [|d IH]; intros F G; cbn [bsum]; [reflexivity|]. rewrite !IH. lra. Qed.
Lemma bsum_scal d : forall c F, bsum d (fun l => c * F l) = c * bsum d F.
Proof. induction d as [|d IH]; intros c F; cbn [bsum]; [reflexivity|]. rewrite !IH. lra. Qed.
Lemma bsum_negb d : forall F, bsum d (fun l => F (map negb l)) = bsum d F.
Proof. induction d as [|d IH]; intros F; cbn [bsum map]; [reflexivity|]. cbn [negb]. rewrite (IH (fun l => F (true :: l))), (IH (fun l => F (false :: l))). lra. Qed.
Lemma bsum_snoc d : forall F, bsum (S d) F = bsum d (fun l => F (l ++ [false]) + F (l ++ [true])).
Proof.
  induction d as [|d IH]; intros F; [reflexivity|]. change (bsum (S (S d)) F) with (bsum (S d) (fun l => F (false :: l)) + bsum (S d) (fun l => F (true :: l))). rewrite (IH (fun l => F (false :: l))), (IH (fun l => F (true :: l))). reflexivity.
Qed.
Definition tbits (ir d : nat) : list bool := map (Nat.testbit ir) (seq 0 d).
Lemma tbits_S ir d : tbits ir (S d) = Nat.odd ir :: tbits (Nat.div2 ir) d.
Proof. unfold tbits. cbn [seq map]. f_equal. rewrite <- seq_shift, map_map. apply map_ext. intros k. reflexivity. Qed.
Lemma sumR_even_odd (f : nat -> R) n : sumR (map f (seq 0 (2 * n))) = sumR (map (fun i => f (2 * i)%nat + f (2 * i + 1)%nat) (seq 0 n)).
Proof.
  induction n as [|n IH]; [reflexivity|]. replace (2 * S n)%nat with (S (S (2 * n))) by lia. rewrite !seq_S, !map_app, !sumR_app, IH. cbn [map Nat.add]. unfold sumR. cbn [fold_right].
  replace (2 * n + 1)%nat with (S (2 * n)) by lia. lra.
Qed.
Lemma sumR_map_add {A} (f g : A -> R) l : sumR (map (fun x => f x + g x) l) = sumR (map f l) + sumR (map g l).
Proof. unfold sumR. induction l as [|x l IH]; cbn [map fold_right]; [lra|]. rewrite IH. lra. Qed.
Lemma sumR_map_scal {A} c (f : A -> R) l : sumR (map (fun x => c * f x) l) = c * sumR (map f l).
Proof. unfold sumR. induction l as [|x l IH]; cbn [map fold_right]; [lra|]. rewrite IH. lra. Qed.
Lemma sumR_map_0 {A} (f : A -> R) l : (forall x, In x l -> f x = 0) -> sumR (map f l) = 0.
Proof. unfold sumR. induction l as [|x l IH]; intros H; cbn [map fold_right]; [lra|]. rewrite IH by (intros; apply H; now right). rewrite H by now left. lra. Qed.
Lemma sumR_swap {A B} (f : A -> B -> R) l m : sumR (map (fun x => sumR (map (f x) m)) l) = sumR (map (fun y => sumR (map (fun x => f x y) l)) m).
Proof.
  induction l as [|x l IH]; cbn [map]; [unfold sumR at 1; cbn; symmetry; apply sumR_map_0; reflexivity|].
  transitivity (sumR (map (f x) m) + sumR (map (fun y => sumR (map (fun x => f x y) l)) m)); [rewrite <- IH; reflexivity|]. rewrite <- sumR_map_add. reflexivity.
Qed.
Lemma bits_sum d : forall F, sumR (map (fun ir => F (tbits ir d)) (seq 0 (2 ^ d))) = bsum d F.
Proof.
  induction d as [|d IH]; intros F; [unfold sumR; cbn; unfold tbits; cbn; lra|]. rewrite Nat.pow_succ_r'.
  rewrite sumR_even_odd. cbn [bsum]. rewrite <- (IH (fun l => F (false :: l))), <- (IH (fun l => F (true :: l))), <- sumR_map_add. f_equal. apply map_ext. intros i.
  rewrite !tbits_S. replace (2 * i + 1)%nat with (S (2 * i)) by lia. rewrite Nat.div2_succ_double, Nat.div2_double, Nat.odd_succ, Nat.even_mul, Nat.odd_mul. reflexivity.
Qed.
Definition pairs (d : nat) : list (list bool) := flat_map (fun ir => [tbits ir d; map negb (tbits ir d)]) (seq 0 (2 ^ (d - 1))).
Lemma corners_pairs d : corners d = map (fun l => (map bz l, map bz (map negb l))) (pairs d).
Proof.
  unfold corners, pairs. induction (seq 0 (2 ^ (d - 1))) as [|ir l IH]; [reflexivity|]. cbn [flat_map map app]. rewrite IH.
  assert (E : bitget ir d = map bz (tbits ir d)) by (unfold bitget, tbits; rewrite map_map; reflexivity).
  assert (N : map (fun v => 1 - v)%Z (map bz (tbits ir d)) = map bz (map negb (tbits ir d))) by (rewrite !map_map; apply map_ext; intros []; reflexivity).
  assert (M : map negb (map negb (tbits ir d)) = tbits ir d) by (rewrite map_map; rewrite <- (map_id (tbits ir d)) at 2; apply map_ext, negb_involutive).
  cbv zeta. rewrite E, N. repeat f_equal. symmetry. exact M.
Qed.
Lemma pairs_sum d F : sumR (map F (pairs (S d))) = bsum (S d) F.
Proof.
  unfold pairs. replace (S d - 1)%nat with d by lia. rewrite bsum_snoc.
  assert (T : forall ir, (ir < 2 ^ d)%nat -> tbits ir (S d) = tbits ir d ++ [false]).
  { intros ir H. unfold tbits. rewrite seq_S, map_app. cbn [map Nat.add]. repeat f_equal. destruct (Nat.eq_dec ir 0) as [->|N]; [now rewrite Nat.bits_0|].
    apply Nat.bits_above_log2. apply Nat.log2_lt_pow2; lia. }
  transitivity (sumR (map (fun ir => F (tbits ir d ++ [false]) + F (map negb (tbits ir d) ++ [true])) (seq 0 (2 ^ d)))).
  - assert (G : forall is, (forall i, In i is -> (i < 2 ^ d)%nat) -> sumR (map F (flat_map (fun ir => [tbits ir (S d); map negb (tbits ir (S d))]) is)) =
                            sumR (map (fun ir => F (tbits ir d ++ [false]) + F (map negb (tbits ir d) ++ [true])) is)).
    { induction is as [|i is IH]; intros H; [reflexivity|]. cbn [flat_map map app]. unfold sumR in *. cbn [fold_right]. rewrite IH by (intros; apply H; now right). rewrite T by (apply H; now left). rewrite map_app. cbn [map negb]. lra. }
    apply G. intros i Hi. apply in_seq in Hi. lia.
  - rewrite sumR_map_add, (bits_sum d (fun l => F (l ++ [false]))), (bits_sum d (fun l => F (map negb l ++ [true]))), (bsum_negb d (fun l => F (l ++ [true]))). symmetry. apply bsum_add.
Qed.
