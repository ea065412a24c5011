From Coq Require Import ZifyBool.
From Verif Require Import Base BitsModel.
Local Open Scope Z_scope.

Lemma shiftl1_testbit b k : 0 <= b -> 0 <= k -> Z.testbit (Z.shiftl 1 b) k = (k =? b).
Proof.
  intros Hb Hk. rewrite Z.shiftl_spec by lia.
  destruct (Z.eq_dec k b) as [->|Hn].
  - rewrite Z.sub_diag, Z.eqb_refl. reflexivity.
  - replace (k =? b) with false by lia.
    destruct (Z.lt_ge_cases (k - b) 0); [apply Z.testbit_neg_r; lia|].
    change 1 with (2 ^ 0). rewrite Z.pow2_bits_eqb by lia. lia.
Qed.

Lemma getbit_testbit i b : 0 <= b -> getbit i b = Z.b2z (Z.testbit i b).
Proof.
  intros Hb. unfold getbit. apply Z.bits_inj'. intros k Hk.
  rewrite Z.shiftr_spec, Z.land_spec, shiftl1_testbit by lia.
  destruct (Z.eq_dec k 0) as [->|Hn].
  - rewrite Z.add_0_l, Z.eqb_refl, andb_true_r. destruct (Z.testbit i b); reflexivity.
  - replace (k + b =? b) with false by lia. rewrite andb_false_r.
    destruct (Z.testbit i b); cbn [Z.b2z]; [|symmetry; apply Z.bits_0].
    change 1 with (2 ^ 0). rewrite Z.pow2_bits_eqb by lia. lia.
Qed.

Lemma setbit_testbit i b v k : 0 <= b -> 0 <= k ->
  Z.testbit (setbit i b v) k = if k =? b then negb (v =? 0) else Z.testbit i k.
Proof.
  intros Hb Hk. unfold setbit. destruct (v =? 0) eqn:E.
  - rewrite Z.land_spec, Z.lnot_spec, shiftl1_testbit by lia.
    destruct (k =? b); cbn [negb]; [apply andb_false_r|apply andb_true_r].
  - rewrite Z.lor_spec, shiftl1_testbit by lia.
    destruct (k =? b); cbn [negb]; [apply orb_true_r|apply orb_false_r].
Qed.

Lemma get_set i b v : 0 <= b -> v = 0 \/ v = 1 -> getbit (setbit i b v) b = v.
Proof.
  intros Hb Hv. rewrite getbit_testbit, setbit_testbit, Z.eqb_refl by lia.
  destruct Hv as [->| ->]; reflexivity.
Qed.
Lemma get_set_other i b v k : 0 <= b -> 0 <= k -> k <> b -> getbit (setbit i b v) k = getbit i k.
Proof.
  intros Hb Hk Hn. rewrite !getbit_testbit, setbit_testbit by lia.
  replace (k =? b) with false by lia. reflexivity.
Qed.
Lemma set_get i b : 0 <= b -> setbit i b (getbit i b) = i.
Proof.
  intros Hb. apply Z.bits_inj'. intros k Hk. rewrite setbit_testbit, getbit_testbit by lia.
  destruct (k =? b) eqn:E; [|reflexivity]. replace k with b by lia. destruct (Z.testbit i b); reflexivity.
Qed.
Lemma set_set i b v w : 0 <= b -> setbit (setbit i b v) b w = setbit i b w.
Proof.
  intros Hb. apply Z.bits_inj'. intros k Hk. rewrite !setbit_testbit by lia.
  destruct (k =? b); reflexivity.
Qed.
Lemma set_comm i b c v w : 0 <= b -> 0 <= c -> b <> c ->
  setbit (setbit i b v) c w = setbit (setbit i c w) b v.
Proof.
  intros Hb Hc Hn. apply Z.bits_inj'. intros k Hk. rewrite !setbit_testbit by lia.
  destruct (k =? b) eqn:E1, (k =? c) eqn:E2; try reflexivity. lia.
Qed.

Lemma setbits_from_testbit : forall l val i k, (forall b, In b l -> b = 0 \/ b = 1) -> 0 <= i -> 0 <= k ->
  Z.testbit (setbits_from val i l) k =
  Z.testbit val k || ((i <=? k) && (k <? i + Z.of_nat (length l)) && (nth (Z.to_nat (k - i)) l 0 =? 1)).
Proof.
  induction l as [|b l IH]; intros val i k Hl Hi Hk.
  - cbn [setbits_from length]. replace ((i <=? k) && (k <? i + Z.of_nat 0)) with false by lia.
    rewrite orb_false_r. reflexivity.
  - cbn [setbits_from]. rewrite IH by (try lia; intros; apply Hl; right; auto).
    rewrite Z.lor_spec, Z.shiftl_spec by lia. rewrite <- orb_assoc. f_equal.
    cbn [length]. destruct (Z.lt_trichotomy k i) as [H|[->|H]].
    + rewrite Z.testbit_neg_r by lia. replace (i <=? k) with false by lia.
      replace (i + 1 <=? k) with false by lia. reflexivity.
    + rewrite Z.sub_diag. replace (i + 1 <=? i) with false by lia. replace (i <=? i) with true by lia.
      replace (i <? i + Z.of_nat (S (length l))) with true by lia. cbn [andb orb Z.to_nat nth].
      rewrite orb_false_r. destruct (Hl b (or_introl eq_refl)) as [->| ->]; reflexivity.
    + assert (Hb : Z.testbit b (k - i) = false).
      { destruct (Hl b (or_introl eq_refl)) as [->| ->]; [apply Z.bits_0|].
        change 1 with (2 ^ 0). rewrite Z.pow2_bits_eqb by lia. lia. }
      rewrite Hb. cbn [orb].
      replace (Z.to_nat (k - i)) with (S (Z.to_nat (k - (i + 1)))) by lia. cbn [nth].
      replace (i <=? k) with (i + 1 <=? k) by lia.
      replace (k <? i + Z.of_nat (S (length l))) with (k <? i + 1 + Z.of_nat (length l)) by lia. reflexivity.
Qed.

Lemma getbits_nth i n k : (k < n)%nat -> nth k (getbits i n) 0 = Z.b2z (Z.testbit i (Z.of_nat k)).
Proof.
  intros Hk. unfold getbits. rewrite (nth_indep _ _ (getbit i (Z.of_nat 0))) by (rewrite map_length, seq_length; lia).
  rewrite (map_nth (fun b => getbit i (Z.of_nat b))), seq_nth by lia. apply getbit_testbit. lia.
Qed.
Lemma getbits_length i n : length (getbits i n) = n.
Proof. unfold getbits. rewrite map_length, seq_length. reflexivity. Qed.
Lemma getbits_bits i n b : In b (getbits i n) -> b = 0 \/ b = 1.
Proof.
  unfold getbits. intros H. apply in_map_iff in H. destruct H as [k [<- _]].
  rewrite getbit_testbit by lia. destruct (Z.testbit i (Z.of_nat k)); auto.
Qed.

Lemma setbits_getbits i n : setbits (getbits i n) = i mod 2 ^ Z.of_nat n.
Proof.
  apply Z.bits_inj'. intros k Hk. unfold setbits.
  rewrite setbits_from_testbit by (try lia; apply getbits_bits).
  rewrite Z.bits_0, getbits_length. cbn [orb]. replace (0 <=? k) with true by lia. cbn [andb].
  destruct (k <? 0 + Z.of_nat n) eqn:E; cbn [andb].
  - rewrite Z.mod_pow2_bits_low by lia. rewrite getbits_nth by lia.
    replace (Z.of_nat (Z.to_nat (k - 0))) with k by lia. destruct (Z.testbit i k); reflexivity.
  - rewrite Z.mod_pow2_bits_high by lia. reflexivity.
Qed.

Lemma getbits_setbits l : (forall b, In b l -> b = 0 \/ b = 1) -> getbits (setbits l) (length l) = l.
Proof.
  intros Hl. apply (nth_ext _ _ 0 0).
  - apply getbits_length.
  - rewrite getbits_length. intros k Hk. rewrite getbits_nth by lia. unfold setbits.
    rewrite setbits_from_testbit by (auto; lia). rewrite Z.bits_0. cbn [orb].
    replace (0 <=? Z.of_nat k) with true by lia.
    replace (Z.of_nat k <? 0 + Z.of_nat (length l)) with true by lia. cbn [andb].
    replace (Z.to_nat (Z.of_nat k - 0)) with k by lia.
    destruct (Hl (nth k l 0) (nth_In l 0 Hk)) as [->| ->]; reflexivity.
Qed.

Lemma setbits_value l : (forall b, In b l -> b = 0 \/ b = 1) ->
  setbits l = fold_right (fun b s => b + 2 * s) 0 l.
Proof.
  intros Hl.
  assert (G : forall l, (forall b, In b l -> b = 0 \/ b = 1) ->
     getbits (fold_right (fun b s => b + 2 * s) 0 l) (length l) = l /\
     0 <= fold_right (fun b s => b + 2 * s) 0 l < 2 ^ Z.of_nat (length l)).
  { clear. induction l as [|b l IH]; intros Hl; [split; [reflexivity|simpl; lia]|].
    destruct IH as [I1 I2]; [intros; apply Hl; right; auto|].
    assert (Hb := Hl b (or_introl eq_refl)). cbn [fold_right length].
    set (s := fold_right (fun b0 s0 => b0 + 2 * s0) 0 l) in *. split.
    - apply (nth_ext _ _ 0 0); [rewrite getbits_length; reflexivity|]. rewrite getbits_length.
      intros k Hk. rewrite getbits_nth by lia. destruct k as [|k].
      + cbn [nth Z.of_nat]. destruct Hb as [->| ->].
        * rewrite Z.add_0_l. rewrite Z.testbit_even_0. reflexivity.
        * rewrite Z.add_comm, Z.testbit_odd_0. reflexivity.
      + cbn [nth]. rewrite Nat2Z.inj_succ. rewrite <- (f_equal (fun q => nth k q 0) I1). cbn beta. rewrite getbits_nth by lia. f_equal.
        destruct Hb as [->| ->].
        * rewrite Z.add_0_l. rewrite Z.testbit_even_succ by lia. reflexivity.
        * rewrite Z.add_comm, Z.testbit_odd_succ by lia. reflexivity.
    - rewrite Nat2Z.inj_succ, Z.pow_succ_r by lia. lia. }
  destruct (G l Hl) as [G1 G2]. rewrite <- G1 at 1. rewrite setbits_getbits. apply Z.mod_small, G2.
Qed.
