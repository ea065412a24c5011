(* Property theorems C19, C20 *)
From Verif Require Import Base BitsModel BitsProofs.
Local Open Scope Z_scope.

(* ---- C19 ------------------------------------------------------------------- *)
Theorem c19_get_after_set : forall i b v, 0 <= b -> v = 0 \/ v = 1 -> getbit (setbit i b v) b = v.
Proof. exact get_set. Qed.
Print Assumptions c19_get_after_set.

Theorem c19_other_bits_kept : forall i b v k, 0 <= b -> 0 <= k -> k <> b ->
  getbit (setbit i b v) k = getbit i k.
Proof. exact get_set_other. Qed.
Print Assumptions c19_other_bits_kept.

Theorem c19_set_own_bit : forall i b, 0 <= b -> setbit i b (getbit i b) = i.
Proof. exact set_get. Qed.
Print Assumptions c19_set_own_bit.

Theorem c19_last_set_wins : forall i b v w, 0 <= b -> setbit (setbit i b v) b w = setbit i b w.
Proof. exact set_set. Qed.
Print Assumptions c19_last_set_wins.

Theorem c19_sets_commute : forall i b c v w, 0 <= b -> 0 <= c -> b <> c ->
  setbit (setbit i b v) c w = setbit (setbit i c w) b v.
Proof. exact set_comm. Qed.
Print Assumptions c19_sets_commute.

(* getbit is the binary digit: i = sum of 2^b * getbit(i, b) *)
Theorem c19_getbit_digit : forall i b, 0 <= b -> getbit i b = Z.b2z (Z.testbit i b).
Proof. exact getbit_testbit. Qed.
Print Assumptions c19_getbit_digit.

Example c19_case : setbit 9 4 1 = 25 /\ setbit 25 3 0 = 17 /\ map (getbit 13) [3; 2; 1; 0] = [1; 1; 0; 1].
Proof. repeat split; reflexivity. Qed.

(* ---- C20 ------------------------------------------------------------------- *)
Theorem c20_setbits_getbits : forall i n, setbits (getbits i n) = i mod 2 ^ Z.of_nat n.
Proof. exact setbits_getbits. Qed.
Print Assumptions c20_setbits_getbits.

Theorem c20_getbits_setbits : forall l, (forall b, In b l -> b = 0 \/ b = 1) ->
  getbits (setbits l) (length l) = l.
Proof. exact getbits_setbits. Qed.
Print Assumptions c20_getbits_setbits.

(* bit lists are little-endian *)
Theorem c20_setbits_value : forall l, (forall b, In b l -> b = 0 \/ b = 1) ->
  setbits l = fold_right (fun b s => b + 2 * s) 0 l.
Proof. exact setbits_value. Qed.
Print Assumptions c20_setbits_value.

Example c20_case : getbits 300 8 = [0; 0; 1; 1; 0; 1; 0; 0] /\ setbits [0; 0; 1; 1; 0; 1; 0; 0] = 44.
Proof. split; reflexivity. Qed.
