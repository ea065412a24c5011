From Coq Require Import Reals ZArith Lra Lia List Bool.
From Verif Require Import Base OrthoModel ShiftModel ShiftSpec DctnModel DctnSpec DctnProofs DctnProofs2 DctnProofs3.
Import ListNotations.
Local Open Scope R_scope.

Definition sample : ndarray R := nd [1%nat; 2%nat] [3; 5].
Lemma sample_ok : array_ok sample /\ shape sample <> [] /\ good_axes 2 (Some [1%Z]) /\ good_axes 2 None /\ Forall (fun v => (1 <= v)%nat) (shape sample).
Proof. repeat split; cbn; try congruence; repeat constructor; lia. Qed.
Lemma sample_dct : exists y, dctn Two false sample None None = Ok y /\ item y [0%nat; 0%nat] = Some 32 /\ item y [0%nat; 1%nat] = Some (8 * (3 * cos (PI / 4) + 5 * cos (3 * (PI / 4))) / 2).
Proof.
  destruct (keep_formula (dct Two false) sample None) as (y & E & A & Sy & I); [reflexivity|cbn; congruence|exact I|intros [|[|d]] H _; cbn in *; lia|]. exists y. split; [exact E|]. split.
  - rewrite I by (repeat constructor; lia). f_equal. cbn. unfold dct2. cbn. replace (PI * 0 * (2 * 0 + 1) / (2 * 1)) with 0 by field. replace (PI * 0 * (2 * 0 + 1) / (2 * (1 + 1))) with 0 by field. replace (PI * 0 * (2 * 1 + 1) / (2 * (1 + 1))) with 0 by field. rewrite cos_0. ring.
  - rewrite I by (repeat constructor; lia). f_equal. cbn. unfold dct2. cbn. replace (PI * 0 * (2 * 0 + 1) / (2 * 1)) with 0 by field. replace (PI * 1 * (2 * 0 + 1) / (2 * (1 + 1))) with (PI / 4) by field. replace (PI * 1 * (2 * 1 + 1) / (2 * (1 + 1))) with (3 * (PI / 4)) by field. rewrite cos_0. field.
Qed.
(* the size of the axis 1 doubled *)
Lemma sample_pad : List.length [4%nat] = List.length [1%Z] /\ NoDup [1%Z] /\ Forall (fun v => (0 <= v < Z.of_nat (List.length (shape sample)))%Z) [1%Z] /\ Forall (fun v => (1 <= v)%nat) [4%nat] /\ entry sample [0%nat; 3%nat] = 0 /\ entry sample [0%nat; 1%nat] = 5.
Proof. repeat split; repeat constructor; cbn; try lia. Qed.
Lemma sample_negative : Forall (fun v => (- Z.of_nat (List.length (shape sample)) <= v < 0)%Z) [(-1)%Z; (-2)%Z] /\ exists y, dctn Two false sample None None = Ok y /\ y <> sample.
Proof.
  split; [repeat constructor; cbn; lia|]. destruct sample_dct as (y & E & I & _). exists y. split; [exact E|]. intros ->. cbn in I. assert (3 = 32) by congruence. lra.
Qed.

Lemma sample_scalar : dctn Two false (nd [] [7]) None None = Ok (nd [1%nat] [14]).
Proof.
  unfold dctn, transformn, raw_dctn. cbn. unfold dct2. cbn. replace (PI * 0 * (2 * 0 + 1) / (2 * 1)) with 0 by field. rewrite cos_0. change (Pos.to_nat 1) with 1%nat. cbn. unfold reshape. cbn. repeat f_equal. ring.
Qed.
