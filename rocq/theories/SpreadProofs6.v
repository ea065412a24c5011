(* The numbers of the spreading methods. *)
From Coq Require Import Reals Lra List String Ascii ZArith Lia.
From Verif Require Import Base SpreadModel.
Import ListNotations.

Lemma method_numbers i m : set_method (PInt i) = Ok m <-> (0 <= i)%Z /\ nth_error [FreqIndependent; Mitsuyasu; Donelan; Banner] (Z.to_nat i) = Some m.
Proof.
  unfold set_method.
  destruct (Z.eqb_spec i 0) as [->|N0]; [vm_compute Z.to_nat; cbn [nth_error]; split; [intros E; split; [lia|congruence]|intros [_ E]; congruence]|].
  destruct (Z.eqb_spec i 1) as [->|N1]; [vm_compute Z.to_nat; cbn [nth_error]; split; [intros E; split; [lia|congruence]|intros [_ E]; congruence]|].
  destruct (Z.eqb_spec i 2) as [->|N2]; [vm_compute Z.to_nat; cbn [nth_error]; split; [intros E; split; [lia|congruence]|intros [_ E]; congruence]|].
  destruct (Z.eqb_spec i 3) as [->|N3]; [vm_compute Z.to_nat; cbn [nth_error]; split; [intros E; split; [lia|congruence]|intros [_ E]; congruence]|].
  split; [discriminate|]. intros [P E].
  rewrite (proj2 (nth_error_None _ _)) in E; [discriminate|]. cbn [List.length]. lia.
Qed.
