From Coq Require Import Reals List ZArith Lra Lia.
From Verif Require Import Base ProcModel DiscSpec ResaModel ResaSpec ResaProofs ResaProofs2 ResaProofs3 ResaProofs4.
Import ListNotations.
Local Open Scope R_scope.

(* frequencies from 3 to 5 Hertz and the sampling interval 1/16: zeros at 0, 2, 6 and 8 Hertz *)
Definition band : spectrum := Spectrum [3; 4; 5] [1; 2; 1] true.
Lemma spec_case : proper band /\ 0 < wanted band (Some (1/16)) /\ smallest_gap (args band) 1 /\ nyquist_of band (wanted band (Some (1/16))) = 8 /\ zeros_added band 8 1 = 4%nat /\ Forall (Rle 0) (data band) /\ passes interp.
Proof.
  split; [|split; [cbn; lra|split; [|split; [unfold nyquist_of, wanted; cbn [band hertz]; field|split; [|split]]]]].
  - split; [cbn; lia|]. split; [reflexivity|]. split; [|cbn; lra]. intros [|[|i]] Hi; cbn in Hi |- *; try lra; lia.
  - split; [|exists 0%nat; cbn; split; [lia|lra]]. intros [|[|i]] Hi; cbn in Hi |- *; try lra; lia.
  - unfold zeros_added, zeros_for, nyquist. cbn [band args last nth]. repeat match goal with |- context [Rlt_dec ?a ?b] => destruct (Rlt_dec a b); try lra end. reflexivity.
  - repeat constructor; lra.
  - intros x y i I L N Hi. apply interp_knot; auto; lia.
Qed.
Lemma few_case : let sp := Spectrum [0; 1] [1; 2] true in proper sp /\ 0 < wanted sp None /\ smallest_gap (args sp) 1 /\ zeros_added sp (nyquist_of sp (wanted sp None)) 1 = 0%nat.
Proof.
  cbv zeta. split; [|split; [|split]].
  - split; [cbn; lia|]. split; [reflexivity|]. split; [|cbn; lra]. intros [|i] Hi; cbn in Hi |- *; try lra; lia.
  - unfold wanted, sampling_interval, nyquist. cbn. lra.
  - split; [|exists 0%nat; cbn; split; [lia|lra]]. intros [|i] Hi; cbn in Hi |- *; try lra; lia.
  - unfold zeros_added, zeros_for, nyquist_of, wanted, sampling_interval, nyquist. cbn [args last nth hertz]. repeat match goal with |- context [Rlt_dec ?a ?b] => destruct (Rlt_dec a b); try lra end; try reflexivity.
Qed.
Lemma keeps_case : proper five /\ args five = grid 0 (nyquist five) (2 ^ 2) /\ Forall (Rle 0) (data five).
Proof. split; [apply five_proper|]. split; [apply five_proper|]. repeat constructor; lra. Qed.
