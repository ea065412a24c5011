(* Concrete discretisations. *)
From Coq Require Import Reals List ZArith Lra Lia String.
From Verif Require Import Base DiscModel DiscSpec DiscProofs DiscProofs3.
Import ListNotations.
Local Open Scope R_scope.

Lemma linear_case : discretize (fun t => 1 + 2 * t) (1/1000) 0 1 (5/1000) 2 "linear" = Ok ([0; 1/2; 1], [1; 2; 3]).
Proof.
  rewrite (linear_affine 1 2 (1/1000) 0 1 (5/1000) 2 "linear") by (try reflexivity; try lra; lia). cbv zeta. change (2 * Z.to_nat (2 - 1))%nat with 2%nat. unfold grid. cbn [Nat.add seq map INR].
  do 2 f_equal; repeat (f_equal; try lra).
Qed.
Lemma linear_run_case : exists K errs, discretize Rinv (1/1000) (1/10) 1 (5/1000) 5 "linear" = Ok (grid (1/10) 1 (2 ^ K * 4), map Rinv (grid (1/10) 1 (2 ^ K * 4))) /\ linear_stop (5/1000) 4 errs K.
Proof. destruct (linear_method Rinv (1/1000) (1/10) 1 (5/1000) 5 "linear") as [K [errs [E [_ [_ S]]]]]; try reflexivity; try lra; try lia. exists K, errs. split; [exact E|exact S]. Qed.
Lemma adaptive_case : exists x, discretize Rinv (1/1000) (1/10) 1 (5/1000) 5 "adaptive" = Ok (x, map Rinv x) /\ increasing x /\ In (13/40) x /\ last x 0 = 1.
Proof.
  destruct (adaptive_shape Rinv (1/1000) (1/10) 1 (5/1000) 5 "adaptive") as [x [E [I [_ [L [_ G]]]]]]; try reflexivity; try lra; try lia. exists x. split; [exact E|]. split; [exact I|]. split; [|exact L].
  apply G. change (2 * Z.to_nat (5 / 2))%nat with 4%nat. replace (13/40) with (nth 1 (grid (1/10) 1 4) 0) by (rewrite grid_nth by lia; cbn; lra). apply nth_In. rewrite grid_length. lia.
Qed.
Lemma adaptive_one_case : discretize Rinv (1/1000) (1/10) 1 (5/1000) 1 "adaptive" = Err ValueError.
Proof. apply adaptive_none; [reflexivity|lia]. Qed.
(* a round: the square function on 0, 1, 2 with the middle point marked *)
Lemma round_case : round (fun t => t * t) 1 0 [0; 1; 2] (fun t => t = 1) [0; 1/2; 1; 3/2; 2] (fun t => t = 1/2 \/ t = 3/2) (1/14).
Proof.
  assert (HV : forall l r, halved [0; 1; 2] (fun t => t = 1) l r <-> (l = 0 /\ r = 1) \/ (l = 1 /\ r = 2)).
  { intros l r. split.
    - intros [[i [Hi [-> ->]]] _]. destruct i as [|[|i]]; [left|right|cbn in Hi; lia]; split; reflexivity.
    - intros [[-> ->]|[-> ->]]; (split; [|]); [exists 0%nat|right|exists 1%nat|left]; try reflexivity; cbn; repeat split; lia. }
  assert (D1 : deviation 1 0 (chord (fun t => t * t) 0 1 ((0 + 1) / 2)) ((0 + 1) / 2 * ((0 + 1) / 2)) = 1/14).
  { unfold deviation, chord. replace (0 * 0 + (1 * 1 - 0 * 0) / (1 - 0) * ((0 + 1) / 2 - 0)) with (1/2) by field. replace ((0 + 1) / 2 * ((0 + 1) / 2)) with (1/4) by field. rewrite !Rabs_right by lra. field. }
  assert (D2 : deviation 1 0 (chord (fun t => t * t) 1 2 ((1 + 2) / 2)) ((1 + 2) / 2 * ((1 + 2) / 2)) = 1/46).
  { unfold deviation, chord. replace (1 * 1 + (2 * 2 - 1 * 1) / (2 - 1) * ((1 + 2) / 2 - 1)) with (5/2) by field. replace ((1 + 2) / 2 * ((1 + 2) / 2)) with (9/4) by field. rewrite !Rabs_right by lra. field. }
  unfold round. cbv zeta. split; [|split; [|split]].
  - intros t. split.
    + intros [<-|[<-|[<-|[<-|[<-|[]]]]]]; [left; left; reflexivity|right; exists 0, 1; split; [apply HV; left; split; reflexivity|lra]|left; right; left; reflexivity|right; exists 1, 2; split; [apply HV; right; split; reflexivity|lra]|left; right; right; left; reflexivity].
    + intros [[<-|[<-|[<-|[]]]]|[l [r [H ->]]]]; [left; reflexivity|right; right; left; reflexivity|do 4 right; left; reflexivity|]. apply HV in H. destruct H as [[-> ->]|[-> ->]]; [right; left; lra|do 3 right; left; lra].
  - intros t. split.
    + intros [->| ->]; [exists 0, 1|exists 1, 2]; (split; [apply HV; tauto|]); (split; [lra|]); [rewrite D1|rewrite D2]; lra.
    + intros [l [r [H [-> _]]]]. apply HV in H. destruct H as [[-> ->]|[-> ->]]; [left|right]; lra.
  - intros l r H. apply HV in H. destruct H as [[-> ->]|[-> ->]]; [rewrite D1|rewrite D2]; lra.
  - exists 0, 1. split; [apply HV; tauto|]. symmetry. exact D1.
Qed.
