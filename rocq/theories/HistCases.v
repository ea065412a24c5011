(* Concrete bins and histograms. *)
From Coq Require Import Reals List ZArith Lra Lia Bool.
From Verif Require Import Base KdeModel ProcModel ProcProofs HistModel HistSpec HistProofs HistProofs2 HistProofs3.
Import ListNotations.
Local Open Scope R_scope.

Lemma step_case : default_step 0 5 6 = Ok (Some 1).
Proof.
  destruct (step_good 0 5 6) as [s [E [NS [PS [W MX]]]]]; [lra|lia|]. rewrite E. do 2 f_equal. apply Rle_antisym.
  - destruct NS as [m [k [Hm ->]]]. destruct (Z_lt_le_dec k 0) as [C|C].
    + apply p10_lt in C. rewrite powerRZ_O in C. assert (IZR m <= 5) by (apply IZR_le; lia). pose proof (p10 k). nra.
    + destruct (Z.eq_dec k 0) as [->|N]; [rewrite powerRZ_O in *; destruct Hm as [->|[->| ->]]; lra|]. assert (C' : (0 < k)%Z) by lia. apply p10_lt in C'. rewrite powerRZ_O in C'. assert (1 <= IZR m) by (apply IZR_le; lia). nra.
  - apply MX; [exists 1%Z, 0%Z; rewrite powerRZ_O; split; [lia|ring]|lra].
Qed.
(* the examples of the documentation *)
Lemma bins_case : good_bins None (Some (0, 5)) (Some 6%Z) false true = Ok [-1; 0; 1; 2; 3; 4; 5; 6].
Proof.
  unfold good_bins. cbn [default_range default_bins bind fst snd]. rewrite step_case. cbn [bind]. replace (0 / 1) with 0 by field. replace (5 / 1) with 5 by field.
  rewrite (floor_unique 0 0) by lra. rewrite (ceil_unique 5 5) by lra. unfold arange, b2r. destruct (Req_EM_T 1 0); [lra|]. rewrite (ceil_unique _ 8) by lra. change (Z.to_nat 8) with 8%nat. cbn [seq map INR]. f_equal. repeat (f_equal; try lra).
Qed.
Lemma bins_odd_case : good_bins None (Some (0, 5)) (Some 6%Z) true false = Ok [-1/2; 1/2; 3/2; 5/2; 7/2; 9/2; 11/2].
Proof.
  unfold good_bins. cbn [default_range default_bins bind fst snd]. rewrite step_case. cbn [bind]. replace (0 / 1) with 0 by field. replace (5 / 1) with 5 by field.
  rewrite (floor_unique 0 0) by lra. rewrite (ceil_unique 5 5) by lra. unfold arange, b2r. destruct (Req_EM_T 1 0); [lra|]. rewrite (ceil_unique _ 7) by lra. change (Z.to_nat 7) with 7%nat. cbn [seq map INR]. f_equal. repeat (f_equal; try lra).
Qed.
Ltac dec := repeat (match goal with |- context [Rle_dec ?a ?b] => destruct (Rle_dec a b); try lra | |- context [Rlt_dec ?a ?b] => destruct (Rlt_dec a b); try lra end; cbn [andb filter map fst snd npsum fold_right]).
Lemma histogram_case : histogram [1; 2; 2; 7; 20] (Sequence [0; 5; 11]) None false None = Ok ([0; 0; 5; 5; 5; 11; 11], [Some 0; Some 3; Some 3; Some 0; Some 1; Some 1; Some 0], [0; 5; 11], Sequence [0; 5; 11]).
Proof.
  unfold histogram, np_histogram. cbn [List.length repeat Nat.eqb negb edges monotonic]. destruct (Rle_dec 0 5); [|lra]. destruct (Rle_dec 5 11); [|lra]. cbn [andb bind bin_weights List.length Nat.sub seq map combine filter fst snd].
  unfold in_bin_b. cbn [nth Nat.add Nat.eqb List.length]. dec. unfold make_bars. cbn [repeat3 flat_map app tl removelast]. repeat (f_equal; try lra).
Qed.
Lemma bin_case : weight_of (in_bin [0; 5; 11] 1) [1; 2; 2; 7; 20] [1; 1; 1; 1; 1] 1.
Proof. unfold in_bin. cbn [nth Nat.add List.length]. do 3 (apply w_out; [intros [? _]; lra|]). replace (weight_of _ _ _ _) with (weight_of (fun x => 5 <= x /\ (x < 11 \/ 3%nat = 3%nat /\ x = 11)) [7; 20] [1; 1] (1 + 0)) by (f_equal; ring). apply w_in; [split; [lra|left; lra]|]. apply w_out; [intros [_ [?|[_ ?]]]; lra|]. constructor. Qed.
Lemma density_case : exists xx yy e y, histogram [1; 2; 2; 7; 20] (Sequence [0; 5; 11]) None true None = Ok (xx, map Some yy, e, Sequence [0; 5; 11]) /\ y = yy /\ area xx y = 1.
Proof.
  assert (ST : strictly [0; 5; 11]) by (intros [|[|i]] H; cbn in *; [lra|lra|lia]).
  destruct (histogram_caller [1; 2; 2; 7; 20] [0; 5; 11] None true None (strictly_ascending _ ST) I) as [xx [yy [_ [_ E]]]].
  destruct (histogram_density _ _ _ _ _ _ _ _ 4 E ST ltac:(cbn; lia)) as [h [y [_ [-> [A _]]]]]; [|lra|exists xx, y, [0; 5; 11], y; repeat split; assumption].
  cbn [nth last List.length repeat]. replace 4 with (1 + (1 + (1 + (1 + 0)))) by ring. do 4 (apply w_in; [lra|]). apply w_out; [lra|]. constructor.
Qed.
Lemma caller_case : exists xx yy, histogram [1; 2] (Array [0; 5]) None false None = Ok (xx, yy, [0; 5], Column [0; 5]) /\ histogram [1; 2] (Column [0; 5]) None false None = Err ValueError.
Proof. destruct (histogram_caller [1; 2] [0; 5] None false None) as [xx [yy [A [B _]]]]; [intros [|i] H; cbn in *; [lra|lia]|exact I|]. exists xx, yy. split; assumption. Qed.
Lemma constant_case : good_bins (Some [3; 3]) None None false true = Err ValueError.
Proof. apply (bins_constant _ 3); [discriminate|intros v [<-|[<-|[]]]; reflexivity|discriminate]. Qed.
