(* A concrete Poisson binomial distribution. *)
From Coq Require Import Reals Lra Lia.
From Verif Require Import Base PbinModel PbinSpec PbinProofs PbinProofs3.
Local Open Scope R_scope.

Lemma probs_case : probabilities [1/2; 1/3; 1].
Proof. intros p [<-|[<-|[<-|[]]]]; lra. Qed.
Lemma methods_case : exists d, make_pbinom (1/1024) [1/2; 1/3; 1] = Ok d /\ pb_pmf d 2 = Ok (1/2 + 1/1024) /\ pb_cdf d 1 = Ok (1/3 + 2/1024) /\ pb_cdf d 7 = Ok 1
  /\ pb_sf d 1 = Ok (2/3 + 2/1024) /\ pb_sf d 3 = Ok 0 /\ pb_sf0 d 3 = Err IndexError.
Proof.
  destruct (proj1 (make_iff (1/1024) [1/2; 1/3; 1]) probs_case) as [d E]. exists d. split; [exact E|].
  rewrite (pmf_method (1/1024) [1/2; 1/3; 1] d _ ltac:(lra) E), !(cdf_method (1/1024) [1/2; 1/3; 1] d _ ltac:(lra) E), !(sf_method (1/1024) [1/2; 1/3; 1] d _ ltac:(lra) E). rewrite (sf_entry _ _ d 3 E) by (cbn; lia).
  unfold prob. rewrite !expect_cons, !expect_nil. cbn [List.length].
  repeat (match goal with |- context [Z.to_nat ?z] => let v := eval vm_compute in (Z.to_nat z) in change (Z.to_nat z) with v end).
  cbn [Nat.eqb Nat.leb Nat.ltb].
  repeat split; try reflexivity; cbn; f_equal; rewrite Rmin_left; lra.
Qed.
Lemma bad_case : make_pbinom (1/1024) [1/2; 3/2] = Err ValueError.
Proof. apply make_iff. intros P. destruct (P (3/2)); [right; left; reflexivity|]. lra. Qed.
Lemma stats_case : exists g1 g2, pb_stats [1/2; 1/3; 1] = (11/6, 17/36, Some g1, Some g2).
Proof.
  unfold pb_stats. cbv zeta. cbn [map]. unfold rtotal. cbn [fold_right].
  replace (1/2 * (1 - 1/2) + (1/3 * (1 - 1/3) + (1 * (1 - 1) + 0))) with (17/36) by lra. replace (1/2 + (1/3 + (1 + 0))) with (11/6) by lra.
  destruct (Req_EM_T (sqrt (17/36)) 0) as [Z|_]; [apply sqrt_eq_0 in Z; lra|]. eexists. eexists. reflexivity.
Qed.
Lemma constant_case : pb_stats [0; 1] = (1, 0, None, None).
Proof.
  unfold pb_stats. cbv zeta. cbn [map]. unfold rtotal. cbn [fold_right]. replace (0 * (1 - 0) + (1 * (1 - 1) + 0)) with 0 by ring. replace (0 + (1 + 0)) with 1 by ring.
  rewrite sqrt_0. destruct (Req_EM_T 0 0); [reflexivity|lra].
Qed.
Lemma total_case : exists d, make_pbinom (1/1024) [1/2; 1/3; 1] = Ok d /\ fold_right Rplus 0 (pmf_values d) <> 1.
Proof.
  destruct (proj1 (make_iff (1/1024) [1/2; 1/3; 1]) probs_case) as [d E]. exists d. split; [exact E|]. rewrite (values_total _ _ d E). cbn. lra.
Qed.
Lemma total_refuted : ~ (forall eps probs d, 0 < eps -> make_pbinom eps probs = Ok d -> fold_right Rplus 0 (pmf_values d) = 1).
Proof. intros H. destruct total_case as [d [E N]]. apply N. apply (H (1/1024) [1/2;1/3;1] d ltac:(lra) E). Qed.
Lemma entry_refuted : ~ (forall eps probs d x, make_pbinom eps probs = Ok d -> (x <= List.length probs)%nat -> exists v, pb_sf0 d x = Ok v).
Proof.
  intros H. destruct (proj1 (make_iff (1/1024) [1/2; 1/3; 1]) probs_case) as [d E]. destruct (H _ _ d 3%nat E) as [v V]; [cbn; lia|]. rewrite (sf_entry _ _ d 3 E) in V by (cbn; lia). cbn in V. discriminate.
Qed.
Lemma local_case : local_pmf [1/2; 1/3; 1] 2 = 1/2.
Proof. rewrite local_method by (cbn; lia). unfold prob. rewrite !expect_cons, !expect_nil. cbn. lra. Qed.
