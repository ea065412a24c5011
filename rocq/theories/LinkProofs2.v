(* The parameter of a link gives the probability, and the links that do not. *)
From Coq Require Import Reals List String Lra Lia.
From Verif Require Import Base RvModel RvSpec LinkModel LinkSpec LinkProofs.
Import ListNotations.
Local Open Scope R_scope.

Ltac answer H := let f := fresh in let E := fresh in let L := fresh in destruct H as (f & L & E); apply (f_equal (fun o => match o with Some f => f | None => f end)) in L; cbn in L; subst f; cbn in E.
Ltac value E := apply (f_equal (fun r => match r with Ok (Some v) => v | _ => 0 end)) in E; cbn in E.
Lemma pos_norm x loc scale : 0 < scale -> loc < x -> 0 < (x - loc) / scale. Proof. intros. apply Rdiv_lt_0_compat; lra. Qed.
Lemma neg_le0 x : x < 0 -> 0 < - x. Proof. lra. Qed.
Lemma expon_exceeds loc scale x l q : l < 0 ->
  (answers "expon" x l [q; scale] 0 (Ok (Some loc)) -> 0 < scale -> exceeds expon loc scale x l) /\
  (answers "expon" x l [loc; q] 1 (Ok (Some scale)) -> loc < x -> exceeds expon loc scale x l).
Proof.
  intros N. split; intros H P; answer H.
  - value H1. assert (E : (x - loc) / scale = - l) by (rewrite <- H1; field; lra). split; [assumption|]. unfold inside; cbn [low high expon]. rewrite E. split; [split; [lra|exact I]|]. apply tail_expon. lra.
  - rewrite fdiv_ok in H1 by lra. value H1. assert (0 < scale). { rewrite <- H1. replace (- (x - loc) / l) with ((x - loc) / - l) by (field; lra). apply Rdiv_lt_0_compat; lra. }
    assert (E : (x - loc) / scale = - l) by (rewrite <- H1; field; repeat split; lra). split; [assumption|]. unfold inside; cbn [low high expon]. rewrite E. split; [split; [lra|exact I]|]. apply tail_expon. lra.
Qed.
Lemma weibull_exceeds c loc scale x l q : l < 0 ->
  (answers "weibull_min" x l [q; loc; scale] 0 (Ok (Some c)) -> 0 < scale -> loc < x -> exceeds (weibull_min c) loc scale x l) /\
  (answers "weibull_min" x l [c; q; scale] 1 (Ok (Some loc)) -> 0 < c -> 0 < scale -> exceeds (weibull_min c) loc scale x l) /\
  (answers "weibull_min" x l [c; loc; q] 2 (Ok (Some scale)) -> 0 < c -> loc < x -> exceeds (weibull_min c) loc scale x l).
Proof.
  intros N. split; [|split].
  - intros H P X. answer H. pose proof (pos_norm x loc scale P X) as Z. rewrite flog_pos in H1 by lra. cbn in H1. rewrite fdiv_ok in H1 by lra. cbn in H1. rewrite flog_pos in H1 by assumption. cbn in H1.
    destruct (Req_EM_T (ln ((x - loc) / scale)) 0) as [E|E]; [unfold fdiv in H1; rewrite E in H1; destruct (Req_EM_T 0 0); [discriminate|contradiction]|].
    rewrite fdiv_ok in H1 by assumption. value H1. split; [assumption|]. split; [split; [assumption|exact I]|]. apply tail_weibull.
    assert (K : - l = ((x - loc) / scale) ^^ c); [|lra]. apply ln_inv; [lra|apply power_pos|]. rewrite log_power, <- H1. field. assumption.
  - intros H C P. answer H. rewrite fdiv_ok in H1 by lra. cbn in H1. rewrite fpow_pos in H1 by lra. value H1. pose proof (power_pos (- l) (1 / c)) as Q.
    assert (E : (x - loc) / scale = (- l) ^^ (1 / c)) by (rewrite <- H1; field; lra). split; [assumption|]. unfold inside; cbn [low high weibull_min]. rewrite E. split; [split; [assumption|exact I]|].
    apply tail_weibull. rewrite power_forth by lra. lra.
  - intros H C X. answer H. rewrite fdiv_ok in H1 by lra. cbn in H1. rewrite fpow_pos in H1 by lra. cbn in H1. pose proof (power_pos (- l) (1 / c)) as Q. rewrite fdiv_ok in H1 by lra. value H1.
    assert (0 < scale) by (rewrite <- H1; apply Rdiv_lt_0_compat; lra).
    assert (E : (x - loc) / scale = (- l) ^^ (1 / c)) by (rewrite <- H1; field; split; lra). split; [assumption|]. unfold inside; cbn [low high weibull_min]. rewrite E. split; [split; [assumption|exact I]|].
    apply tail_weibull. rewrite power_forth by lra. lra.
Qed.
Lemma burr_exceeds c d loc scale x l q : l < 0 -> answers "burr" x l [c; q; loc; scale] 1 (Ok (Some d)) -> 0 < scale -> loc < x -> 0 < d /\ exceeds (burr c d) loc scale x l.
Proof.
  intros N H P X. answer H. pose proof (pos_norm x loc scale P X) as Z. pose proof (expm1_neg l N) as M. pose proof (power_pos ((x - loc) / scale) (- c)) as Q.
  rewrite flog_pos in H1 by lra. cbn in H1. rewrite fdiv_ok in H1 by lra. cbn in H1. rewrite fpow_pos in H1 by assumption. cbn in H1. unfold flog1p in H1. rewrite flog_pos in H1 by lra. cbn in H1.
  assert (L1 : 0 < ln (1 + ((x - loc) / scale) ^^ (- c))) by (rewrite <- ln_1; apply ln_increasing; lra). assert (L2 : ln (- expm1 l) < 0) by (rewrite <- ln_1; apply ln_increasing; lra).
  rewrite fdiv_ok in H1 by lra. value H1. split; [rewrite <- H1; apply Rdiv_lt_0_compat; lra|]. split; [assumption|]. split; [split; [assumption|exact I]|].
  apply tail_burr. split; [lra|]. rewrite <- H1. field. lra.
Qed.
Lemma exponweib_exceeds a c loc scale x l q : l < 0 -> answers "exponweib" x l [q; c; loc; scale] 0 (Ok (Some a)) -> 0 < scale -> loc < x -> 0 < a /\ exceeds (exponweib a c) loc scale x l.
Proof.
  intros N H P X. answer H. pose proof (pos_norm x loc scale P X) as Z. pose proof (expm1_neg l N) as M. pose proof (power_pos ((x - loc) / scale) c) as Q.
  rewrite flog_pos in H1 by lra. cbn in H1. rewrite fdiv_ok in H1 by lra. cbn in H1. rewrite fpow_pos in H1 by assumption. cbn in H1.
  pose proof (expm1_neg (- ((x - loc) / scale) ^^ c) ltac:(lra)) as M2. rewrite flog_pos in H1 by lra. cbn in H1.
  assert (L1 : ln (- expm1 (- ((x - loc) / scale) ^^ c)) < 0) by (rewrite <- ln_1; apply ln_increasing; lra). assert (L2 : ln (- expm1 l) < 0) by (rewrite <- ln_1; apply ln_increasing; lra).
  rewrite fdiv_ok in H1 by lra. value H1. split. { rewrite <- H1. replace (- - ln (- expm1 l) / ln (- expm1 (- ((x - loc) / scale) ^^ c))) with (- ln (- expm1 l) / - ln (- expm1 (- ((x - loc) / scale) ^^ c))) by (field; lra). apply Rdiv_lt_0_compat; lra. }
  split; [assumption|]. split; [split; [assumption|exact I]|]. apply tail_exponweib. split; [lra|]. rewrite <- H1. field. lra.
Qed.
Lemma growth c l : c <> 0 -> l < 0 -> 0 < expm1 (- c * l) / c.
Proof.
  intros C N. unfold expm1. destruct (Rlt_dec 0 c).
  - apply Rdiv_lt_0_compat; [|assumption]. pose proof (exp_ineq1 (- c * l) ltac:(nra)). nra.
  - assert (exp (- c * l) < 1) by (apply exp_lt1; nra). replace ((exp (- c * l) - 1) / c) with ((1 - exp (- c * l)) / - c) by (field; assumption). apply Rdiv_lt_0_compat; lra.
Qed.
Lemma genpareto_exceeds c loc scale x l q : l < 0 -> answers "genpareto" x l [c; loc; q] 2 (Ok (Some scale)) -> loc < x -> exceeds (genpareto c) loc scale x l.
Proof.
  intros N H X. answer H. destruct (Req_EM_T c 0) as [->|C].
  - rewrite fdiv_ok in H1 by lra. value H1. assert (0 < scale). { rewrite <- H1. replace (- (x - loc) / l) with ((x - loc) / - l) by (field; lra). apply Rdiv_lt_0_compat; lra. }
    assert (E : (x - loc) / scale = - l) by (rewrite <- H1; field; repeat split; lra). split; [assumption|]. rewrite E. split; [|apply tail_genpareto0; lra].
    unfold inside. cbn. destruct (Rlt_dec 0 0); [lra|]. split; [lra|exact I].
  - pose proof (growth c l C N) as G. set (e := expm1 (- c * l)) in *. assert (E0 : e <> 0). { intros Z. rewrite Z in G. unfold Rdiv in G. rewrite Rmult_0_l in G. lra. }
    rewrite fdiv_ok in H1 by assumption. value H1. assert (0 < scale). { rewrite <- H1. replace ((x - loc) * c / e) with ((x - loc) / (e / c)) by (field; auto). apply Rdiv_lt_0_compat; lra. }
    assert (E : (x - loc) / scale = e / c) by (rewrite <- H1; field; repeat split; try assumption; lra). split; [assumption|]. rewrite E.
    assert (E1 : 1 + c * (e / c) = exp (- c * l)) by (unfold e, expm1; field; assumption).
    split.
    + unfold inside. cbn. destruct (Rlt_dec c 0); (split; [assumption|]); [|exact I]. pose proof (exp_pos (- c * l)). apply (Rmult_lt_reg_l (- c)); [lra|]. replace (- c * (- 1 / c)) with 1 by (field; lra). lra.
    + apply tail_genpareto; [assumption|]. rewrite E1, ln_exp. field. assumption.
Qed.
Lemma gumbel_exceeds loc scale x l q : l < 0 -> answers "gumbel_r" x l [loc; q] 1 (Ok (Some scale)) -> 0 < scale -> exceeds gumbel_r loc scale x l.
Proof.
  intros N H P. answer H. pose proof (expm1_neg l N) as M. assert (L2 : ln (- expm1 l) < 0) by (rewrite <- ln_1; apply ln_increasing; lra).
  rewrite flog_pos in H1 by lra. cbn in H1. rewrite flog_pos in H1 by lra. cbn in H1. set (y := ln (- ln (- expm1 l))) in *. unfold fdiv in H1. destruct (Req_EM_T y 0) as [Y|Y]; [discriminate|]. value H1.
  split; [assumption|]. split; [split; exact I|]. apply tail_gumbel. split; [lra|]. split; [assumption|]. fold y. rewrite <- H1.
  assert (x - loc <> 0). { intros Z. rewrite Z in H1. unfold Rdiv in H1. rewrite Ropp_0, Rmult_0_l in H1. lra. } field. split; assumption.
Qed.
Lemma genextreme_exceeds c loc scale x l q : l < 0 -> answers "genextreme" x l [c; loc; q] 2 (Ok (Some scale)) -> 0 < scale -> exceeds (genextreme c) loc scale x l.
Proof.
  intros N H P. answer H. pose proof (expm1_neg l N) as M. assert (L2 : ln (- expm1 l) < 0) by (rewrite <- ln_1; apply ln_increasing; lra).
  rewrite flog_pos in H1 by lra. cbn in H1. rewrite flog_pos in H1 by lra. cbn in H1. destruct (Req_EM_T c 0) as [->|C].
  - set (y := ln (- ln (- expm1 l))) in *. unfold fdiv in H1. destruct (Req_EM_T y 0) as [Y|Y]; [discriminate|]. value H1.
    split; [assumption|]. split. { unfold inside; cbn. destruct (Rlt_dec 0 0); [lra|]. split; exact I. } apply tail_genextreme0. split; [lra|]. split; [assumption|]. fold y. rewrite <- H1.
    assert (x - loc <> 0). { intros Z. rewrite Z in H1. unfold Rdiv in H1. rewrite Ropp_0, Rmult_0_l in H1. lra. } field. split; assumption.
  - set (y := ln (- ln (- expm1 l))) in *. destruct (Req_EM_T (- c) 0) as [E|_]; [exfalso; apply C; lra|]. replace (- - c * y) with (c * y) in H1 by ring. set (e := expm1 (c * y)) in *.
    unfold fdiv in H1. destruct (Req_EM_T e 0) as [Z|Z]; [discriminate|]. value H1.
    assert (x - loc <> 0). { intros W. rewrite W in H1. unfold Rdiv in H1. rewrite !Rmult_0_l in H1. lra. }
    assert (E : (x - loc) / scale = - e / c) by (rewrite <- H1; field; repeat split; auto; lra). split; [assumption|]. rewrite E.
    assert (E1 : 1 - c * (- e / c) = exp (c * y)) by (unfold e, expm1; field; assumption). pose proof (exp_pos (c * y)). split.
    + unfold inside; cbn. destruct (Rlt_dec c 0); [|destruct (Rlt_dec 0 c); [|lra]].
      * split; [|destruct (Rlt_dec 0 c); [lra|exact I]]. apply (Rmult_lt_reg_l (- c)); [lra|]. replace (- c * (1 / c)) with (- 1) by (field; lra). lra.
      * split; [exact I|]. apply (Rmult_lt_reg_l c); [lra|]. replace (c * (1 / c)) with 1 by (field; lra). lra.
    + apply tail_genextreme; [assumption|]. split; [lra|]. split; [assumption|]. fold y. rewrite E1, ln_exp. field. assumption.
Qed.
Lemma rayleigh_exceeds loc scale x l q : l < 0 -> answers "rayleigh" x l [q; scale] 0 (Ok (Some loc)) -> 0 < scale -> exceeds rayleigh loc scale x l.
Proof.
  intros N H P. answer H. rewrite fsqrt_ok in H1 by lra. unfold lift1 in H1. value H1. assert (0 < sqrt (-2 * l)) by (apply sqrt_lt_R0; lra).
  assert (E : (x - loc) / scale = sqrt (-2 * l)) by (rewrite <- H1; field; lra). split; [assumption|]. split; [split; [rewrite E; assumption|exact I]|]. rewrite E. apply tail_rayleigh. rewrite sqrt_sqrt by lra. field.
Qed.
Lemma trunc_exceeds c loc scale x l q : l < 0 -> answers "trunclayleigh" x l [c; q; scale] 1 (Ok (Some loc)) -> 0 <= c -> 0 < scale -> exceeds (truncrayleigh c) loc scale x l.
Proof.
  intros N H C P. answer H. assert (0 <= c * c) by nra. rewrite fsqrt_ok in H1 by lra. unfold lift1 in H1. value H1.
  assert (c < sqrt (c * c - 2 * l)). { rewrite <- (sqrt_square c) at 1 by assumption. apply sqrt_lt_1; lra. }
  assert (E : (x - loc) / scale = sqrt (c * c - 2 * l) - c) by (rewrite <- H1; field; lra). split; [assumption|]. rewrite E. split; [split; [cbn; lra|exact I]|].
  pose proof (sqrt_sqrt (c * c - 2 * l) ltac:(lra)) as Q. set (s := sqrt (c * c - 2 * l)) in *. apply tail_trunc. replace ((s - c) * (s - c) + 2 * c * (s - c)) with (s * s - c * c) by ring. rewrite Q. field.
Qed.
