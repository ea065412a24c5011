(* The links that do not give the parameter. *)
From Coq Require Import Reals List String Lra Lia.
From Verif Require Import Base RvModel RvSpec LinkModel LinkSpec LinkProofs LinkProofs2.
Import ListNotations.
Local Open Scope R_scope.

Lemma burr_nan c d loc scale x l i : l < 0 -> 0 < d -> In i [0; 2; 3]%nat -> answers "burr" x l [c; d; loc; scale] i (Ok None).
Proof.
  intros N D I. pose proof (expm1_neg l N) as M. assert (L2 : ln (- expm1 l) < 0) by (rewrite <- ln_1; apply ln_increasing; lra).
  assert (E : (let? l0 := flog (- expm1 l) in let? q := fdiv (- l0) d in flog1p (- exp q)) = None).
  { rewrite flog_pos by lra. cbn. rewrite fdiv_ok by lra. cbn. apply flog_neg. assert (0 < - ln (- expm1 l) / d) by (apply Rdiv_lt_0_compat; lra). pose proof (exp_increasing _ _ H). rewrite exp_0 in H0. lra. }
  eexists. split; [reflexivity|]. destruct I as [<-|[<-|[<-|[]]]]; cbn [burr_link]; rewrite E; reflexivity.
Qed.
Lemma burr_refuted : exists c d loc scale x l, 0 < c /\ 0 < d /\ exceeds (burr c d) loc scale x l /\ forall i, In i [0; 2; 3]%nat -> ~ recovers "burr" x l [c; d; loc; scale] i.
Proof.
  assert (P : (1 + 2 ^^ (- 1)) ^^ (- 1) = 2 / 3). { assert (Q : forall y, 0 < y -> y ^^ (- 1) = / y) by (intros y Y; change (-1) with (Ropp 1); rewrite Rpower_Ropp, Rpower_1 by assumption; reflexivity). rewrite (Q 2) by lra. rewrite Q by lra. field. }
  exists 1, 1, 0, 1, 2, (ln (1 / 3)). split; [lra|]. split; [lra|]. split.
  - split; [lra|]. replace ((2 - 0) / 1) with 2 by field. split; [split; [cbn; lra|exact I]|]. cbn [cdf burr]. change (- (1)) with (-1). rewrite P, exp_ln by lra. field.
  - intros i Hi (f & L & R0). specialize (R0 [1; 1; 0; 1] eq_refl (fun j _ => eq_refl)).
    destruct (burr_nan 1 1 0 1 2 (ln (1 / 3)) i) as (f' & L' & A); [rewrite <- ln_1; apply ln_increasing; lra|lra|assumption|].
    rewrite L in L'. injection L' as <-. rewrite A in R0. destruct Hi as [<-|[<-|[<-|[]]]]; discriminate R0.
Qed.
Lemma exponweib_nan a c loc scale x l i : l < 0 -> 0 < a -> 1 - exp l <= exp (- 1) -> In i [1; 2; 3]%nat -> answers "exponweib" x l [a; c; loc; scale] i (Ok None).
Proof.
  intros N A F I. pose proof (expm1_neg l N) as M. assert (L2 : ln (- expm1 l) <= - 1).
  { rewrite <- (ln_exp (- 1)). unfold expm1 in *. destruct (Req_EM_T (- (exp l - 1)) (exp (- 1))) as [->|Q]; [lra|]. apply Rlt_le, ln_increasing; lra. }
  assert (E : (let? l0 := (let? l1 := flog (- expm1 l) in Some (- l1)) in let? r := fdiv 1 a in let? p := fpow l0 r in let? m := flog1p (- p) in Some (- m)) = None).
  { rewrite flog_pos by lra. cbn. rewrite fdiv_ok by lra. cbn. rewrite fpow_pos by lra. cbn. assert (Q : 1 <= (- ln (- expm1 l)) ^^ (1 / a)).
    { assert (A1 : 0 < 1 / a) by (apply Rdiv_lt_0_compat; lra). assert (Rpower 1 (1 / a) <= (- ln (- expm1 l)) ^^ (1 / a)) by (apply Rle_Rpower_l; lra). assert (Rpower 1 (1 / a) = 1) by (unfold Rpower; rewrite ln_1, Rmult_0_r; apply exp_0). lra. }
    unfold flog1p. rewrite flog_neg by lra. reflexivity. }
  eexists. split; [reflexivity|]. destruct I as [<-|[<-|[<-|[]]]]; cbn [exponweib_link]; rewrite E; reflexivity.
Qed.
Lemma exp1_third : 1 / 4 <= exp (- 1).
Proof. change (-1) with (Ropp 1). rewrite exp_Ropp. pose proof exp_le_3. pose proof (exp_pos 1). assert (/ 4 <= / exp 1) by (apply Rinv_le_contravar; lra). lra. Qed.
Lemma exponweib_refuted : exists a c loc scale x l, 0 < a /\ 0 < c /\ exceeds (exponweib a c) loc scale x l /\ forall i, In i [1; 2; 3]%nat -> ~ recovers "exponweib" x l [a; c; loc; scale] i.
Proof.
  exists 1, 1, 0, 1, (ln (4 / 3)), (ln (3 / 4)). assert (P : 0 < ln (4 / 3)) by (rewrite <- ln_1; apply ln_increasing; lra). split; [lra|]. split; [lra|]. split.
  - split; [lra|]. replace ((ln (4 / 3) - 0) / 1) with (ln (4 / 3)) by field. split; [split; [cbn; lra|exact I]|]. apply tail_exponweib.
    rewrite Rpower_1 by assumption. replace (- ln (4 / 3)) with (ln (3 / 4)) by (rewrite <- ln_Rinv by lra; f_equal; field). unfold expm1. rewrite exp_ln by lra. split; [lra|ring].
  - intros i Hi (f & L & R0). specialize (R0 [1; 1; 0; 1] eq_refl (fun j _ => eq_refl)).
    destruct (exponweib_nan 1 1 0 1 (ln (4 / 3)) (ln (3 / 4)) i) as (f' & L' & A); [rewrite <- ln_1; apply ln_increasing; lra|lra|rewrite exp_ln by lra; pose proof exp1_third; lra|assumption|].
    rewrite L in L'. injection L' as <-. rewrite A in R0. destruct Hi as [<-|[<-|[<-|[]]]]; discriminate R0.
Qed.
Lemma both_ways y : y <> 0 -> 0 < expm1 y + expm1 (- y).
Proof. intros Y. unfold expm1. pose proof (exp_ineq1 y Y). pose proof (exp_ineq1 (- y) ltac:(lra)). lra. Qed.
Lemma genpareto_loc c loc scale x l : c <> 0 -> exceeds (genpareto c) loc scale x l -> exists v, answers "genpareto" x l [c; loc; scale] 1 (Ok (Some v)) /\ v <> loc.
Proof.
  intros C (S0 & I & H). destruct (inside_genpareto _ _ C I) as [J J1]. apply tail_genpareto in H; [|assumption].
  exists (x + scale * expm1 (c * l) / c). split. { eexists. split; [reflexivity|]. cbn. destruct (Req_EM_T c 0); [contradiction|reflexivity]. }
  assert (M : expm1 (- (c * l)) = c * ((x - loc) / scale)). { rewrite H. unfold expm1. replace (- (c * (- ln (1 + c * ((x - loc) / scale)) / c))) with (ln (1 + c * ((x - loc) / scale))) by (field; assumption). rewrite exp_ln by assumption. ring. }
  assert (CL : c * l <> 0). { intros Z. rewrite Z, Ropp_0 in M. unfold expm1 in M. rewrite exp_0 in M. assert (c * ((x - loc) / scale) <> 0) by (apply Rmult_integral_contrapositive; split; lra). lra. }
  pose proof (both_ways _ CL) as B. rewrite M in B. intros E.
  assert (K : expm1 (c * l) + c * ((x - loc) / scale) = 0).
  { replace (expm1 (c * l)) with (c / scale * (x + scale * expm1 (c * l) / c - x)) by (field; split; lra). rewrite E. field. lra. }
  lra.
Qed.
Lemma gumbel_loc loc scale x l : answers "gumbel_r" x l [loc; scale] 0 (Err IndexError). Proof. eexists. split; reflexivity. Qed.
Lemma genextreme_loc c loc scale x l : exceeds (genextreme c) loc scale x l ->
  (c = 0 -> answers "genextreme" x l [c; loc; scale] 1 (Err IndexError)) /\
  (c <> 0 -> x <> loc -> exists v, answers "genextreme" x l [c; loc; scale] 1 (Ok (Some v)) /\ v <> loc).
Proof.
  intros (S0 & I & H). split; intros C.
  - subst c. eexists. split; [reflexivity|]. cbn. destruct (Req_EM_T 0 0) as [_|N]; [reflexivity|exfalso; apply N; reflexivity].
  - intros X. pose proof (inside_genextreme _ _ C I) as J. apply tail_genextreme in H; [|assumption]. destruct H as (P & N & H). set (y := ln (- ln (- expm1 l))) in *.
    exists (x + scale * expm1 (- c * y) / - c). split.
    { eexists. split; [reflexivity|]. cbn. destruct (Req_EM_T c 0); [contradiction|]. rewrite flog_pos by assumption. cbn. rewrite flog_pos by lra. cbn. destruct (Req_EM_T (- c) 0) as [E|_]; [exfalso; apply C; lra|reflexivity]. }
    assert (M : expm1 (c * y) = - c * ((x - loc) / scale)). { rewrite H. unfold expm1. replace (c * (ln (1 - c * ((x - loc) / scale)) / c)) with (ln (1 - c * ((x - loc) / scale))) by (field; assumption). rewrite exp_ln by assumption. ring. }
    assert (Z : (x - loc) / scale <> 0) by (apply Rmult_integral_contrapositive; split; [lra|apply Rinv_neq_0_compat; lra]).
    assert (CL : c * y <> 0). { intros W. rewrite W in M. unfold expm1 in M. rewrite exp_0 in M. assert (- c * ((x - loc) / scale) <> 0) by (apply Rmult_integral_contrapositive; split; lra). lra. }
    pose proof (both_ways _ CL) as B. rewrite M in B. intros E. replace (- (c * y)) with (- c * y) in B by ring.
    assert (K : expm1 (- c * y) + - c * ((x - loc) / scale) = 0).
    { replace (expm1 (- c * y)) with (- c / scale * (x + scale * expm1 (- c * y) / - c - x)) by (field; split; lra). rewrite E. field. lra. }
    lra.
Qed.
Lemma genexpon_wrong a b c loc scale x l : 0 < a -> 0 < b -> 0 < c -> 0 < scale -> loc < x -> 1 - genexpon_cdf a b c ((x - loc) / scale) = exp l ->
  (exists v, answers "genexpon" x l [a; b; c; loc; scale] 0 (Ok (Some v)) /\ v = - a * ((x - loc) / scale) /\ v < 0) /\
  (exists v, answers "genexpon" x l [a; b; c; loc; scale] 1 (Ok (Some v)) /\ b < v).
Proof.
  intros A B C S0 X H. pose proof (pos_norm x loc scale S0 X) as Z. set (z := (x - loc) / scale) in *. unfold genexpon_cdf in H.
  assert (L : l = (- a - b) * z + b * - expm1 (- c * z) / c). { apply exp_inv. rewrite <- H. unfold expm1 at 1. lra. } clear H.
  assert (F : 0 < z + expm1 (- c * z) / c). { pose proof (exp_ineq1 (- c * z) ltac:(nra)) as E. unfold expm1. replace (z + (exp (- c * z) - 1) / c) with ((exp (- c * z) - (1 + - c * z)) / c) by (field; lra). apply Rdiv_lt_0_compat; lra. }
  split.
  - exists (b * (z + expm1 (- c * z) / c) + l). split; [|split].
    + eexists. split; [reflexivity|]. cbn [genexpon_link]. rewrite fdiv_ok by lra. fold z. cbn [lift1]. rewrite fdiv_ok by lra. reflexivity.
    + rewrite L. field. lra.
    + rewrite L. replace (b * (z + expm1 (- c * z) / c) + ((- a - b) * z + b * - expm1 (- c * z) / c)) with (- (a * z)) by (field; lra). pose proof (Rmult_lt_0_compat a z A Z). lra.
  - exists ((a - l) / (z + expm1 (- c * z) / c)). split.
    + eexists. split; [reflexivity|]. cbn [genexpon_link]. rewrite fdiv_ok by lra. fold z. cbn [lift1]. rewrite fdiv_ok by lra. cbn [lift1]. rewrite fdiv_ok by lra. reflexivity.
    + assert (E : a - l = b * (z + expm1 (- c * z) / c) + a * (1 + z)) by (rewrite L; field; lra). rewrite E.
      replace ((b * (z + expm1 (- c * z) / c) + a * (1 + z)) / (z + expm1 (- c * z) / c)) with (b + a * (1 + z) / (z + expm1 (- c * z) / c)) by (field; split; [lra|]; intros W; assert (z + expm1 (- c * z) / c = 0) by (unfold Rdiv in *; replace (z + expm1 (- c * z) * / c) with ((z * c + expm1 (- c * z)) * / c) by (field; lra); rewrite W; ring); lra).
      assert (0 < a * (1 + z) / (z + expm1 (- c * z) / c)) by (apply Rdiv_lt_0_compat; [apply Rmult_lt_0_compat; lra|assumption]). lra.
Qed.
Lemma rayleigh_scale loc scale x l : exceeds rayleigh loc scale x l -> let z := (x - loc) / scale in answers "rayleigh" x l [loc; scale] 1 (Ok (Some (scale + (z - 1) * x / z))).
Proof.
  intros (S0 & I & H) z. unfold inside in I; cbn in I; destruct I as [I _]. fold z in H, I. apply tail_rayleigh in H. eexists. split; [reflexivity|]. cbn. rewrite H. replace (-2 * (- (z * z) / 2)) with (z * z) by field.
  rewrite fsqrt_ok by nra. unfold lift1. rewrite sqrt_square by lra. rewrite fdiv_ok by lra. do 2 f_equal. assert (E : loc = x - scale * z) by (unfold z; field; lra). rewrite E. field. lra.
Qed.
Lemma trunc_wrong c loc scale x l : 0 <= c -> exceeds (truncrayleigh c) loc scale x l -> let z := (x - loc) / scale in
  answers "trunclayleigh" x l [c; loc; scale] 0 (Ok (Some (c + (c + z / 2)))) /\ answers "trunclayleigh" x l [c; loc; scale] 2 (Ok (Some (scale + (z - 1) * x / z))).
Proof.
  intros C (S0 & I & H) z. unfold inside in I; cbn in I; destruct I as [I _]. fold z in H, I. apply tail_trunc in H. split; eexists; (split; [reflexivity|]); cbn.
  - rewrite fdiv_ok by lra. fold z. unfold lift1. rewrite fdiv_ok by lra. do 2 f_equal. rewrite H. field. lra.
  - rewrite H. replace (c * c - 2 * (- (z * z + 2 * c * z) / 2)) with ((z + c) * (z + c)) by field. rewrite fsqrt_ok by nra. unfold lift1. rewrite sqrt_square by lra.
    rewrite fdiv_ok by lra. do 2 f_equal. assert (E : loc = x - scale * z) by (unfold z; field; lra). rewrite E. field. lra.
Qed.
Lemma names : LINKS "truncrayleigh" = None /\ forall name, LINKS name <> None <-> In name ["expon"; "weibull_min"; "frechet_r"; "genpareto"; "genexpon"; "gumbel_r"; "rayleigh"; "trunclayleigh"; "genextreme"; "exponweib"; "burr"]%string.
Proof.
  split; [reflexivity|]. intros name. unfold LINKS. split.
  - intros H. repeat match type of H with (if String.eqb name ?s then _ else _) <> None => destruct (String.eqb_spec name s); [subst; cbn; tauto|] end. exfalso. apply H. reflexivity.
  - intros H. cbn in H. repeat (destruct H as [<-|H]; [discriminate|]). contradiction.
Qed.
Lemma not_implemented x l c loc scale a b i :
  answers "genpareto" x l [c; loc; scale] 0 (Err NotImplementedError) /\ answers "genextreme" x l [c; loc; scale] 0 (Err NotImplementedError) /\
  (In i [2; 3; 4]%nat -> answers "genexpon" x l [a; b; c; loc; scale] i (Err NotImplementedError)).
Proof. split; [eexists; split; reflexivity|]. split; [eexists; split; reflexivity|]. intros I. eexists; split; [reflexivity|]. destruct I as [<-|[<-|[<-|[]]]]; reflexivity. Qed.
Lemma link_case : exceeds (weibull_min 2) 1 2 5 (- 4) /\ answers "weibull_min" 5 (- 4) [2; 7; 2] 1 (Ok (Some 1)).
Proof.
  assert (P : 2 ^^ 2 = 4) by (replace 2 with (INR 2) at 2 by (cbn; lra); rewrite Rpower_pow by lra; lra).
  assert (E : exceeds (weibull_min 2) 1 2 5 (- 4)). { split; [lra|]. replace ((5 - 1) / 2) with 2 by field. split; [split; [cbn; lra|exact I]|]. apply tail_weibull. rewrite P. reflexivity. }
  split; [exact E|]. destruct (weibull_recovers "weibull_min" 2 1 2 5 (- 4) 1 (or_introl eq_refl) ltac:(lra) E (or_intror (or_introl eq_refl))) as (f & L & H). exists f. split; [exact L|].
  apply (H [2; 7; 2]); [reflexivity|]. intros [|[|[|]]] J; try reflexivity. contradiction.
Qed.
