(* Proofs about the links. *)
From Coq Require Import Reals List String Lra Lia.
From Verif Require Import Base RvModel RvSpec LinkModel LinkSpec.
Import ListNotations.
Local Open Scope R_scope.

Lemma flog_pos x : 0 < x -> flog x = Some (ln x). Proof. intros. unfold flog. destruct (Rlt_dec 0 x); [reflexivity|lra]. Qed.
Lemma flog_neg x : x <= 0 -> flog x = None. Proof. intros. unfold flog. destruct (Rlt_dec 0 x); [lra|reflexivity]. Qed.
Lemma fdiv_ok x y : y <> 0 -> fdiv x y = Some (x / y). Proof. intros. unfold fdiv. destruct (Req_EM_T y 0); [contradiction|reflexivity]. Qed.
Lemma fpow_pos x y : 0 < x -> fpow x y = Some (x ^^ y). Proof. intros. unfold fpow. destruct (Rlt_dec 0 x); [reflexivity|lra]. Qed.
Lemma fsqrt_ok x : 0 <= x -> fsqrt x = Some (sqrt x). Proof. intros. unfold fsqrt. destruct (Rle_dec 0 x); [reflexivity|lra]. Qed.
Lemma flog_inv x y : flog x = Some y -> 0 < x /\ y = ln x. Proof. unfold flog. destruct (Rlt_dec 0 x); [intros E; injection E; auto|discriminate]. Qed.
Lemma fdiv_inv x y z : fdiv x y = Some z -> y <> 0 /\ z = x / y. Proof. unfold fdiv. destruct (Req_EM_T y 0); [discriminate|intros E; injection E; auto]. Qed.
Lemma fpow_inv x y z : fpow x y = Some z -> 0 < x /\ z = x ^^ y. Proof. unfold fpow. destruct (Rlt_dec 0 x); [intros E; injection E; auto|discriminate]. Qed.
Lemma fsqrt_inv x y : fsqrt x = Some y -> 0 <= x /\ y = sqrt x. Proof. unfold fsqrt. destruct (Rle_dec 0 x); [intros E; injection E; auto|discriminate]. Qed.
Lemma lift_inv f x y : lift1 f x = Some y -> exists z, x = Some z /\ f z = Some y. Proof. destruct x as [z|]; [exists z; auto|discriminate]. Qed.
Lemma norm_scale x loc scale : 0 < scale -> x - loc = (x - loc) / scale * scale. Proof. intros. field. lra. Qed.
Lemma exp_lt1 x : x < 0 -> exp x < 1. Proof. intros. rewrite <- exp_0. apply exp_increasing. assumption. Qed.
Lemma expm1_neg l : l < 0 -> 0 < - expm1 l < 1. Proof. intros. unfold expm1. pose proof (exp_lt1 l H). pose proof (exp_pos l). lra. Qed.
Lemma power_pos x y : 0 < x ^^ y. Proof. apply exp_pos. Qed.
Lemma power_back x c : 0 < x -> c <> 0 -> (x ^^ c) ^^ (1 / c) = x.
Proof. intros X C. rewrite Rpower_mult. replace (c * (1 / c)) with 1 by (field; assumption). apply Rpower_1. assumption. Qed.
Lemma power_forth x c : 0 < x -> c <> 0 -> (x ^^ (1 / c)) ^^ c = x.
Proof. intros X C. rewrite Rpower_mult. replace (1 / c * c) with 1 by (field; assumption). apply Rpower_1. assumption. Qed.
Lemma log_power x c : ln (x ^^ c) = c * ln x. Proof. unfold Rpower. apply ln_exp. Qed.

(* the logarithm of the survival function *)
Lemma tail_expon z l : 1 - cdf expon z = exp l <-> l = - z.
Proof. cbn. unfold expm1. split; intros H; [apply exp_inv; lra|subst; lra]. Qed.
Lemma tail_weibull c z l : 1 - cdf (weibull_min c) z = exp l <-> l = - z ^^ c.
Proof. cbn. unfold expm1. split; intros H; [apply exp_inv; lra|subst; lra]. Qed.
Lemma tail_cdf F l : 0 < F -> (1 - F = exp l <-> - expm1 l = F). Proof. unfold expm1. intros. split; lra. Qed.
Lemma tail_burr c d z l : 1 - cdf (burr c d) z = exp l <-> 0 < - expm1 l /\ ln (- expm1 l) = - d * ln (1 + z ^^ (- c)).
Proof.
  cbn. rewrite tail_cdf by apply power_pos. split.
  - intros H. rewrite H. split; [apply power_pos|apply log_power].
  - intros [P H]. apply ln_inv; [assumption|apply power_pos|]. rewrite log_power. exact H.
Qed.
Lemma tail_exponweib a c z l : 1 - cdf (exponweib a c) z = exp l <-> 0 < - expm1 l /\ ln (- expm1 l) = a * ln (- expm1 (- z ^^ c)).
Proof.
  cbn. rewrite tail_cdf by apply power_pos. split.
  - intros H. rewrite H. split; [apply power_pos|apply log_power].
  - intros [P H]. apply ln_inv; [assumption|apply power_pos|]. rewrite log_power. exact H.
Qed.
Lemma tail_genpareto c z l : c <> 0 -> (1 - cdf (genpareto c) z = exp l <-> l = - ln (1 + c * z) / c).
Proof.
  intros C. cbn. unfold inv_boxcox1p. destruct (Req_EM_T (- c) 0) as [E|_]; [exfalso; apply C; lra|]. unfold expm1, log1p.
  replace (- c * - z) with (c * z) by ring. replace (ln (1 + c * z) / - c) with (- ln (1 + c * z) / c) by (field; assumption).
  split; intros H; [apply exp_inv; lra|subst; lra].
Qed.
Lemma tail_genpareto0 z l : 1 - cdf (genpareto 0) z = exp l <-> l = - z.
Proof. cbn. unfold inv_boxcox1p. destruct (Req_EM_T (- 0) 0) as [_|E]; [|exfalso; apply E; ring]. unfold expm1. split; intros H; [apply exp_inv; lra|subst; lra]. Qed.
Lemma tail_loglog y l : 1 - exp (- exp y) = exp l <-> 0 < - expm1 l /\ ln (- expm1 l) < 0 /\ ln (- ln (- expm1 l)) = y.
Proof.
  rewrite tail_cdf by apply exp_pos. split.
  - intros H. rewrite H, ln_exp, Ropp_involutive, ln_exp. pose proof (exp_pos y). repeat split; [apply exp_pos|lra].
  - intros (P & N & H). apply ln_inv; [assumption|apply exp_pos|]. rewrite ln_exp. rewrite <- H, exp_ln by lra. lra.
Qed.
Lemma tail_gumbel z l : 1 - cdf gumbel_r z = exp l <-> 0 < - expm1 l /\ ln (- expm1 l) < 0 /\ ln (- ln (- expm1 l)) = - z.
Proof. cbn. apply tail_loglog. Qed.
Lemma tail_genextreme c z l : c <> 0 -> (1 - cdf (genextreme c) z = exp l <-> 0 < - expm1 l /\ ln (- expm1 l) < 0 /\ ln (- ln (- expm1 l)) = ln (1 - c * z) / c).
Proof. intros C. cbn. destruct (Req_EM_T c 0) as [E|_]; [contradiction|]. rewrite tail_loglog. unfold log1p. replace (1 + - c * z) with (1 - c * z) by ring. reflexivity. Qed.
Lemma tail_genextreme0 z l : 1 - cdf (genextreme 0) z = exp l <-> 0 < - expm1 l /\ ln (- expm1 l) < 0 /\ ln (- ln (- expm1 l)) = - z.
Proof. cbn. destruct (Req_EM_T 0 0) as [_|E]; [|exfalso; apply E; reflexivity]. apply tail_loglog. Qed.
Lemma tail_rayleigh z l : 1 - cdf rayleigh z = exp l <-> l = - (z * z) / 2.
Proof. cbn. unfold expm1. split; intros H; [apply exp_inv; replace (- (z * z) / 2) with (- / 2 * (z * (z * 1))) by field; lra|subst]. replace (- / 2 * (z * (z * 1))) with (- (z * z) / 2) by field. lra. Qed.
Lemma tail_trunc c z l : 1 - cdf (truncrayleigh c) z = exp l <-> l = - (z * z + 2 * c * z) / 2.
Proof. cbn. unfold expm1. replace (- ((z + c) * (z + c) - c * c) / 2) with (- (z * z + 2 * c * z) / 2) by field. split; intros H; [apply exp_inv; lra|subst; lra]. Qed.

(* the other parameters are those of phat *)
Lemma two (a b : R) l i : List.length l = 2%nat -> (forall j, j <> i -> nth j l 0 = nth j [a; b] 0) -> exists a' b', l = [a'; b'] /\ (i <> 0%nat -> a' = a) /\ (i <> 1%nat -> b' = b).
Proof. intros L H. destruct l as [|a' [|b' [|]]]; try discriminate L. exists a', b'. repeat split; intros N; [apply (H 0%nat)|apply (H 1%nat)]; auto. Qed.
Lemma three (a b c : R) l i : List.length l = 3%nat -> (forall j, j <> i -> nth j l 0 = nth j [a; b; c] 0) -> exists a' b' c', l = [a'; b'; c'] /\ (i <> 0%nat -> a' = a) /\ (i <> 1%nat -> b' = b) /\ (i <> 2%nat -> c' = c).
Proof. intros L H. destruct l as [|a' [|b' [|c' [|]]]]; try discriminate L. exists a', b', c'. repeat split; intros N; [apply (H 0%nat)|apply (H 1%nat)|apply (H 2%nat)]; auto. Qed.
Lemma four (a b c d : R) l i : List.length l = 4%nat -> (forall j, j <> i -> nth j l 0 = nth j [a; b; c; d] 0) ->
  exists a' b' c' d', l = [a'; b'; c'; d'] /\ (i <> 0%nat -> a' = a) /\ (i <> 1%nat -> b' = b) /\ (i <> 2%nat -> c' = c) /\ (i <> 3%nat -> d' = d).
Proof. intros L H. destruct l as [|a' [|b' [|c' [|d' [|]]]]]; try discriminate L. exists a', b', c', d'. repeat split; intros N; [apply (H 0%nat)|apply (H 1%nat)|apply (H 2%nat)|apply (H 3%nat)]; auto. Qed.

Lemma expon_recovers loc scale x l i : exceeds expon loc scale x l -> (i < 2)%nat -> recovers "expon" x l [loc; scale] i.
Proof.
  intros (S0 & I & H) Hi. apply tail_expon in H. unfold inside in I; cbn in I; destruct I as [I _]. eexists. split; [reflexivity|]. intros p L K.
  destruct (two loc scale p i L K) as (a & b & -> & A & B). pose proof (norm_scale x loc scale S0) as E. set (z := (x - loc) / scale) in *.
  destruct i as [|[|]]; [| |lia]; cbn.
  - rewrite (B ltac:(discriminate)). do 2 f_equal. rewrite H. unfold z. field. lra.
  - rewrite (A ltac:(discriminate)). rewrite fdiv_ok by lra. do 2 f_equal. rewrite E, H. field. lra.
Qed.
Lemma weibull_recovers name c loc scale x l i : name = "weibull_min"%string \/ name = "frechet_r"%string -> 0 < c -> exceeds (weibull_min c) loc scale x l ->
  i = 0%nat /\ x - loc <> scale \/ i = 1%nat \/ i = 2%nat -> recovers name x l [c; loc; scale] i.
Proof.
  intros N C (S0 & I & H) Hi. apply tail_weibull in H. unfold inside in I; cbn in I; destruct I as [I _]. exists weibull_min_link. split; [destruct N; subst name; reflexivity|]. clear name N. intros p L K.
  destruct (three c loc scale p i L K) as (a & b & d & -> & A & B & D). pose proof (norm_scale x loc scale S0) as E. pose proof (power_pos ((x - loc) / scale) c) as P. assert (C0 : c <> 0) by lra.
  destruct Hi as [[-> Hx]|[->| ->]]; cbn.
  - rewrite (B ltac:(discriminate)), (D ltac:(discriminate)), H, Ropp_involutive, flog_pos by assumption. cbn. rewrite fdiv_ok by lra. cbn. rewrite flog_pos by assumption. cbn.
    assert (ln ((x - loc) / scale) <> 0). { intros Z. apply Hx. rewrite <- ln_1 in Z. apply ln_inv in Z; [rewrite E, Z; ring|assumption|lra]. }
    rewrite fdiv_ok by assumption. do 2 f_equal. rewrite log_power. field. assumption.
  - rewrite (A ltac:(discriminate)), (D ltac:(discriminate)), H, Ropp_involutive, fdiv_ok by assumption. cbn. rewrite fpow_pos by assumption. cbn. do 2 f_equal. rewrite power_back by assumption. field. lra.
  - rewrite (A ltac:(discriminate)), (B ltac:(discriminate)), H, Ropp_involutive, fdiv_ok by assumption. cbn. rewrite fpow_pos by assumption. cbn. rewrite power_back by assumption.
    rewrite fdiv_ok by lra. do 2 f_equal. field. split; [lra|]. rewrite E. apply Rmult_integral_contrapositive; split; lra.
Qed.
Lemma burr_recovers c d loc scale x l : 0 < c -> 0 < d -> exceeds (burr c d) loc scale x l -> recovers "burr" x l [c; d; loc; scale] 1.
Proof.
  intros C D (S0 & I & H). apply tail_burr in H. destruct H as [P H]. unfold inside in I; cbn in I; destruct I as [I _]. eexists. split; [reflexivity|]. intros p L K.
  destruct (four c d loc scale p 1%nat L K) as (a & b & e & f & -> & A & _ & E & F). pose proof (power_pos ((x - loc) / scale) (- c)) as Q. cbn.
  rewrite (A ltac:(discriminate)), (E ltac:(discriminate)), (F ltac:(discriminate)), flog_pos by assumption. cbn. rewrite fdiv_ok by lra. cbn. rewrite fpow_pos by assumption. cbn. unfold flog1p.
  rewrite flog_pos by lra. cbn. assert (0 < ln (1 + ((x - loc) / scale) ^^ (- c))) by (rewrite <- ln_1; apply ln_increasing; lra). rewrite fdiv_ok by lra. do 2 f_equal. rewrite H. field. lra.
Qed.
Lemma exponweib_recovers a c loc scale x l : 0 < a -> 0 < c -> exceeds (exponweib a c) loc scale x l -> recovers "exponweib" x l [a; c; loc; scale] 0.
Proof.
  intros A0 C (S0 & I & H). apply tail_exponweib in H. destruct H as [P H]. unfold inside in I; cbn in I; destruct I as [I _]. eexists. split; [reflexivity|]. intros p L K.
  destruct (four a c loc scale p 0%nat L K) as (a' & b & e & f & -> & _ & A & E & F). pose proof (power_pos ((x - loc) / scale) c) as Q. cbn.
  rewrite (A ltac:(discriminate)), (E ltac:(discriminate)), (F ltac:(discriminate)), flog_pos by assumption. cbn. rewrite fdiv_ok by lra. cbn. rewrite fpow_pos by assumption. cbn.
  pose proof (expm1_neg (- ((x - loc) / scale) ^^ c) ltac:(lra)) as M. rewrite flog_pos by apply M. cbn.
  assert (ln (- expm1 (- ((x - loc) / scale) ^^ c)) < 0) by (rewrite <- ln_1; apply ln_increasing; apply M). rewrite fdiv_ok by lra. do 2 f_equal. rewrite H. field. lra.
Qed.
Lemma inside_genpareto c z : c <> 0 -> inside (genpareto c) z -> 0 < z /\ 0 < 1 + c * z.
Proof.
  intros C. unfold inside. cbn. destruct (Rlt_dec c 0); intros [I J]; (split; [assumption|]).
  - apply (Rmult_lt_compat_l (- c)) in J; [|lra]. replace (- c * (- 1 / c)) with 1 in J by (field; lra). lra.
  - assert (0 < c) by lra. pose proof (Rmult_lt_0_compat c z H I). lra.
Qed.
Lemma genpareto_recovers c loc scale x l : exceeds (genpareto c) loc scale x l -> recovers "genpareto" x l [c; loc; scale] 2 /\ (c = 0 -> recovers "genpareto" x l [c; loc; scale] 1).
Proof.
  intros (S0 & I & H). pose proof (norm_scale x loc scale S0) as E0. assert (J : 0 < (x - loc) / scale) by apply I. destruct (Req_EM_T c 0) as [->|C].
  - apply tail_genpareto0 in H. split; [|intros _]; (eexists; split; [reflexivity|]); intros p L K.
    + destruct (three 0 loc scale p 2%nat L K) as (a & b & d & -> & A & B & _). cbn. rewrite (A ltac:(discriminate)), (B ltac:(discriminate)). destruct (Req_EM_T 0 0) as [_|N]; [|exfalso; apply N; reflexivity].
      rewrite fdiv_ok by lra. do 2 f_equal. rewrite H. field. split; [lra|]. rewrite E0. apply Rmult_integral_contrapositive; split; lra.
    + destruct (three 0 loc scale p 1%nat L K) as (a & b & d & -> & A & _ & D). cbn. rewrite (A ltac:(discriminate)), (D ltac:(discriminate)). destruct (Req_EM_T 0 0) as [_|N]; [|exfalso; apply N; reflexivity].
      do 2 f_equal. rewrite H. field. lra.
  - destruct (inside_genpareto _ _ C I) as [_ J1]. apply tail_genpareto in H; [|assumption]. split; [|contradiction]. eexists; split; [reflexivity|]. intros p L K.
    destruct (three c loc scale p 2%nat L K) as (a & b & d & -> & A & B & _). cbn. rewrite (A ltac:(discriminate)), (B ltac:(discriminate)). destruct (Req_EM_T c 0) as [N|_]; [contradiction|].
    assert (M : expm1 (- c * l) = c * ((x - loc) / scale)). { rewrite H. unfold expm1. replace (- c * (- ln (1 + c * ((x - loc) / scale)) / c)) with (ln (1 + c * ((x - loc) / scale))) by (field; assumption). rewrite exp_ln by assumption. ring. }
    rewrite M. rewrite fdiv_ok by (apply Rmult_integral_contrapositive; split; lra). do 2 f_equal. field. repeat split; try lra. rewrite E0. apply Rmult_integral_contrapositive; split; lra.
Qed.
Lemma gumbel_recovers loc scale x l : exceeds gumbel_r loc scale x l -> x <> loc -> recovers "gumbel_r" x l [loc; scale] 1.
Proof.
  intros (S0 & I & H) X. apply tail_gumbel in H. destruct H as (P & N & H). eexists; split; [reflexivity|]. intros p L K. destruct (two loc scale p 1%nat L K) as (a & b & -> & A & _). cbn.
  rewrite (A ltac:(discriminate)), flog_pos by assumption. cbn. rewrite flog_pos by lra. cbn. rewrite H.
  assert ((x - loc) / scale <> 0) by (apply Rmult_integral_contrapositive; split; [lra|apply Rinv_neq_0_compat; lra]). rewrite fdiv_ok by lra. do 2 f_equal. field. repeat split; lra.
Qed.
Lemma inside_genextreme c z : c <> 0 -> inside (genextreme c) z -> 0 < 1 - c * z.
Proof.
  intros C. unfold inside. cbn. destruct (Rlt_dec c 0); [|destruct (Rlt_dec 0 c); [|lra]].
  - intros [I _]. apply (Rmult_lt_compat_l (- c)) in I; [|lra]. replace (- c * (1 / c)) with (- 1) in I by (field; lra). lra.
  - intros [_ I]. apply (Rmult_lt_compat_l c) in I; [|lra]. replace (c * (1 / c)) with 1 in I by (field; lra). lra.
Qed.
Lemma genextreme_recovers c loc scale x l : exceeds (genextreme c) loc scale x l -> x <> loc -> recovers "genextreme" x l [c; loc; scale] 2.
Proof.
  intros (S0 & I & H) X. assert (Z : (x - loc) / scale <> 0) by (apply Rmult_integral_contrapositive; split; [lra|apply Rinv_neq_0_compat; lra]).
  eexists; split; [reflexivity|]. intros p L K. destruct (three c loc scale p 2%nat L K) as (a & b & d & -> & A & B & _). cbn. rewrite (A ltac:(discriminate)), (B ltac:(discriminate)).
  destruct (Req_EM_T c 0) as [->|C].
  - apply tail_genextreme0 in H. destruct H as (P & N & H). rewrite flog_pos by assumption. cbn. rewrite flog_pos by lra. cbn. rewrite H. rewrite fdiv_ok by lra. do 2 f_equal. field. repeat split; lra.
  - pose proof (inside_genextreme _ _ C I) as J. apply tail_genextreme in H; [|assumption]. destruct H as (P & N & H). rewrite flog_pos by assumption. cbn. rewrite flog_pos by lra. cbn. rewrite H.
    destruct (Req_EM_T (- c) 0) as [E|_]; [exfalso; apply C; lra|].
    assert (M : expm1 (- - c * (ln (1 - c * ((x - loc) / scale)) / c)) = - c * ((x - loc) / scale)).
    { unfold expm1. replace (- - c * (ln (1 - c * ((x - loc) / scale)) / c)) with (ln (1 - c * ((x - loc) / scale))) by (field; assumption). rewrite exp_ln by assumption. ring. }
    rewrite M. rewrite fdiv_ok by (apply Rmult_integral_contrapositive; split; lra). do 2 f_equal. field. repeat split; try lra.
Qed.
Lemma rayleigh_recovers loc scale x l : exceeds rayleigh loc scale x l -> recovers "rayleigh" x l [loc; scale] 0.
Proof.
  intros (S0 & I & H). apply tail_rayleigh in H. unfold inside in I; cbn in I; destruct I as [I _]. eexists; split; [reflexivity|]. intros p L K. destruct (two loc scale p 0%nat L K) as (a & b & -> & _ & B). cbn.
  rewrite (B ltac:(discriminate)), H. set (z := (x - loc) / scale) in *. replace (-2 * (- (z * z) / 2)) with (z * z) by field. rewrite fsqrt_ok by nra. unfold lift1. rewrite sqrt_square by lra.
  do 2 f_equal. unfold z. field. lra.
Qed.
Lemma trunc_recovers c loc scale x l : 0 <= c -> exceeds (truncrayleigh c) loc scale x l -> recovers "trunclayleigh" x l [c; loc; scale] 1.
Proof.
  intros C (S0 & I & H). apply tail_trunc in H. unfold inside in I; cbn in I; destruct I as [I _]. eexists; split; [reflexivity|]. intros p L K. destruct (three c loc scale p 1%nat L K) as (a & b & d & -> & A & _ & D). cbn.
  rewrite (A ltac:(discriminate)), (D ltac:(discriminate)), H. set (z := (x - loc) / scale) in *. replace (c * c - 2 * (- (z * z + 2 * c * z) / 2)) with ((z + c) * (z + c)) by field.
  rewrite fsqrt_ok by nra. unfold lift1. rewrite sqrt_square by lra. do 2 f_equal. unfold z. field. lra.
Qed.
