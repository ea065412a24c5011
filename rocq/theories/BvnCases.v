From Coq Require Import Reals List ZArith Bool Lra Lia Psatz.
From Coquelicot Require Import Coquelicot.
From Verif Require Import RvModel RvnModel RvnProofs PolyModel BvnModel BvnSpec BvnProofs BvnProofs2 BvnProofs4.
Import ListNotations.
Local Open Scope R_scope.

Lemma not_elementwise : exists b b' v w, cdfnorm2d [b; b'] = [Some v; w] /\ v < 0 /\ (let '(b1, b2, r) := b in cdfnorm2 b1 b2 r) = Some (1 / 4).
Proof.
  destruct mixed as (w & E). exists (0, 0, 0), (0, 0, 95 / 100). do 2 eexists. split; [exact E|]. pose proof PI_RGT_0. split.
  - assert (0 < 1 / 4 / (2 * PI)) by (apply Rdiv_lt_0_compat; lra). unfold Rdiv in *. rewrite Ropp_mult_distr_l_reverse. lra.
  - rewrite at_zero, ndtr_0. f_equal. lra.
Qed.
Lemma rect_case : prbnorm2d cdfnorm2 (-1) (-2) 1 50 0 = Some ((ndtr 1 - ndtr (-1)) * (1 - ndtr (-2))).
Proof.
  rewrite rect_own; try lra; unfold everything; try lra.
  - unfold rectangle, lower, upper. destruct (Rlt_dec (-1) (- 37)); [lra|]. destruct (Rlt_dec 37 1); [lra|]. destruct (Rlt_dec (-2) (- 37)); [lra|]. destruct (Rlt_dec 37 50); [|lra]. cbn [below]. rewrite !at_zero. cbn [value]. f_equal. ring.
  - left. rewrite Rabs_R0. lra.
Qed.
Lemma arrays_case : cdfnorm2d [(1, 2, 1); (2, 1, 95 / 100); (0, 3, -1)] = [Some (ndtr 1); cdfnorm2 2 1 (95 / 100); Some (Rmax 0 (ndtr 0 - ndtr (- (3))))].
Proof.
  rewrite elementwise.
  - cbn [map]. rewrite at_one, at_minus_one. rewrite Rmin_left by lra. reflexivity.
  - right. intros q [<-|[<-|[<-|[]]]]; cbn [snd]; unfold Rabs; destruct (Rcase_abs _); lra.
Qed.
Lemma dependence_case : 1 / 4 < value (cdfnorm2 0 0 (9 / 10)).
Proof. replace (1 / 4) with (ndtr 0 * ndtr 0) by (rewrite ndtr_0; lra). apply dependence; [rewrite Rabs_right; lra|lra]. Qed.
Lemma lomax_case : value (cdflomax 0 (1 / 2) 4) = 1 / 4.
Proof.
  rewrite lomax_value by (rewrite Rabs_right; lra). cbn [value]. unfold lomax. cbv zeta. replace (1 / sqrt (1 - (1 / 2) ^ 2) * 0 / sqrt 4) with 0 by (unfold Rdiv; ring). rewrite Rmult_0_r, ndtr_0. replace (- 0 ^ 2 / 2 / 4) with 0 by field. rewrite exp_0. field.
Qed.
