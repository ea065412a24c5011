From Coq Require Import Reals Lra Lia Psatz.
From Coquelicot Require Import Coquelicot.
From Verif Require Import GammaProofs SeaCases KernelProofs3 RvModel RvSpec RvProofs RvProofs2 RvProofs3 RvnModel.
Local Open Scope R_scope.

Lemma div_cancel (a s : R) : 0 < s -> a / s * s = a. Proof. intros. field. lra. Qed.
Lemma root2pi : 0 < sqrt (2 * PI). Proof. apply sqrt_lt_R0. pose proof PI_RGT_0. lra. Qed.
Lemma root2pi_sq : sqrt (2 * PI) * sqrt (2 * PI) = 2 * PI. Proof. apply sqrt_sqrt. pose proof PI_RGT_0. lra. Qed.
Lemma norm_pdf_bell x : norm_pdf x = bell x / sqrt (2 * PI).
Proof. unfold norm_pdf, bell, norm_pdf_C. do 2 f_equal. field. Qed.
Lemma norm_pdf_pos x : 0 < norm_pdf x. Proof. rewrite norm_pdf_bell. apply div_pos; [apply exp_pos|apply root2pi]. Qed.
Lemma norm_pdf_even x : norm_pdf (- x) = norm_pdf x. Proof. unfold norm_pdf. do 3 f_equal. ring. Qed.
Lemma norm_log x : exp (norm_logpdf x) = norm_pdf x.
Proof. unfold norm_logpdf, norm_pdf, norm_pdf_logC. rewrite exp_minus, exp_ln by apply root2pi. reflexivity. Qed.
Lemma ndtr_derive x : is_derive ndtr x (norm_pdf x).
Proof.
  rewrite norm_pdf_bell. unfold ndtr. fold bell. assert (D : is_derive (fun y => RInt bell 0 y) x (bell x)).
  { apply (is_derive_RInt bell (fun y => RInt bell 0 y) 0 x); [|apply bell_cont]. exists (mkposreal 1 Rlt_0_1). intros y _. apply (@RInt_correct R_CompleteNormedModule). apply bell_ex. }
  apply (is_derive_ext (fun y => / 2 + / sqrt (2 * PI) * RInt bell 0 y)); [intros t; unfold Rdiv; apply f_equal2; [reflexivity|apply Rmult_comm]|].
  replace (bell x / sqrt (2 * PI)) with (plus 0 (/ sqrt (2 * PI) * bell x)). 2: { unfold plus; cbn. unfold Rdiv. ring. }
  apply (is_derive_plus (fun _ => / 2)); [apply (@is_derive_const R_AbsRing R_NormedModule)|]. apply (is_derive_scal (fun y => RInt bell 0 y) x (/ sqrt (2 * PI)) (bell x) D).
Qed.
Lemma ndtr_increasing x y : x < y -> ndtr x < ndtr y.
Proof.
  intros L. destruct (MVT_gen ndtr x y norm_pdf) as (c & Hc & E).
  - intros t _. apply ndtr_derive.
  - intros t _. apply continuity_pt_filterlim, (ex_derive_continuous ndtr). eexists. apply ndtr_derive.
  - pose proof (norm_pdf_pos c). nra.
Qed.
Lemma ndtr_iff x y : x < y <-> ndtr x < ndtr y.
Proof. split; [apply ndtr_increasing|]. intros L. destruct (Rtotal_order x y) as [A|[->|A]]; [exact A|lra|]. apply ndtr_increasing in A. lra. Qed.
Lemma ndtr_neg x : ndtr (- x) = 1 - ndtr x.
Proof.
  assert (E : RInt bell 0 (- x) = - RInt bell 0 x).
  { assert (C : is_RInt (fun y => scal (-1) (bell (-1 * y + 0))) 0 x (RInt bell 0 (- x))). { replace (RInt bell 0 (- x)) with (RInt bell (-1 * 0 + 0) (-1 * x + 0)) by (f_equal; ring). apply (is_RInt_comp_lin bell (-1) 0 0 x). apply (@RInt_correct R_CompleteNormedModule). apply bell_ex. }
    apply (is_RInt_ext _ (fun y => opp (bell y))) in C. 2: { intros y _. unfold opp, scal; cbn. unfold mult; cbn. unfold bell. replace ((-1 * y + 0) ^ 2 / 2) with (y ^ 2 / 2) by field. ring. }
    assert (B : is_RInt (fun y => opp (bell y)) 0 x (opp (RInt bell 0 x))) by (apply (is_RInt_opp bell); apply (@RInt_correct R_CompleteNormedModule); apply bell_ex).
    rewrite <- (is_RInt_unique _ _ _ _ C). exact (is_RInt_unique _ _ _ _ B). }
  unfold ndtr. fold bell. rewrite E. field. apply Rgt_not_eq, root2pi.
Qed.
Lemma ndtr_0 : ndtr 0 = / 2. Proof. unfold ndtr. fold bell. assert (E : RInt bell 0 0 = 0) by exact (RInt_point 0 bell). rewrite E. unfold Rdiv. ring. Qed.
Lemma ndtr_top e : 0 < e -> exists x, 1 - e < ndtr x.
Proof.
  intros He. pose proof root2pi as P. pose proof PI_RGT_0. assert (S2 : 0 < sqrt 2) by (apply sqrt_lt_R0; lra). pose proof (bell_half gammaln_real gammaln_real_ok) as L. apply is_lim_spec in L. cbn in L.
  assert (He' : 0 < e * sqrt (2 * PI)) by nra. destruct (L (mkposreal _ He')) as (M & HM). cbn in HM. exists (M + 1). specialize (HM (M + 1) ltac:(lra)). apply Rabs_def2 in HM. destruct HM as [_ HM].
  assert (E : sqrt PI / sqrt 2 = / 2 * sqrt (2 * PI)). { rewrite sqrt_mult by lra. assert (Q2 : sqrt 2 * sqrt 2 = 2) by (apply sqrt_sqrt; lra). replace (sqrt PI / sqrt 2) with (sqrt PI * (sqrt 2 * sqrt 2) / 2 / sqrt 2) by (rewrite Q2; field; lra). field. lra. }
  rewrite E in HM. unfold ndtr. fold bell. assert (K : forall J : R, - (e * sqrt (2 * PI)) < J - / 2 * sqrt (2 * PI) -> 1 - e < / 2 + J / sqrt (2 * PI)). { intros J HJ. assert (Q : / 2 - e < J / sqrt (2 * PI)); [|lra]. apply (Rmult_lt_reg_r (sqrt (2 * PI))); [exact P|]. rewrite (div_cancel J) by exact P. lra. } exact (K _ HM).
Qed.
Lemma ndtr_lt1 x : ndtr x <= 1.
Proof.
  pose proof root2pi as P. pose proof PI_RGT_0. assert (S2 : 0 < sqrt 2) by (apply sqrt_lt_R0; lra). pose proof (bell_half gammaln_real gammaln_real_ok) as L. apply is_lim_spec in L. cbn in L.
  destruct (Rle_dec (ndtr x) 1) as [A|A]; [exact A|]. exfalso. set (e := ndtr x - 1). assert (He : 0 < e * sqrt (2 * PI)) by (unfold e; nra). destruct (L (mkposreal _ He)) as (M & HM). cbn in HM. set (y := Rmax (M + 1) x). specialize (HM y ltac:(unfold y; pose proof (Rmax_l (M + 1) x); lra)). apply Rabs_def2 in HM. destruct HM as [HM _].
  assert (E : sqrt PI / sqrt 2 = / 2 * sqrt (2 * PI)). { rewrite sqrt_mult by lra. assert (Q2 : sqrt 2 * sqrt 2 = 2) by (apply sqrt_sqrt; lra). replace (sqrt PI / sqrt 2) with (sqrt PI * (sqrt 2 * sqrt 2) / 2 / sqrt 2) by (rewrite Q2; field; lra). field. lra. }
  rewrite E in HM. assert (Y : ndtr x <= ndtr y). { destruct (Rle_lt_or_eq_dec x y (Rmax_r _ _)) as [B|B]; [apply ndtr_increasing in B; lra|rewrite <- B; lra]. }
  unfold ndtr in Y at 2. fold bell in Y. assert (K : forall J : R, J - / 2 * sqrt (2 * PI) < e * sqrt (2 * PI) -> / 2 + J / sqrt (2 * PI) < 1 + e). { intros J HJ. assert (Q : J / sqrt (2 * PI) < / 2 + e); [|lra]. apply (Rmult_lt_reg_r (sqrt (2 * PI))); [exact P|]. rewrite (div_cancel J) by exact P. lra. } specialize (K _ HM). unfold e in K. apply (Rlt_irrefl (ndtr x)). eapply Rle_lt_trans; [exact Y|]. eapply Rlt_le_trans; [exact K|]. lra.
Qed.
Lemma ndtr_values x : 0 < ndtr x < 1.
Proof.
  assert (T : forall y, ndtr y < 1). { intros y. apply Rlt_le_trans with (ndtr (y + 1)); [apply ndtr_increasing; lra|apply ndtr_lt1]. }
  split; [|apply T]. pose proof (T (- x)). rewrite ndtr_neg in *. lra.
Qed.
Lemma ndtr_onto q : 0 < q < 1 -> exists x, ndtr x = q.
Proof.
  intros Hq. destruct (ndtr_top (1 - q)) as (b & Hb); [lra|]. destruct (ndtr_top q) as (a & Ha); [lra|]. assert (Ha' : ndtr (- a) < q) by (rewrite ndtr_neg; lra). assert (L : - a < b) by (apply ndtr_iff; lra).
  destruct (IVT (fun x => ndtr x - q) (- a) b) as (z & _ & Hz); [|exact L|lra|lra|exists z; lra].
  intros x. apply continuity_pt_minus; [|apply continuity_pt_const; intros ? ?; reflexivity]. apply continuity_pt_filterlim, (ex_derive_continuous ndtr). eexists. apply ndtr_derive.
Qed.
Lemma ndtr_ndtri q : 0 < q < 1 -> ndtr (ndtri q) = q.
Proof.
  intros Hq. destruct (ndtr_onto q Hq) as (z & Hz). unfold ndtri. rewrite (is_lub_Rbar_unique _ z); [exact Hz|]. split.
  - intros x Hx. cbn. destruct (Rle_dec x z) as [A|A]; [exact A|]. exfalso. assert (B : z < x) by lra. apply ndtr_increasing in B. lra.
  - intros b Hb. apply Hb. lra.
Qed.
Lemma ndtri_ndtr x : ndtri (ndtr x) = x.
Proof.
  pose proof (ndtr_ndtri (ndtr x) (ndtr_values x)) as E. destruct (Rtotal_order (ndtri (ndtr x)) x) as [A|[A|A]]; [|exact A|]; apply ndtr_increasing in A; lra.
Qed.
Lemma ndtri_neg q : 0 < q < 1 -> ndtri (1 - q) = - ndtri q.
Proof. intros Hq. rewrite <- (ndtri_ndtr (- ndtri q)). rewrite ndtr_neg, ndtr_ndtri by exact Hq. reflexivity. Qed.
Lemma ndtri_half q : / 2 < q < 1 -> 0 < ndtri q.
Proof. intros Hq. apply ndtr_iff. rewrite ndtr_0, ndtr_ndtri by lra. lra. Qed.
Lemma ndtr_half x : 0 < x -> / 2 < ndtr x. Proof. intros H. rewrite <- ndtr_0. now apply ndtr_increasing. Qed.

(* the integral of the error function *)
Lemma erfc_ndtr x : erfc (x / sqrt 2) = 2 * ndtr (- x).
Proof.
  pose proof PI_RGT_0 as HP. assert (S2 : 0 < sqrt 2) by (apply sqrt_lt_R0; lra). assert (SP : 0 < sqrt PI) by (apply sqrt_lt_R0; lra). assert (Q2 : sqrt 2 * sqrt 2 = 2) by (apply sqrt_sqrt; lra). rewrite ndtr_neg. unfold erfc, ndtr. fold bell.
  assert (E : RInt (fun t => exp (- t ^ 2)) 0 (x / sqrt 2) = / sqrt 2 * RInt bell 0 x).
  { set (f := fun t => exp (- t ^ 2)). assert (C : is_RInt (fun y => scal (/ sqrt 2) (f (/ sqrt 2 * y + 0))) 0 x (RInt f 0 (x / sqrt 2))). { replace (RInt f 0 (x / sqrt 2)) with (RInt f (/ sqrt 2 * 0 + 0) (/ sqrt 2 * x + 0)) by (f_equal; field; lra). apply (is_RInt_comp_lin f (/ sqrt 2) 0 0 x). apply (@RInt_correct R_CompleteNormedModule). apply (@ex_RInt_continuous R_CompleteNormedModule). intros z _. apply (ex_derive_continuous (V := R_NormedModule)). unfold f. auto_derive. exact I. }
    apply (is_RInt_ext _ (fun y => scal (/ sqrt 2) (bell y))) in C. 2: { intros y _. unfold f, bell. do 3 f_equal. replace ((/ sqrt 2 * y + 0) ^ 2) with (y ^ 2 / (sqrt 2 * sqrt 2)) by (field; lra). now rewrite Q2. }
    assert (B : is_RInt (fun y => scal (/ sqrt 2) (bell y)) 0 x (scal (/ sqrt 2) (RInt bell 0 x))) by (apply (is_RInt_scal bell); apply (@RInt_correct R_CompleteNormedModule); apply bell_ex).
    rewrite <- (is_RInt_unique _ _ _ _ C). exact (is_RInt_unique _ _ _ _ B). }
  rewrite E. rewrite sqrt_mult by lra. field. lra.
Qed.
