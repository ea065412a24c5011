From Coq Require Import Reals Lra Lia List Bool Psatz.
From Coquelicot Require Import Coquelicot.
From Verif Require Import Base PolyModel KdeModel KdeSpec SeaSpec SeaProofs KernelModel KernelSpec KernelProofs TkdeModel TkdeSpec Subst.
Import ListNotations.
Local Open Scope R_scope.

(* substitution in one variable *)
Lemma half_ext f h l : (forall x, 0 < x -> f x = h x) -> half_integral f l -> half_integral h l.
Proof.
  intros E (H1 & H2). split.
  - intros a b Ha Hb. apply (ex_RInt_ext f); [|now apply H1]. intros x Hx. rewrite Rmin_left in Hx by easy. apply E. lra.
  - apply (is_lim_ext_loc (fun W => RInt f (/ W) W)); [|exact H2]. exists 1. intros W HW. apply RInt_ext. intros x Hx. assert (0 < / W) by (apply Rinv_0_lt_compat; lra). assert (/ W <= W). { apply Rle_trans with 1; [|lra]. rewrite <- Rinv_1. apply Rinv_le_contravar; lra. } rewrite Rmin_left in Hx by easy. apply E. lra.
Qed.
Lemma inv_le W : 1 < W -> 0 < / W /\ / W <= W.
Proof. intros H. assert (0 < / W) by (apply Rinv_0_lt_compat; lra). split; [easy|]. apply Rle_trans with 1; [|lra]. rewrite <- Rinv_1. apply Rinv_le_contravar; lra. Qed.
Lemma half_mult c f l : half_integral f l -> half_integral (fun x => c * f x) (c * l).
Proof.
  intros (H1 & H2). split.
  - intros a b Ha Hb. apply (ex_RInt_scal f). now apply H1.
  - apply (is_lim_ext_loc (fun W => c * RInt f (/ W) W)); [|now apply (is_lim_scal_l _ c p_infty l)]. exists 1. intros W HW. destruct (inv_le W HW). symmetry. apply (RInt_scal f). apply H1; lra.
Qed.
Lemma ln_area (g : R -> R) a b l : 0 < a -> a <= b -> area g (ln a) (ln b) l -> area (fun x => g (ln x) * / x) a b l.
Proof.
  intros Ha Hb. apply (substitution g ln (fun x => / x)); [easy| | |].
  - intros x Hx. auto_derive; lra.
  - intros x Hx. apply (ex_derive_continuous (fun x => / x)). auto_derive. lra.
  - intros x Hx. apply Rinv_0_lt_compat. lra.
Qed.
Lemma lim_ln : is_lim ln p_infty p_infty.
Proof. apply is_lim_ln_p. Qed.
Lemma half_log g l : line_integral g l -> half_integral (fun x => g (ln x) * / x) l.
Proof.
  intros (H1 & H2). split.
  - intros a b Ha Hb. exists (RInt g (ln a) (ln b)). apply ln_area; [easy|easy|]. apply (@RInt_correct R_CompleteNormedModule). apply H1.
  - apply (is_lim_ext_loc (fun W => RInt g (- ln W) (ln W))).
    + exists 1. intros W HW. destruct (inv_le W HW). symmetry. apply area_unique. apply ln_area; [easy|easy|]. rewrite ln_Rinv by lra. apply (@RInt_correct R_CompleteNormedModule). apply H1.
    + apply (is_lim_comp (fun V => RInt g (- V) V) ln p_infty l p_infty); [exact H2|apply lim_ln|]. exists 0. intros; discriminate.
Qed.
Lemma Rpower_derive v x : 0 < x -> is_derive (fun y => Rpower y v) x (v * Rpower x (v - 1)).
Proof.
  intros Hx. assert (Q : Rpower x (v - 1) = Rpower x v * / x). { unfold Rminus. rewrite Rpower_plus, Rpower_Ropp, Rpower_1 by easy. reflexivity. } rewrite Q. unfold Rpower. auto_derive; [easy|]. field. lra.
Qed.
Lemma Rpower_cont v x : 0 < x -> continuous (fun y => Rpower y v) x.
Proof. intros Hx. apply (ex_derive_continuous (fun y => Rpower y v)). exists (v * Rpower x (v - 1)). now apply Rpower_derive. Qed.
Lemma Rpower_pos x v : 0 < Rpower x v.
Proof. apply exp_pos. Qed.
(* the interval between the transformed end points, in increasing order *)
Lemma pow_area v (g : R -> R) a b l : v <> 0 -> 0 < a -> a <= b -> area g (if Rlt_dec v 0 then Rpower b v else Rpower a v) (if Rlt_dec v 0 then Rpower a v else Rpower b v) l ->
  area (fun x => g (Rpower x v) * (Rabs v * Rpower x (v - 1))) a b l.
Proof.
  intros Hv Ha Hb H. destruct (Rlt_dec v 0) as [N|N].
  - apply (is_RInt_ext (fun x => g (Rpower x v) * - (v * Rpower x (v - 1)))). { intros x _. rewrite Rabs_left by easy. now rewrite Ropp_mult_distr_l. }
    apply (substitution_down g (fun x => Rpower x v) (fun x => v * Rpower x (v - 1))); [easy| | | |exact H].
    + intros x Hx. apply Rpower_derive. lra.
    + intros x Hx. apply (continuous_mult (fun _ => v) (fun x => Rpower x (v - 1))); [apply continuous_const|]. apply Rpower_cont. lra.
    + intros x Hx. pose proof (Rpower_pos x (v - 1)). nra.
  - assert (0 < v) by lra. rewrite Rabs_right by lra. apply (substitution g (fun x => Rpower x v) (fun x => v * Rpower x (v - 1))); [easy| | | |exact H].
    + intros x Hx. apply Rpower_derive. lra.
    + intros x Hx. apply (continuous_mult (fun _ => v) (fun x => Rpower x (v - 1))); [apply continuous_const|]. apply Rpower_cont. lra.
    + intros x Hx. pose proof (Rpower_pos x (v - 1)). nra.
Qed.
Lemma Rpower_order v a b : 0 < a -> a <= b -> (if Rlt_dec v 0 then Rpower b v else Rpower a v) <= (if Rlt_dec v 0 then Rpower a v else Rpower b v).
Proof.
  intros Ha Hb. destruct (Rlt_dec v 0) as [N|N].
  - replace v with (- - v) by ring. rewrite !(Rpower_Ropp _ (- v)). apply Rinv_le_contravar; [apply Rpower_pos|]. apply Rle_Rpower_l; lra.
  - apply Rle_Rpower_l; lra.
Qed.
Lemma Rpower_to_inf w : 0 < w -> is_lim (fun W => Rpower W w) p_infty p_infty.
Proof.
  intros Hw. unfold Rpower. apply (is_lim_comp exp (fun W => w * ln W) p_infty p_infty p_infty); [apply is_lim_exp_p| |exists 0; intros; discriminate].
  assert (E : Rbar_mult w p_infty = p_infty). { cbn. destruct (Rle_dec 0 w) as [L|L]; [|lra]. destruct (Rle_lt_or_eq_dec 0 w L); [reflexivity|lra]. } pose proof (is_lim_scal_l ln w p_infty p_infty lim_ln) as Q. rewrite E in Q. exact Q.
Qed.
Lemma half_pow v g l : v <> 0 -> half_integral g l -> half_integral (fun x => g (Rpower x v) * (Rabs v * Rpower x (v - 1))) l.
Proof.
  intros Hv (H1 & H2). split.
  - intros a b Ha Hb. eexists. apply pow_area; [easy|easy|easy|]. apply (@RInt_correct R_CompleteNormedModule). apply H1; [destruct (Rlt_dec v 0); apply Rpower_pos|now apply Rpower_order].
  - apply (is_lim_ext_loc (fun W => RInt g (/ Rpower W (Rabs v)) (Rpower W (Rabs v)))).
    + exists 1. intros W HW. destruct (inv_le W HW) as (W1 & W2). symmetry. apply area_unique. apply pow_area; [easy|easy|easy|].
      assert (E1 : forall u, Rpower (/ W) u = / Rpower W u). { intros u. unfold Rpower. rewrite ln_Rinv by lra. rewrite <- exp_Ropp. f_equal. ring. }
      assert (E2 : (if Rlt_dec v 0 then Rpower W v else Rpower (/ W) v) = / Rpower W (Rabs v)). { destruct (Rlt_dec v 0); [rewrite Rabs_left, Rpower_Ropp, Rinv_inv by easy; reflexivity|rewrite Rabs_right by lra; apply E1]. }
      assert (E3 : (if Rlt_dec v 0 then Rpower (/ W) v else Rpower W v) = Rpower W (Rabs v)). { destruct (Rlt_dec v 0); [rewrite Rabs_left, Rpower_Ropp by easy; apply E1|rewrite Rabs_right by lra; reflexivity]. }
      rewrite E2, E3. apply (@RInt_correct R_CompleteNormedModule). assert (P1 : 1 < Rpower W (Rabs v)). { rewrite <- (Rpower_O W) by lra. apply Rpower_lt; [easy|]. now apply Rabs_pos_lt. } destruct (inv_le _ P1). apply H1; lra.
    + apply (is_lim_comp (fun V => RInt g (/ V) V) (fun W => Rpower W (Rabs v)) p_infty l p_infty); [exact H2|apply Rpower_to_inf; now apply Rabs_pos_lt|]. exists 0. intros; discriminate.
Qed.
(* the factor of the model *)
Lemma scale1_value x v : 0 < x -> v <> 0 -> scale1 x v = Rabs v * Rpower x (v - 1).
Proof.
  intros Hx Hv. unfold scale1, power. destruct (Req_EM_T v 0) as [E|_]; [contradiction|]. destruct (Req_EM_T v 1) as [E|_].
  - subst. rewrite Rminus_eq_0. rewrite Rpower_O by easy. rewrite Rabs_R1. ring.
  - assert (F : v * (if Rlt_dec v 0 then -1 else 1) = Rabs v). { destruct (Rlt_dec v 0); [rewrite Rabs_left by easy|rewrite Rabs_right by lra]; ring. } rewrite F. destruct (Req_EM_T (v - 1) 1) as [E|_]; [rewrite E, Rpower_1 by easy|]; ring.
Qed.
Lemma scale1_log x : 0 < x -> scale1 x 0 = / x.
Proof.
  intros Hx. unfold scale1, power. destruct (Req_EM_T 0 0) as [_|E]; [|congruence]. destruct (Req_EM_T 0 1); [lra|]. destruct (Req_EM_T (0 - 1) 1); [lra|]. replace (0 - 1) with (- (1)) by ring. rewrite Rpower_Ropp, Rpower_1 by easy. ring.
Qed.
Lemma scale1_one x : scale1 x 1 = 1.
Proof. unfold scale1. destruct (Req_EM_T 1 1); [reflexivity|congruence]. Qed.
Lemma change_derive v x : domain v x -> exists dt, is_derive (change v) x dt /\ scale1 x v = Rabs dt.
Proof.
  intros D. destruct (Req_EM_T v 1) as [E|E].
  - exists 1. subst. rewrite scale1_one, Rabs_R1. split; [|reflexivity]. apply (is_derive_ext (fun x => x)); [intros t; unfold change; destruct (Req_EM_T 1 0); [lra|]; destruct (Req_EM_T 1 1); [reflexivity|congruence]|]. apply (is_derive_id (K := R_AbsRing)).
  - destruct D as [D|D]; [contradiction|]. destruct (Req_EM_T v 0) as [Z|Z].
    + exists (/ x). subst. rewrite scale1_log by easy. split; [|rewrite Rabs_right; [reflexivity|apply Rle_ge; left; now apply Rinv_0_lt_compat]]. apply (is_derive_ext ln); [intros t; unfold change; destruct (Req_EM_T 0 0); [reflexivity|congruence]|]. auto_derive; lra.
    + exists (v * Rpower x (v - 1)). split; [|rewrite scale1_value, Rabs_mult by easy; rewrite (Rabs_right (Rpower x (v - 1))); [reflexivity|apply Rle_ge; left; apply Rpower_pos]].
      apply (is_derive_ext (fun y => Rpower y v)); [|now apply Rpower_derive]. intros t. unfold change. destruct (Req_EM_T v 0); [contradiction|]. destruct (Req_EM_T v 1); [contradiction|reflexivity].
Qed.
Lemma domain_change v g l : range_integral v g l -> domain_integral v (fun x => g (change v x) * scale1 x v) l.
Proof.
  unfold range_integral, domain_integral, change. destruct (Req_EM_T v 0) as [Z|Z].
  - subst. destruct (Req_EM_T 0 1); [lra|]. intros H. apply (half_ext (fun x => g (ln x) * / x)); [|now apply half_log]. intros x Hx. now rewrite scale1_log.
  - destruct (Req_EM_T v 1) as [E|E].
    + subst. apply line_ext. intros x. rewrite scale1_one. ring.
    + intros H. apply (half_ext (fun x => g (Rpower x v) * (Rabs v * Rpower x (v - 1)))); [|now apply half_pow]. intros x Hx. now rewrite scale1_value.
Qed.
Lemma domain_mult v c f l : domain_integral v f l -> domain_integral v (fun x => c * f x) (c * l).
Proof. unfold domain_integral. destruct (Req_EM_T v 1); [apply line_mult|apply half_mult]. Qed.
Lemma domains_mult L2 : forall c f l, domain_integrals L2 f l -> domain_integrals L2 (fun x => c * f x) (c * l).
Proof.
  induction L2 as [|v r IH]; intros c f l; cbn [domain_integrals].
  - now intros ->.
  - intros (g & H1 & H2). exists (fun x => c * g x). split; [|now apply domain_mult]. intros x Hx. apply (IH c (fun q => f (x :: q))). now apply H1.
Qed.
Lemma domains_ext L2 : forall f h l, (forall p, in_domain L2 p -> f p = h p) -> domain_integrals L2 f l -> domain_integrals L2 h l.
Proof.
  induction L2 as [|v r IH]; intros f h l E; cbn [domain_integrals].
  - intros <-. symmetry. apply E. constructor.
  - intros (g & H1 & H2). exists g. split; [|easy]. intros x Hx. apply (IH (fun q => f (x :: q))); [|now apply H1]. intros p Hp. apply E. now constructor.
Qed.
(* several variables *)
Lemma change_integrals L2 : forall G l, range_integrals L2 G l -> domain_integrals L2 (fun p => G (change_point L2 p) * prodl (zip_with scale1 p L2)) l.
Proof.
  induction L2 as [|v r IH]; intros G l; cbn [range_integrals domain_integrals].
  - intros <-. unfold zip_with, prodl. cbn. ring.
  - intros (g & H1 & H2). exists (fun x => g (change v x) * scale1 x v). split; [|now apply domain_change]. intros x Hx. specialize (H1 (change v x)). apply IH in H1. apply (domains_mult r (scale1 x v)) in H1. rewrite Rmult_comm. apply (domains_ext r) with (2 := H1). intros p Hp. unfold zip_with, prodl. cbn. ring.
Qed.
Lemma range_space L2 : (forall v, In v L2 -> v = 0 \/ v = 1) -> forall G l, space_integral (List.length L2) G l -> range_integrals L2 G l.
Proof.
  induction L2 as [|v r IH]; intros H G l; cbn [List.length space_integral range_integrals]; [easy|]. intros (g & H1 & H2). exists g. split; [intros x; apply IH; [intros u Hu; apply H; now right|apply H1]|]. unfold range_integral. destruct (H v ltac:(now left)) as [->| ->].
  - destruct (Req_EM_T 0 0); [easy|congruence].
  - destruct (Req_EM_T 1 0); [lra|]. destruct (Req_EM_T 1 1); [easy|congruence].
Qed.
