From Coq Require Import Reals Lra Lia.
From Coquelicot Require Import RInt Hierarchy Derive Continuity RInt_analysis.
From Verif Require Import Base PolyModel PolySpec OrthoModel QuadModel QuadSpec QuadProofs QuadProofs2 QuadProofs3 QuadProofs4 ChebProofs3 AdaptModel AdaptSpec.
Local Open Scope R_scope.
Notation is_int := (is_RInt (V := R_NormedModule)).

(* ---- improper integrals under affine maps ---- *)
Lemma improper_affine (g : R -> R) lo hi u v I : 0 < u -> improper_integral g lo hi I ->
  improper_integral (fun x => g ((x - v) / u)) (u * lo + v) (u * hi + v) (u * I).
Proof.
  intros Hu H e He. destruct (H (e / u)) as (del & Hd & Hdel).
  { apply Rdiv_lt_0_compat; lra. }
  exists (u * del). split; [apply Rmult_lt_0_compat; lra|].
  intros x y Hx Hx' Hy Hy'.
  assert (L : forall s t, s < u * t + v -> (s - v) / u < t).
  { intros s t Hst. apply Rmult_lt_reg_l with u; [lra|]. replace (u * ((s - v) / u)) with (s - v) by (field; lra). lra. }
  assert (G : forall s t, u * t + v < s -> t < (s - v) / u).
  { intros s t Hst. apply Rmult_lt_reg_l with u; [lra|]. replace (u * ((s - v) / u)) with (s - v) by (field; lra). lra. }
  destruct (Hdel ((x - v) / u) ((y - v) / u)) as (J & HJ & HJI).
  - split; [apply G; lra|apply L; rewrite Rmult_plus_distr_l; lra].
  - apply L; lra.
  - split; [apply G; unfold Rminus; rewrite Rmult_plus_distr_l; lra|apply L; lra].
  - apply G; lra.
  - exists (u * J). split.
    + unfold integral in *.
      assert (K : is_int (fun t => g (/ u * t + - v / u)) x y (u * J)).
      { eapply is_int_ext; [|eapply is_int_val; [apply (is_RInt_scal (V := R_NormedModule) (fun t => scal (/ u) (g (/ u * t + - v / u))) x y u J)|]].
        - intros t. unfold scal; cbn; unfold mult; cbn. field; lra.
        - apply (is_RInt_comp_lin (V := R_NormedModule)).
          replace (/ u * x + - v / u) with ((x - v) / u) by (field; lra).
          replace (/ u * y + - v / u) with ((y - v) / u) by (field; lra). exact HJ.
        - reflexivity. }
      eapply is_int_ext; [|exact K]. intros t. cbn. f_equal. field; lra.
    + replace (u * J - u * I) with (u * (J - I)) by ring. rewrite Rabs_mult, (Rabs_right u) by lra.
      apply Rmult_lt_reg_l with (/ u); [apply Rinv_0_lt_compat; lra|].
      replace (/ u * (u * Rabs (J - I))) with (Rabs (J - I)) by (field; lra). replace (/ u * e) with (e / u) by (field; lra). exact HJI.
Qed.
Lemma improper_ext_in (f g : R -> R) a b I : (forall x, a < x < b -> f x = g x) -> improper_integral f a b I -> improper_integral g a b I.
Proof.
  intros E H e He. destruct (H e He) as (del & Hd & Hdel). exists del. split; [exact Hd|].
  intros u v Hu Hu' Hv Hv'. destruct (Hdel u v Hu Hu' Hv Hv') as (J & HJ & HJI). exists J. split; [|exact HJI].
  unfold integral in *. apply (is_RInt_ext (V := R_NormedModule) f); [|exact HJ].
  intros x Hx. apply E.
  assert (a < Rmin u v) by (apply Rmin_glb_lt; lra). assert (Rmax u v < b) by (apply Rmax_lub_lt; lra). lra.
Qed.
Lemma improper_scal (f : R -> R) a b I c : improper_integral f a b I -> improper_integral (fun x => c * f x) a b (c * I).
Proof.
  intros H e He. destruct (H (e / (Rabs c + 1))) as (del & Hd & Hdel).
  { apply Rdiv_lt_0_compat; [lra|pose proof (Rabs_pos c); lra]. }
  exists del. split; [exact Hd|].
  intros u v Hu Hu' Hv Hv'. destruct (Hdel u v Hu Hu' Hv Hv') as (J & HJ & HJI). exists (c * J). split.
  - apply (is_RInt_scal (V := R_NormedModule) f u v c J HJ).
  - replace (c * J - c * I) with (c * (J - I)) by ring. rewrite Rabs_mult. pose proof (Rabs_pos c). pose proof (Rabs_pos (J - I)).
    apply Rle_lt_trans with ((Rabs c + 1) * Rabs (J - I)); [nra|].
    apply Rmult_lt_reg_l with (/ (Rabs c + 1)); [apply Rinv_0_lt_compat; lra|].
    replace (/ (Rabs c + 1) * ((Rabs c + 1) * Rabs (J - I))) with (Rabs (J - I)) by (field; lra).
    replace (/ (Rabs c + 1) * e) with (e / (Rabs c + 1)) by (field; lra). exact HJI.
Qed.
Lemma compose_uv p u v : exists q, (List.length q <= List.length p)%nat /\ forall y, peval q y = peval p (u * y + v).
Proof.
  destruct (compose_affine p (v - u) (v + u)) as (q & L & H). exists q. split; [exact L|].
  intros y. rewrite H. f_equal. unfold map_to_interval. field.
Qed.

(* ---- one estimate ---- *)
Lemma osum_some weights (x : list R) (f : R -> R) : osum weights (map (fun t => Some (f t)) x) = Some (rule_sum x weights f).
Proof. revert x. induction weights as [|w ws IH]; intros [|t x]; cbn; auto. rewrite IH. reflexivity. Qed.
Lemma sqrt_scale2 u s : 0 < u -> 0 <= s -> sqrt (u * u * s) = u * sqrt s.
Proof. intros. rewrite sqrt_mult by nra. rewrite sqrt_square by lra. reflexivity. Qed.
Lemma estimate_core N (w0 w : R -> R) rule p lo hi u v d : 0 < u -> (List.length p <= N)%nat -> exact_for N w0 lo hi rule ->
  (forall t, lo < t < hi -> w (u * t + v) = d / u * w0 t) ->
  improper_integral (fun x => w x * peval p x) (u * lo + v) (u * hi + v) (d * rule_sum (fst rule) (snd rule) (fun t => peval p (u * t + v))).
Proof.
  intros Hu Lp HE Hw. destruct (compose_uv p u v) as (q & Lq & Hq).
  pose proof (improper_scal _ _ _ _ (d / u) (improper_affine _ lo hi u v _ Hu (HE q ltac:(lia)))) as G.
  eapply improper_ext; [|eapply improper_ext_in; [|exact G]].
  - assert (E : rule_sum (fst rule) (snd rule) (peval q) = rule_sum (fst rule) (snd rule) (fun t => peval p (u * t + v))).
    { apply rule_sum_ext_in. intros; apply Hq. }
    rewrite E. field; lra.
  - intros x Hx. cbv beta. rewrite Hq. replace (u * ((x - v) / u) + v) with x by (field; lra).
    rewrite <- Rmult_assoc. f_equal. symmetry.
    replace (w x) with (w (u * ((x - v) / u) + v)) by (f_equal; field; lra). apply Hw. split.
    + apply Rmult_lt_reg_l with u; [lra|]. replace (u * ((x - v) / u)) with (x - v) by (field; lra). lra.
    + apply Rmult_lt_reg_l with u; [lra|]. replace (u * ((x - v) / u)) with (x - v) by (field; lra). lra.
Qed.
Lemma estimate_exact wfun alpha beta N rule p a b : finite_interval_weight wfun -> a < b -> (List.length p <= N)%nat ->
  exact_for N (base_weight wfun alpha beta) (rule_lo wfun) 1 rule ->
  exists I, gq_estimate wfun alpha beta rule (fun x => Some (peval p x)) a b = Some I /\
    improper_integral (fun x => real_weight wfun alpha beta a b x * peval p x) a b I.
Proof.
  intros Hw Hab Lp HE.
  assert (X : forall u v d, 0 < u -> u * rule_lo wfun + v = a -> u * 1 + v = b ->
     (forall t, rule_lo wfun < t < 1 -> real_weight wfun alpha beta a b (u * t + v) = d / u * base_weight wfun alpha beta t) ->
     improper_integral (fun x => real_weight wfun alpha beta a b x * peval p x) a b (d * rule_sum (fst rule) (snd rule) (fun t => peval p (u * t + v)))).
  { intros u v d Hu E1 E2 Hr. pose proof (estimate_core N (base_weight wfun alpha beta) (real_weight wfun alpha beta a b) rule p _ _ u v d Hu Lp HE Hr) as G. rewrite E1, E2 in G. exact G. }
  assert (Y : forall jac sh, gq_estimate wfun alpha beta rule (fun x => Some (peval p x)) a b =
     (if in_list wfun [2;3]%nat then gq_estimate wfun alpha beta rule (fun x => Some (peval p x)) a b else
      oscale (gq_dx wfun jac alpha beta) (Some (rule_sum (fst rule) (snd rule) (fun t => peval p ((t + sh) * jac + a))))) \/
      jac <> gq_jacob wfun a b \/ sh <> (if in_list wfun [1; 4; 5; 6]%nat then 1 else 0)).
  { intros jac sh. destruct (Req_dec jac (gq_jacob wfun a b)) as [->|]; [|auto].
    destruct (Req_dec sh (if in_list wfun [1; 4; 5; 6]%nat then 1 else 0)) as [->|]; [|auto]. left.
    destruct (in_list wfun [2;3]%nat) eqn:E; [reflexivity|]. unfold gq_estimate. rewrite E.
    rewrite (map_map (fun t => _) (fun x => Some (peval p x))).
    rewrite (osum_some (snd rule) (fst rule) (fun t => peval p ((t + _) * _ + a))). reflexivity. }
  assert (S2 : forall t, sqrt t * sqrt t = t \/ t < 0).
  { intros t. destruct (Rlt_dec t 0); [auto|left; apply sqrt_sqrt; lra]. }
  unfold finite_interval_weight in Hw. cbn [In] in Hw.
  destruct Hw as [<-|[<-|[<-|[<-|[<-|[<-|[<-|[]]]]]]]].
  - destruct (Y ((b - a) * (1/2)) 1) as [->|[C|C]]; [|exfalso; apply C; reflexivity..]. cbn [in_list existsb Nat.eqb orb oscale option_map gq_dx].
    eexists. split; [reflexivity|]. eapply improper_ext; [|apply (X ((b - a) * (1/2)) ((a + b) / 2) ((b - a) * (1/2)))].
    + f_equal. apply rule_sum_ext_in. intros x _. f_equal. field.
    + lra.
    + cbn [rule_lo]. field.
    + field.
    + intros t Ht. unfold real_weight, base_weight, doc_weight. cbn. field; lra.
  - destruct (Y ((b - a) * (1/2)) 1) as [->|[C|C]]; [|exfalso; apply C; reflexivity..]. cbn [in_list existsb Nat.eqb orb oscale option_map gq_dx].
    eexists. split; [reflexivity|]. eapply improper_ext; [|apply (X ((b - a) * (1/2)) ((a + b) / 2) (Rpower ((b - a) * (1/2)) (alpha + beta + 1)))].
    + f_equal. apply rule_sum_ext_in. intros x _. f_equal. field.
    + lra.
    + cbn [rule_lo]. field.
    + field.
    + intros t Ht. cbn [rule_lo] in Ht. unfold real_weight, base_weight. cbn [Nat.eqb]. set (u := (b - a) * (1/2)). assert (Hu : 0 < u) by (unfold u; lra).
      replace (b - (u * t + (a + b) / 2)) with (u * (1 - t)) by (unfold u; field).
      replace (u * t + (a + b) / 2 - a) with (u * (t - -1)) by (unfold u; field).
      rewrite <- !Rpower_mult_distr by lra. rewrite !Rpower_plus, Rpower_1 by lra. field; lra.
  - destruct (Y ((b - a) * (1/2)) 1) as [->|[C|C]]; [|exfalso; apply C; reflexivity..]. cbn [in_list existsb Nat.eqb orb oscale option_map gq_dx].
    eexists. split; [reflexivity|]. eapply improper_ext; [|apply (X ((b - a) * (1/2)) ((a + b) / 2) 1)].
    + f_equal. apply rule_sum_ext_in. intros x _. f_equal. field.
    + lra.
    + cbn [rule_lo]. field.
    + field.
    + intros t Ht. cbn [rule_lo] in Ht. unfold real_weight, base_weight, doc_weight. cbn [Nat.eqb rule_lo]. set (u := (b - a) * (1/2)). assert (Hu : 0 < u) by (unfold u; lra).
      replace ((u * t + (a + b) / 2 - a) * (b - (u * t + (a + b) / 2))) with (u * u * ((t - -1) * (1 - t))) by (unfold u; field).
      rewrite sqrt_scale2 by nra. assert (0 < sqrt ((t - -1) * (1 - t))) by (apply sqrt_lt_R0; nra). field; lra.
  - destruct (Y ((b - a) * (1/2)) 1) as [->|[C|C]]; [|exfalso; apply C; reflexivity..]. cbn [in_list existsb Nat.eqb orb oscale option_map gq_dx].
    eexists. split; [reflexivity|]. eapply improper_ext; [|apply (X ((b - a) * (1/2)) ((a + b) / 2) (((b - a) * (1/2)) ^ 2))].
    + f_equal. apply rule_sum_ext_in. intros x _. f_equal. field.
    + lra.
    + cbn [rule_lo]. field.
    + field.
    + intros t Ht. cbn [rule_lo] in Ht. unfold real_weight, base_weight, doc_weight. cbn [Nat.eqb rule_lo]. set (u := (b - a) * (1/2)). assert (Hu : 0 < u) by (unfold u; lra).
      replace ((u * t + (a + b) / 2 - a) * (b - (u * t + (a + b) / 2))) with (u * u * ((t - -1) * (1 - t))) by (unfold u; field).
      rewrite sqrt_scale2 by nra. field; lra.
  - destruct (Y ((b - a) * (1/2) * 2) 0) as [->|[C|C]]; [|exfalso; apply C; reflexivity..]. cbn [in_list existsb Nat.eqb orb oscale option_map gq_dx].
    eexists. split; [reflexivity|]. eapply improper_ext; [|apply (X (b - a) a (b - a))].
    + f_equal; [field|]. apply rule_sum_ext_in. intros x _. f_equal. field.
    + lra.
    + cbn [rule_lo]. ring.
    + ring.
    + intros t Ht. cbn [rule_lo] in Ht. unfold real_weight, base_weight, doc_weight. cbn [Nat.eqb rule_lo]. set (u := b - a). assert (Hu : 0 < u) by (unfold u; lra).
      replace ((u * t + a - a) / (b - (u * t + a))) with ((t - 0) / (1 - t)); [field; lra|].
      replace (b - (u * t + a)) with (u * (1 - t)) by (unfold u; ring). field; split; lra.
  - destruct (Y ((b - a) * (1/2) * 2) 0) as [->|[C|C]]; [|exfalso; apply C; reflexivity..]. cbn [in_list existsb Nat.eqb orb oscale option_map gq_dx].
    eexists. split; [reflexivity|]. eapply improper_ext; [|apply (X (b - a) a (sqrt (b - a)))].
    + f_equal; [f_equal; field|]. apply rule_sum_ext_in. intros x _. f_equal. field.
    + lra.
    + cbn [rule_lo]. ring.
    + ring.
    + intros t Ht. cbn [rule_lo] in Ht. unfold real_weight, base_weight, doc_weight. cbn [Nat.eqb rule_lo]. set (u := b - a). assert (Hu : 0 < u) by (unfold u; lra).
      replace (b - (u * t + a)) with (u * (1 - t)) by (unfold u; ring). rewrite sqrt_mult by lra.
      assert (0 < sqrt u) by (apply sqrt_lt_R0; lra). assert (0 < sqrt (1 - t)) by (apply sqrt_lt_R0; lra).
      replace (sqrt u / u) with (/ sqrt u). 2:{ rewrite <- (sqrt_sqrt u) at 3 by lra. field; lra. } field; split; lra.
  - destruct (Y ((b - a) * (1/2) * 2) 0) as [->|[C|C]]; [|exfalso; apply C; reflexivity..]. cbn [in_list existsb Nat.eqb orb oscale option_map gq_dx].
    eexists. split; [reflexivity|]. eapply improper_ext; [|apply (X (b - a) a (sqrt (b - a) ^ 3))].
    + f_equal; [f_equal; f_equal; field|]. apply rule_sum_ext_in. intros x _. f_equal. field.
    + lra.
    + cbn [rule_lo]. ring.
    + ring.
    + intros t Ht. cbn [rule_lo] in Ht. unfold real_weight, base_weight, doc_weight. cbn [Nat.eqb rule_lo]. set (u := b - a). assert (Hu : 0 < u) by (unfold u; lra).
      replace (b - (u * t + a)) with (u * (1 - t)) by (unfold u; ring). rewrite sqrt_mult by lra.
      assert (0 < sqrt u) by (apply sqrt_lt_R0; lra).
      replace (sqrt u ^ 3 / u) with (sqrt u); [ring|]. rewrite <- (sqrt_sqrt u) at 3 by lra. field; lra.
Qed.
