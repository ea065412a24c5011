From Coq Require Import Reals Lra Lia.
From Coquelicot Require Import RInt Hierarchy Derive Continuity RInt_analysis AutoDerive.
From Verif Require Import Base PolyModel PolySpec OrthoModel ChebModel ChebSpec ChebProofs QuadModel QuadSpec QuadProofs QuadProofs2 QuadProofs6 AdaptModel AdaptSpec AdaptProofs AdaptProofs2.
Local Open Scope R_scope.

(* ---- polynomials of degree at most 3 are integrated exactly ---- *)
Lemma improper_unique_aux (f : R -> R) a b I J : a < b -> improper_integral f a b I -> improper_integral f a b J -> I = J.
Proof.
  intros Hab HI HJ. destruct (Req_dec I J) as [|N]; [assumption|exfalso].
  assert (He : 0 < Rabs (I - J) / 2) by (apply Rdiv_lt_0_compat; [apply Rabs_pos_lt; lra|lra]).
  destruct (HI _ He) as (d1 & D1 & H1). destruct (HJ _ He) as (d2 & D2 & H2).
  set (d := Rmin (Rmin d1 d2) (b - a)). assert (Hd : 0 < d) by (unfold d; repeat apply Rmin_glb_lt; lra).
  assert (L1 : d <= d1) by (unfold d; eapply Rle_trans; [apply Rmin_l|apply Rmin_l]).
  assert (L2 : d <= d2) by (unfold d; eapply Rle_trans; [apply Rmin_l|apply Rmin_r]).
  assert (L3 : d <= b - a) by (unfold d; apply Rmin_r).
  destruct (H1 (a + d / 2) (b - d / 2)) as (K & HK & EK); try lra.
  destruct (H2 (a + d / 2) (b - d / 2)) as (K' & HK' & EK'); try lra.
  pose proof (int_unique _ _ _ _ _ HK HK'). subst K'.
  assert (Rabs (I - J) <= Rabs (K - I) + Rabs (K - J)).
  { replace (I - J) with (- (K - I) + (K - J)) by ring. eapply Rle_trans; [apply Rabs_triang|]. rewrite Rabs_Ropp. lra. }
  lra.
Qed.
Lemma gaussq_cubic wfun alpha beta rules releps abseps max_iter p a b : finite_interval_weight wfun -> a < b -> (List.length p <= 4)%nat ->
  (forall n, (0 < n)%nat -> exact_for (2 * n) (base_weight wfun alpha beta) (rule_lo wfun) 1 (rules n)) -> (1 <= max_iter)%nat ->
  exists I e, gaussq (fun v => v) rules wfun alpha beta releps abseps max_iter [(fun x => Some (peval p x), a, b)] = [(Some I, e)] /\
    improper_integral (fun x => real_weight wfun alpha beta a b x * peval p x) a b I /\
    ((3 <= max_iter)%nat -> abseps < 10 ^ 100 -> Rabs (releps * I) < 10 ^ 100 -> e = Some 0).
Proof.
  intros Hw Hab Lp HR Hn.
  assert (P : forall i, (0 < 2 ^ i)%nat) by (intros i; apply Nat.neq_0_lt_0, Nat.pow_nonzero; lia).
  assert (P2 : forall i, (2 <= 2 ^ (i + 1))%nat) by (intros i; rewrite Nat.add_1_r; cbn [Nat.pow]; specialize (P i); lia).
  assert (X : forall i, exists I, gq_estimate wfun alpha beta (rules (2 ^ (i + 1))%nat) (fun x => Some (peval p x)) a b = Some I /\
    improper_integral (fun x => real_weight wfun alpha beta a b x * peval p x) a b I).
  { intros i. apply (estimate_exact wfun alpha beta (2 * 2 ^ (i + 1))); auto. specialize (P2 i). lia. }
  destruct (X 0%nat) as (I & _ & HI).
  assert (Y : forall i, gq_estimate wfun alpha beta (rules (2 ^ (i + 1))%nat) (fun x => Some (peval p x)) a b = Some I).
  { intros i. destruct (X i) as (J & EJ & HJ). rewrite EJ. f_equal. eapply improper_unique_aux; eauto. }
  destruct max_iter as [|n]; [lia|]. exists I.
  destruct (run_const releps abseps I (fun _ => I) n (fun _ => eq_refl)) as (s & Es & Hv & He).
  exists (gerr s). split; [|split; [exact HI|intros; apply He; auto; lia]].
  rewrite gaussq_run. cbn [map]. rewrite (gq_run_ext _ _ _ _ (fun i => Some I)) by exact Y.
  rewrite Es, Hv. reflexivity.
Qed.
Lemma gaussq_cubic_doc wfun alpha beta rules releps abseps max_iter p a b : finite_interval_weight wfun -> wfun <> 4%nat -> a < b -> (List.length p <= 4)%nat ->
  (forall n, (0 < n)%nat -> exact_for (2 * n) (doc_weight wfun alpha beta (rule_lo wfun) 1) (rule_lo wfun) 1 (rules n)) -> (1 <= max_iter)%nat ->
  exists I e, gaussq (fun v => v) rules wfun alpha beta releps abseps max_iter [(fun x => Some (peval p x), a, b)] = [(Some I, e)] /\
    improper_integral (fun x => doc_weight wfun alpha beta a b x * peval p x) a b I /\
    ((3 <= max_iter)%nat -> abseps < 10 ^ 100 -> Rabs (releps * I) < 10 ^ 100 -> e = Some 0).
Proof.
  intros Hw N4. apply Nat.eqb_neq in N4. pose proof (gaussq_cubic wfun alpha beta rules releps abseps max_iter p a b Hw) as G.
  unfold base_weight, real_weight in G. rewrite N4 in G. exact G.
Qed.
(* wfun = 4: the exponents are exchanged *)
Lemma gaussq_cubic_jacobi alpha beta rules releps abseps max_iter p a b : a < b -> (List.length p <= 4)%nat ->
  (forall n, (0 < n)%nat -> exact_for (2 * n) (fun x => Rpower (1 - x) alpha * Rpower (x - -1) beta) (-1) 1 (rules n)) -> (1 <= max_iter)%nat ->
  exists I e, gaussq (fun v => v) rules 4 alpha beta releps abseps max_iter [(fun x => Some (peval p x), a, b)] = [(Some I, e)] /\
    improper_integral (fun x => Rpower (b - x) alpha * Rpower (x - a) beta * peval p x) a b I /\
    ((3 <= max_iter)%nat -> abseps < 10 ^ 100 -> Rabs (releps * I) < 10 ^ 100 -> e = Some 0).
Proof. apply (gaussq_cubic 4). unfold finite_interval_weight. cbn. tauto. Qed.
Lemma sym_quadratic c v : is_int (fun x => (1 - c * x) * x) (- v) v (- c * (2 * v ^ 3 / 3)).
Proof.
  set (F := fun t : R => t ^ 2 / 2 - c * t ^ 3 / 3).
  eapply is_int_val; [apply (is_RInt_derive (V := R_CompleteNormedModule) F (fun x => (1 - c * x) * x))|].
  - intros t _. unfold F. auto_derive; [exact Logic.I|]. field.
  - intros t _. apply cont_of. apply derivable_continuous. reg.
  - change (F v - F (- v) = - c * (2 * v ^ 3 / 3)). unfold F. field.
Qed.
Lemma jacobi_doc_wrong rules releps abseps max_iter : (1 <= max_iter)%nat ->
  (forall n, (0 < n)%nat -> exact_for (2 * n) (fun x => Rpower (1 - x) 1 * Rpower (x - -1) 0) (-1) 1 (rules n)) ->
  exists I e, gaussq (fun v => v) rules 4 1 0 releps abseps max_iter [(fun x => Some (peval [1; 0] x), -1, 1)] = [(Some I, e)] /\
    ~ improper_integral (fun x => doc_weight 4 1 0 (-1) 1 x * peval [1; 0] x) (-1) 1 I.
Proof.
  intros Hn HR. destruct (gaussq_cubic_jacobi 1 0 rules releps abseps max_iter [1; 0] (-1) 1 ltac:(lra) ltac:(cbn; lia) HR Hn) as (I & e & EQ & HI & _).
  exists I, e. split; [exact EQ|]. intros HJ.
  apply (improper_ext_in _ (fun x => (1 - 1 * x) * x)) in HI.
  2:{ intros x Hx. rewrite Rpower_1 by lra. rewrite Rpower_O by lra. cbn [peval List.length]. ring. }
  apply (improper_ext_in _ (fun x => (1 - -1 * x) * x)) in HJ.
  2:{ intros x Hx. unfold doc_weight. rewrite Rpower_1 by lra. rewrite Rpower_O by lra. cbn [peval List.length]. ring. }
  destruct (HI (1/12) ltac:(lra)) as (d1 & D1 & H1). destruct (HJ (1/12) ltac:(lra)) as (d2 & D2 & H2).
  set (d := Rmin (Rmin d1 d2) 1). assert (Hd : 0 < d) by (unfold d; repeat apply Rmin_glb_lt; lra).
  assert (L1 : d <= d1) by (unfold d; eapply Rle_trans; [apply Rmin_l|apply Rmin_l]).
  assert (L2 : d <= d2) by (unfold d; eapply Rle_trans; [apply Rmin_l|apply Rmin_r]).
  assert (L3 : d <= 1) by (unfold d; apply Rmin_r).
  set (v := 1 - d / 2).
  destruct (H1 (- v) v) as (K & HK & EK); try (unfold v; lra).
  destruct (H2 (- v) v) as (K' & HK' & EK'); try (unfold v; lra).
  rewrite (int_unique _ _ _ _ _ HK (sym_quadratic 1 v)) in EK. rewrite (int_unique _ _ _ _ _ HK' (sym_quadratic (-1) v)) in EK'.
  apply Rabs_def2 in EK, EK'. assert (1/2 <= v) by (unfold v; lra). assert (1/8 <= v ^ 3) by (cbn [pow]; nra). lra.
Qed.

(* ---- integer valued integrands ---- *)
Lemma run_store store releps abseps est n : forall i s, gq_run store releps abseps est n i s = gq_run (fun v => v) releps abseps (fun i => option_map store (est i)) n i s.
Proof. induction n as [|n IH]; intros i s; cbn [gq_run]; [reflexivity|]. rewrite IH. f_equal. unfold gq_step. destruct (gact s), (est i); reflexivity. Qed.
Lemma improper_one a b : a < b -> improper_integral (fun _ => 1) a b (b - a).
Proof.
  intros Hab e He. exists (e / 3). split; [lra|]. intros u v Hu Hu' Hv Hv'. exists ((v - u) * 1). split.
  - apply is_int_const.
  - apply Rabs_def1; lra.
Qed.
Lemma gaussq_int_wrong rules max_iter : (3 <= max_iter)%nat ->
  (forall n, (0 < n)%nat -> exact_for (2 * n) (doc_weight 1 0 0 (-1) 1) (-1) 1 (rules n)) ->
  gaussq trunc rules 1 0 0 (1/1000) (1/1000) max_iter [(fun x => Some 1, 0, 1/2)] = [(Some 0, Some 0)].
Proof.
  intros Hn HR. destruct max_iter as [|n]; [lia|]. rewrite gaussq_run. cbn [map]. rewrite run_store.
  rewrite (gq_run_ext _ _ _ _ (fun i => Some 0)).
  - destruct (run_const (1/1000) (1/1000) 0 (fun _ => 0) n (fun _ => eq_refl)) as (s & Es & Hv & He).
    cbv zeta. rewrite Es, Hv, He; [reflexivity|lia| |rewrite Rmult_0_r, Rabs_R0].
    + assert (1 <= 10 ^ 100) by (apply pow_R1_Rle; lra). lra.
    + apply pow_lt; lra.
  - intros i.
    assert (P : (0 < 2 ^ (i + 1))%nat) by (apply Nat.neq_0_lt_0, Nat.pow_nonzero; lia).
    destruct (estimate_exact 1 0 0 (2 * 2 ^ (i + 1)) (rules (2 ^ (i + 1))%nat) [1] 0 (1/2)) as (I & EI & HI).
    + cbn; auto.
    + lra.
    + cbn [List.length]. lia.
    + apply HR. exact P.
    + assert (I = 1/2 - 0).
      { eapply improper_unique_aux; [| |apply improper_one]; [| |lra]; [lra|]. eapply improper_ext_in; [|exact HI]. intros x _. cbn. ring. }
      subst I. cbn [gq_est].
      replace (gq_estimate 1 0 0 (rules (2 ^ (i + 1))%nat) (fun _ => Some 1) 0 (1/2)) with (gq_estimate 1 0 0 (rules (2 ^ (i + 1))%nat) (fun x => Some (peval [1] x)) 0 (1/2)).
      * rewrite EI. cbn [option_map]. f_equal. replace (1/2 - 0) with (1/2) by lra. apply trunc_half.
      * f_equal. apply FunctionalExtensionality.functional_extensionality. intros x. f_equal. cbn. ring.
Qed.

(* ---- NaN ---- *)
Lemma spoiled_ok t : 0 <= t <= PI -> t <> PI / 16 -> spoiled (cos t) = Some (cos (8 * t)).
Proof.
  intros Ht N. unfold spoiled. destruct (Req_EM_T (cos t) (cos (PI / 16))) as [E|_].
  - exfalso. apply N. pose proof PI_RGT_0. apply cos_inj; lra.
  - f_equal. rewrite T_cos. f_equal. f_equal. cbn. ring.
Qed.
Lemma cheb_est f n : gq_estimate 5 0 0 (q5_roots n) f (-1) 1 = oscale 1 (osum (snd (q5_roots n)) (map f (fst (q5_roots n)))).
Proof.
  unfold gq_estimate. cbn [in_list existsb Nat.eqb orb gq_dx]. f_equal. f_equal. f_equal.
  rewrite <- (map_id (fst (q5_roots n))) at 2. apply map_ext. intros t. unfold gq_jacob. cbn [in_list existsb Nat.eqb orb]. field.
Qed.
Lemma gaussq_nan : gaussq (fun v => v) q5_roots 5 0 0 (1/1000) (1/1000) 11 [(spoiled, -1, 1)] = [(Some (- PI), Some 0)].
Proof.
  pose proof PI_RGT_0 as HP. pose proof PI_4 as HP4.
  assert (E0 : gq_estimate 5 0 0 (q5_roots 2) spoiled (-1) 1 = Some PI).
  { rewrite cheb_est. unfold q5_roots. cbn [fst snd seq map repeat osum].
    replace ((2 * INR 1 - 1) * PI / (2 * INR 2)) with (PI / 4) by (cbn; field).
    replace ((2 * INR 2 - 1) * PI / (2 * INR 2)) with (3 * (PI / 4)) by (cbn; field).
    rewrite !spoiled_ok by lra. cbn [oscale option_map oadd]. f_equal.
    replace (8 * (PI / 4)) with (2 * PI) by field. replace (8 * (3 * (PI / 4))) with (2 * PI + 2 * INR 2 * PI) by (cbn; field).
    rewrite cos_period, cos_2PI. cbn. field. }
  assert (E1 : gq_estimate 5 0 0 (q5_roots 4) spoiled (-1) 1 = Some (- PI)).
  { rewrite cheb_est. unfold q5_roots. cbn [fst snd seq map repeat osum].
    replace ((2 * INR 1 - 1) * PI / (2 * INR 4)) with (PI / 8) by (cbn; field).
    replace ((2 * INR 2 - 1) * PI / (2 * INR 4)) with (3 * (PI / 8)) by (cbn; field).
    replace ((2 * INR 3 - 1) * PI / (2 * INR 4)) with (5 * (PI / 8)) by (cbn; field).
    replace ((2 * INR 4 - 1) * PI / (2 * INR 4)) with (7 * (PI / 8)) by (cbn; field).
    rewrite !spoiled_ok by lra. cbn [oscale option_map oadd]. f_equal.
    replace (8 * (PI / 8)) with PI by field. replace (8 * (3 * (PI / 8))) with (PI + 2 * INR 1 * PI) by (cbn; field).
    replace (8 * (5 * (PI / 8))) with (PI + 2 * INR 2 * PI) by (cbn; field). replace (8 * (7 * (PI / 8))) with (PI + 2 * INR 3 * PI) by (cbn; field).
    rewrite !cos_period, cos_PI. cbn. field. }
  assert (E2 : gq_estimate 5 0 0 (q5_roots 8) spoiled (-1) 1 = None).
  { rewrite cheb_est. unfold q5_roots. cbn [fst snd seq map repeat osum].
    replace ((2 * INR 1 - 1) * PI / (2 * INR 8)) with (PI / 16) by (cbn; field).
    unfold spoiled at 1. destruct (Req_EM_T _ _) as [_|C]; [reflexivity|exfalso; apply C; reflexivity]. }
  assert (B : 1000 < 10 ^ 100).
  { replace 1000 with (10 ^ 3) by ring. apply Rlt_pow; [lra|lia]. }
  rewrite gaussq_run. cbn [map]. cbv zeta.
  cbn [gq_run]. cbn [gq_est Nat.add]. change (2 ^ 1)%nat with 2%nat. change (2 ^ 2)%nat with 4%nat. change (2 ^ 3)%nat with 8%nat.
  rewrite E0, E1, E2.
  set (s0 := gq_step _ _ _ 0 _ _).
  assert (S0 : s0 = {| gval := Some PI; gold := Some PI; gerr := Some (10 ^ 100); gact := true |}).
  { unfold s0, gq_step, gq_init. cbn [gact gval gold gerr option_map andb Nat.ltb Nat.leb ogt_tol].
    destruct (Rlt_dec _ _) as [_|C]; [reflexivity|]. exfalso. apply C. rewrite Rabs_right by lra. apply Rmax_lub_lt; lra. }
  rewrite S0. clear s0 S0. set (s1 := gq_step _ _ _ 1 _ _).
  assert (S1 : s1 = {| gval := Some (- PI); gold := Some (- PI); gerr := Some (10 ^ 100); gact := true |}).
  { unfold s1, gq_step. cbn [gact gval gold gerr option_map andb Nat.ltb Nat.leb ogt_tol].
    destruct (Rlt_dec _ _) as [_|C]; [reflexivity|]. exfalso. apply C. rewrite Rabs_left1 by lra. apply Rmax_lub_lt; lra. }
  rewrite S1. clear s1 S1. set (s2 := gq_step _ _ _ 2 _ _).
  assert (S2 : s2 = {| gval := Some (- PI); gold := Some (- PI); gerr := Some 0; gact := false |}).
  { unfold s2, gq_step. cbn [gact gval gold gerr option_map andb Nat.ltb Nat.leb ogt_tol oabsdiff].
    replace (Rabs (- PI - - PI)) with 0 by (rewrite Rminus_diag_eq by reflexivity; symmetry; apply Rabs_R0).
    destruct (Rlt_dec _ _) as [C|_]; [|reflexivity]. exfalso. pose proof (Rmax_r (Rabs (1 / 1000 * - PI)) (1/1000)). lra. }
  assert (ID : idle_inv (1/1000) (1/1000) s2) by apply step_inv.
  rewrite S2 in *. clear s2 S2.
  repeat rewrite (step_idle _ _ _ _ _ _ ID eq_refl). reflexivity.
Qed.

(* ---- the cache ---- *)
Lemma fmt_exact k : fmt_g (100 * k) = k.
Proof.
  unfold fmt_g. rewrite Z.mul_comm, Z_mod_mult, Z_div_mult by lia. reflexivity.
Qed.
Lemma key_eqb_eq k l : key_eqb k l = true -> k = l.
Proof.
  destruct k as [[[a b] c] d], l as [[[a' b'] c'] d']. cbn. intros H.
  apply andb_prop in H as [H H4]. apply andb_prop in H as [H H3]. apply andb_prop in H as [H1 H2].
  apply Nat.eqb_eq in H1, H2. apply Z.eqb_eq in H3, H4. congruence.
Qed.
Definition cache_ok {A} (qrule : nat -> nat -> Z -> Z -> A) (c : cache A) : Prop :=
  forall w n fa fb r, cache_find c (w, n, fa, fb) = Some r -> r = qrule n w (100 * fa)%Z (100 * fb)%Z.
Lemma nw_ok {A} qrule (c : cache A) n w al be : cache_ok qrule c -> (exists k, al = 100 * k)%Z -> (exists k, be = 100 * k)%Z ->
  fst (nodes_and_weights fmt_g qrule c n w al be) = qrule n w al be /\ cache_ok qrule (snd (nodes_and_weights fmt_g qrule c n w al be)).
Proof.
  intros Hc [ka ->] [kb ->]. unfold nodes_and_weights. cbv zeta. rewrite !fmt_exact.
  destruct (cache_find c (w, n, ka, kb)) as [r|] eqn:E; cbn [fst snd].
  - split; [apply Hc; exact E|exact Hc].
  - split; [reflexivity|]. intros w' n' fa fb r. cbn [cache_find]. destruct (key_eqb _ _) eqn:K.
    + apply key_eqb_eq in K. injection K as -> -> -> ->. intros H. injection H as <-. reflexivity.
    + apply Hc.
Qed.
Lemma cache_after_ok {A} qrule history : Forall five_decimals history -> cache_ok qrule (@cache_after A fmt_g qrule history).
Proof.
  unfold cache_after. intros H.
  assert (G : forall c, cache_ok qrule c -> cache_ok qrule (fold_left (fun c q => let '(n, w, al, be) := q in snd (nodes_and_weights fmt_g qrule c n w al be)) history c)).
  { induction H as [|[[[n w] al] be] l [Ha Hb] _ IH]; intros c Hc; cbn [fold_left]; [exact Hc|]. apply IH. apply nw_ok; assumption. }
  apply G. intros w n fa fb r E. discriminate E.
Qed.
Lemma cache_history {A} (qrule : nat -> nat -> Z -> Z -> A) history n w al be : Forall five_decimals history -> five_decimals (n, w, al, be) ->
  fst (nodes_and_weights fmt_g qrule (cache_after fmt_g qrule history) n w al be) = qrule n w al be.
Proof. intros H [Ha Hb]. apply nw_ok; auto using cache_after_ok. Qed.
Lemma cache_wrong {A} (qrule : nat -> nat -> Z -> Z -> A) :
  fst (nodes_and_weights fmt_g qrule (cache_after fmt_g qrule [(2%nat, 3%nat, 10000001%Z, 0%Z)]) 2 3 10000002 0) = qrule 2%nat 3%nat 10000001%Z 0%Z.
Proof. reflexivity. Qed.
