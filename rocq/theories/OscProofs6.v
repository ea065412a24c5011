From Coq Require Import Reals List Lra Lia Bool Arith ZArith.
From Coquelicot Require Import Coquelicot.
From Verif Require Import Base ArSpec PolyModel DftModel DftProofs CsimProofs ArProofs2 PadeProofs Sg2Proofs2 OscModel OscSpec OscProofs OscProofs2 OscProofs3 OscProofs4 OscProofs5.
Import ListNotations.
Local Open Scope R_scope.
Set Bullet Behavior "Strict Subproofs".

Lemma quad_estimate ls B dea3 eps prec maxiter s (endpoints : bool) f g dg a b om : a <> b -> (2 <= maxiter)%nat ->
  let e := level ls B om f g dg (if endpoints then chebyshev_extrema s else chebyshev_roots s) a b in
  exists k q d, quad_osc ls B dea3 eps prec maxiter s endpoints f g dg a b om = Ok (q, d + 2 * eps, Some (s * (2 ^ S k - 1))%nat) /\ (1 <= k < maxiter)%nat /\
    candidates dea3 e k q d /\ (forall q' d', candidates dea3 e k q' d' -> d <= d') /\ (d <= Rpower 10 (- prec) \/ k = (maxiter - 1)%nat) /\
    forall i q' d', (1 <= i < k)%nat -> candidates dea3 e i q' d' -> Rpower 10 (- prec) < d'.
Proof.
  intros N M e. destruct (quad_found ls B dea3 eps prec maxiter s endpoints f g dg a b om N M) as (q & err & n & E & (k & H1 & H2 & H3 & H4 & H5 & H6)). subst n. exists k, q, err. split; [exact E|]. split; [lia|]. split; [exact H2|]. split; [exact H3|]. split; [destruct H5; [now left|right; lia]|exact H6].
Qed.
(* values that are exact from the first level on *)
Lemma boundary_chain om g n c (p : nat -> R) m : csum m (fun i => boundary om g n c (p i) (p (S i))) = boundary om g n c (p 0%nat) (p m).
Proof. induction m as [|m IH]; [unfold boundary; cbn [csum]; ring|]. cbn [csum]. rewrite IH. unfold boundary. ring. Qed.
Lemma Cmod_diag z : Cmod (Cminus z z) = 0. Proof. replace (Cminus z z) with (RtoC 0) by ring. apply Cmod_0. Qed.
Lemma quad_stable ls B dea3 eps prec maxiter s (endpoints : bool) f g dg a b om v : a <> b -> (2 <= maxiter)%nat ->
  level ls B om f g dg (the_points endpoints s) a b 0 = v -> level ls B om f g dg (the_points endpoints s) a b 1 = v -> quad_osc ls B dea3 eps prec maxiter s endpoints f g dg a b om = Ok (v, 2 * eps, Some (3 * s)%nat).
Proof.
  intros N M E0 E1. destruct (quad_estimate ls B dea3 eps prec maxiter s endpoints f g dg a b om N M) as (k & q & d & E & Hk & Cd & Mn & St & Fi). fold (the_points endpoints s) in Cd, Mn, Fi.
  assert (C1 : candidates dea3 (level ls B om f g dg (the_points endpoints s) a b) 1 v 0) by (left; cbn [Nat.sub]; rewrite E0, E1; split; [reflexivity|symmetry; apply Cmod_diag]).
  pose proof (exp_pos (- prec * ln 10)) as P. fold (Rpower 10 (- prec)) in P.
  destruct (Nat.eq_dec k 1) as [->|Ne].
  - destruct Cd as [[-> ->]|[[L _]|[L _]]]; [|lia|lia]. cbn [Nat.sub] in E. rewrite E0, E1, Cmod_diag, Rplus_0_l in E. rewrite E. do 3 f_equal. cbn. lia.
  - specialize (Fi 1%nat v 0 ltac:(lia) C1). lra.
Qed.
Lemma level_exact ls B om f g dg x a b c k : solves_systems ls -> is_basis B -> a <> b -> (forall t, f t = amplitude om dg (List.length x) c t) ->
  (forall i, (i < 2 ^ k)%nat -> let u := a + INR i * ((b - a) / 2 ^ k) in let v := a + INR (S i) * ((b - a) / 2 ^ k) in has_rule om g dg u v (nodes u v x)) -> level ls B om f g dg x a b k = boundary om g (List.length x) c a b.
Proof.
  intros LS HB N F H. unfold level. rewrite (csum_ext _ _ (fun i => boundary om g (List.length x) c (a + INR i * ((b - a) / 2 ^ k)) (a + INR (S i) * ((b - a) / 2 ^ k)))).
  - rewrite (boundary_chain om g (List.length x) c (fun i => a + INR i * ((b - a) / 2 ^ k)) (2 ^ k)). f_equal; [cbn; ring|]. rewrite pow_INR. change (INR 2) with 2. field. apply pow2_ne.
  - intros i Hi. apply piece_exact; auto. rewrite S_INR. assert (D : (b - a) / 2 ^ k <> 0) by (apply Rmult_integral_contrapositive_currified; [lra|apply Rinv_neq_0_compat, pow2_ne]). lra.
Qed.
Lemma quad_exact ls B dea3 eps prec maxiter s (endpoints : bool) f g dg a b om c : solves_systems ls -> is_basis B -> phase g dg -> a <> b -> (2 <= maxiter)%nat -> (forall t, f t = amplitude om dg s c t) ->
  let x := if endpoints then chebyshev_extrema s else chebyshev_roots s in
  has_rule om g dg a b (nodes a b x) -> has_rule om g dg a ((a + b) / 2) (nodes a ((a + b) / 2) x) -> has_rule om g dg ((a + b) / 2) b (nodes ((a + b) / 2) b x) ->
  exists v, quad_osc ls B dea3 eps prec maxiter s endpoints f g dg a b om = Ok (v, 2 * eps, Some (3 * s)%nat) /\ integral (oscillating om g f) a b v.
Proof.
  intros LS HB Ph N M F x R0 R1 R2. exists (boundary om g s c a b). split.
  - apply quad_stable; auto; fold (the_points endpoints s); pose proof (points_length endpoints s) as L; rewrite <- L at 2; apply level_exact; auto; try (intros t; rewrite L; apply F); intros i Hi; fold (the_points endpoints s) in x; cbn [Nat.pow Nat.mul Nat.add] in Hi.
    + replace i with 0%nat by lia. cbv zeta. cbn [INR pow]. replace (a + 0 * ((b - a) / 1)) with a by field. replace (a + 1 * ((b - a) / 1)) with b by field. exact R0.
    + assert (i = 0 \/ i = 1)%nat as [->| ->] by lia; cbv zeta; cbn [INR pow].
      * replace (a + 0 * ((b - a) / (2 * 1))) with a by field. replace (a + 1 * ((b - a) / (2 * 1))) with ((a + b) / 2) by field. exact R1.
      * replace (a + 1 * ((b - a) / (2 * 1))) with ((a + b) / 2) by field. replace (a + (1 + 1) * ((b - a) / (2 * 1))) with b by field. exact R2.
  - destruct (amplitude_integral om g dg s c a b Ph) as [I1 I2]. split; [apply (is_RInt_ext (fun t => fst (oscillating om g (amplitude om dg s c) t))); [|exact I1]|apply (is_RInt_ext (fun t => snd (oscillating om g (amplitude om dg s c) t))); [|exact I2]]; intros t _; unfold oscillating; now rewrite F.
Qed.

(* ---- distinct nodes ---- *)
Lemma nodup_map {A B : Type} (h : A -> B) l : NoDup l -> (forall u v, In u l -> In v l -> h u = h v -> u = v) -> NoDup (map h l).
Proof.
  induction l as [|u l IH]; intros N H; cbn [map]; [constructor|]. inversion N as [|? ? N1 N2]; subst. constructor.
  - intros K. apply in_map_iff in K. destruct K as [v [E Hv]]. apply N1. rewrite (H u v); [exact Hv|now left|now right|now symmetry].
  - apply IH; [exact N2|]. intros; apply H; auto; now right.
Qed.
Lemma cos_inj t u : 0 <= t <= PI -> 0 <= u <= PI -> cos t = cos u -> t = u.
Proof.
  intros Ht Hu E. destruct (Rtotal_order t u) as [L|[L|L]]; [|exact L|].
  - pose proof (cos_decreasing_1 t u). lra.
  - pose proof (cos_decreasing_1 u t). lra.
Qed.
Lemma roots_nodup m : NoDup (chebyshev_roots m).
Proof.
  apply nodup_map; [apply seq_NoDup|]. intros u v Hu Hv E. apply in_seq in Hu. apply in_seq in Hv. pose proof PI_RGT_0 as P. assert (M : 0 < INR m) by (apply lt_0_INR; lia).
  assert (A : forall k, (k < m)%nat -> 0 <= INR (2 * k + 1) * (1 / 2) * PI / INR m <= PI).
  { intros k Hk. pose proof (pos_INR (2 * k + 1)). split.
    - apply Rmult_le_pos; [nra|left; now apply Rinv_0_lt_compat].
    - apply (Rmult_le_reg_r (INR m)); [exact M|]. unfold Rdiv at 1. rewrite Rmult_assoc, Rinv_l, Rmult_1_r by lra. assert (INR (2 * k + 1) <= INR (2 * m)) by (apply le_INR; lia). rewrite mult_INR in H0. change (INR 2) with 2 in H0. nra. }
  apply cos_inj in E; [|apply A; lia|apply A; lia]. assert (E' : INR (2 * u + 1) = INR (2 * v + 1)).
  { apply (f_equal (fun z => z * INR m / PI * 2)) in E. replace (INR (2 * u + 1) * (1 / 2) * PI / INR m * INR m / PI * 2) with (INR (2 * u + 1)) in E by (field; lra). replace (INR (2 * v + 1) * (1 / 2) * PI / INR m * INR m / PI * 2) with (INR (2 * v + 1)) in E by (field; lra). exact E. }
  apply INR_eq in E'. lia.
Qed.
Lemma extrema_nodup m : (2 <= m)%nat -> NoDup (chebyshev_extrema m).
Proof.
  intros Hm. apply nodup_map; [apply seq_NoDup|]. intros u v Hu Hv E. apply in_seq in Hu. apply in_seq in Hv. pose proof PI_RGT_0 as P. assert (M : 0 < INR m - 1) by (apply le_INR in Hm; change (INR 2) with 2 in Hm; lra).
  assert (A : forall k, (k < m)%nat -> 0 <= INR k * PI / (INR m - 1) <= PI).
  { intros k Hk. pose proof (pos_INR k). split.
    - apply Rmult_le_pos; [nra|left; now apply Rinv_0_lt_compat].
    - apply (Rmult_le_reg_r (INR m - 1)); [exact M|]. unfold Rdiv. rewrite Rmult_assoc, Rinv_l, Rmult_1_r by lra. assert (K : INR (k + 1) <= INR m) by (apply le_INR; lia). rewrite plus_INR in K. change (INR 1) with 1 in K. nra. }
  apply cos_inj in E; [|apply A; lia|apply A; lia]. apply INR_eq. apply (f_equal (fun z => z * (INR m - 1) / PI)) in E. replace (INR u * PI / (INR m - 1) * (INR m - 1) / PI) with (INR u) in E by (field; lra). replace (INR v * PI / (INR m - 1) * (INR m - 1) / PI) with (INR v) in E by (field; lra). exact E.
Qed.
Lemma nodes_nodup u v x : u <> v -> NoDup x -> NoDup (nodes u v x).
Proof. intros N H. apply nodup_map; [exact H|]. intros s t _ _ E. apply (Rmult_eq_reg_l ((v - u) / 2)); [lra|lra]. Qed.
Lemma the_points_nodup (endpoints : bool) s : (endpoints = true -> 2 <= s)%nat -> NoDup (the_points endpoints s).
Proof. intros H. destruct endpoints; [apply extrema_nodup; now apply H|apply roots_nodup]. Qed.

(* ---- Fourier integrals of polynomials ---- *)
Lemma linear_phase g dg al be : (forall t, g t = al * t + be) -> (forall t, dg t = al) -> phase g dg.
Proof. intros G D t. split; [apply (is_derive_ext (fun t => al * t + be)); [intros; symmetry; apply G|]; rewrite D; auto_derive; [exact I|ring]|]. apply (continuous_ext (fun _ => al)); [intros; symmetry; apply D|apply continuous_const]. Qed.
Lemma integral_swap h a b v : integral h b a v -> integral h a b (Copp v).
Proof. intros [H1 H2]. split; [exact (is_RInt_swap _ _ _ _ H1)|exact (is_RInt_swap _ _ _ _ H2)]. Qed.
Lemma integral_point h a : integral h a a (RtoC 0).
Proof. split; apply (is_RInt_point (V := R_NormedModule)). Qed.
Lemma quad_fourier ls B dea3 eps prec maxiter s (endpoints : bool) f g dg a b om al be c m : solves_systems ls -> is_basis B -> (2 <= maxiter)%nat -> (endpoints = true -> 2 <= s)%nat ->
  (forall t, g t = al * t + be) -> (forall t, dg t = al) -> om * al <> 0 -> (m <= s)%nat -> (forall t, f t = cpoly m c t) ->
  exists v err n, quad_call ls B dea3 eps prec maxiter s endpoints f g dg a b om = Ok (v, err, n) /\ integral (oscillating om g f) a b v.
Proof.
  intros LS HB M S2 G D Nz Lm F. pose proof (linear_phase g dg al be G D) as Ph. destruct (poly_amplitude om dg al s m c Nz D Lm) as [d Hd].
  assert (K : forall p q, p <> q -> exists v, quad_osc ls B dea3 eps prec maxiter s endpoints f g dg p q om = Ok (v, 2 * eps, Some (3 * s)%nat) /\ integral (oscillating om g f) p q v).
  { intros p q N. apply (quad_exact _ _ _ _ _ _ _ _ _ _ _ _ _ _ d LS HB Ph N M); [intros t; rewrite F, Hd; reflexivity| | |]; fold (the_points endpoints s); apply (linear_rule om g dg al be); auto; apply nodes_nodup; try (now apply the_points_nodup); lra. }
  unfold quad_call. destruct (Rlt_dec b a) as [L|L].
  - destruct (K b a) as (v & E & I1); [lra|]. rewrite E. cbn [bind]. exists (Copp v), (2 * eps), (Some (3 * s)%nat). split; [reflexivity|now apply integral_swap].
  - destruct (Req_dec a b) as [<-|N].
    + unfold quad_osc. destruct (Req_EM_T a a) as [_|X]; [|contradiction]. cbn [bind]. do 3 eexists. split; [reflexivity|]. replace (RtoC (a - a)) with (RtoC 0) by (f_equal; ring). apply integral_point.
    + destruct (K a b N) as (v & E & I1). rewrite E. cbn [bind]. exists v, (2 * eps), (Some (3 * s)%nat). split; [reflexivity|exact I1].
Qed.
Lemma quad_reversed ls B dea3 eps prec maxiter s (endpoints : bool) f g dg a b om v err n : a <> b -> quad_call ls B dea3 eps prec maxiter s endpoints f g dg a b om = Ok (v, err, n) -> quad_call ls B dea3 eps prec maxiter s endpoints f g dg b a om = Ok (Copp v, err, n).
Proof.
  intros N. unfold quad_call. destruct (Rlt_dec b a) as [L|L], (Rlt_dec a b) as [L'|L']; [lra| | |lra]; intros H.
  - destruct (quad_osc ls B dea3 eps prec maxiter s endpoints f g dg b a om) as [[[q e] k]|x]; [|discriminate]. cbn [bind] in *. injection H as <- <- <-. do 3 f_equal. ring.
  - destruct (quad_osc ls B dea3 eps prec maxiter s endpoints f g dg a b om) as [[[q e] k]|x]; [|discriminate]. cbn [bind] in *. now injection H as <- <- <-.
Qed.
(* maxiter < 2 *)
Lemma quad_one ls B dea3 eps prec s (endpoints : bool) f g dg a b om : a <> b -> quad_call ls B dea3 eps prec 1 s endpoints f g dg a b om = Err UnboundLocal /\ quad_call ls B dea3 eps prec 0 s endpoints f g dg a b om = Err IndexError.
Proof. intros N. unfold quad_call. destruct (Rlt_dec b a) as [L|L]; unfold quad_osc; [destruct (Req_EM_T b a) as [X|_]|destruct (Req_EM_T a b) as [X|_]]; try lra; split; reflexivity. Qed.
