From Coq Require Import Reals Lra Lia.
From Verif Require Import Base PolyModel PolySpec OrthoModel QuadModel QuadSpec ChebProofs AdaptModel AdaptSpec AdaptProofs.
Local Open Scope R_scope.

(* ---- gaussq: elementwise ---- *)
Definition idle_inv (releps abseps : R) (s : gq_elem) : Prop :=
  gact s = false -> ogt_tol (gerr s) (gval s) releps abseps = false /\ (gval s = None -> gold s = None).
Lemma step_idle store releps abseps i est s : idle_inv releps abseps s -> gact s = false -> gq_step store releps abseps i est s = s.
Proof.
  intros I A. destruct (I A) as [T N]. destruct s as [v o e a]. cbn in *. subst a. unfold gq_step. cbn.
  destruct v as [v|]; [rewrite T; reflexivity|]. rewrite (N eq_refl). rewrite T. reflexivity.
Qed.
Lemma step_inv store releps abseps i est s : idle_inv releps abseps (gq_step store releps abseps i est s).
Proof.
  unfold idle_inv, gq_step. cbn. intros A. split; [exact A|]. rewrite A.
  destruct (if gact s then option_map store est else gval s); [discriminate|auto].
Qed.
Fixpoint gq_run (store : R -> R) releps abseps (est : nat -> option R) (n i : nat) (s : gq_elem) : gq_elem :=
  match n with O => s | S n' => gq_run store releps abseps est n' (S i) (gq_step store releps abseps i (est i) s) end.
Lemma run_idle store releps abseps est n : forall i s, idle_inv releps abseps s -> gact s = false -> gq_run store releps abseps est n i s = s.
Proof. induction n as [|n IH]; intros i s H A; cbn; [reflexivity|]. rewrite step_idle by auto. auto. Qed.
Lemma map2g_map {A B C D} (f : B -> C -> D) (g : A -> B) a b : map2g f (map g a) b = map2g (fun x y => f (g x) y) a b.
Proof. revert b. induction a as [|x a IH]; intros [|y b]; cbn; auto. f_equal. auto. Qed.
Lemma loop_run store releps abseps (es : list (nat -> option R)) n : forall i l,
  gq_loop store releps abseps (fun i => map (fun e => e i) es) (S n) i l =
  map2g (fun e s => gq_run store releps abseps e (S n) i s) es l.
Proof.
  induction n as [|n IH]; intros i l.
  - cbn [gq_loop]. rewrite map2g_map. destruct (existsb gact _); reflexivity.
  - cbn [gq_loop]. rewrite map2g_map. cbv zeta.
    destruct (existsb gact (map2g (fun x y => gq_step store releps abseps i (x i) y) es l)) eqn:E.
    + cbn [gq_loop] in IH. rewrite IH. clear.
      revert l. induction es as [|e es IHe]; intros [|s l]; cbn; auto. f_equal. apply IHe.
    + clear IH. revert l E. induction es as [|e es IHe]; intros [|s l]; cbn; auto. intros E.
      apply Bool.orb_false_iff in E as [E1 E2]. f_equal; [|apply IHe; exact E2].
      change (gq_step store releps abseps i (e i) s = gq_run store releps abseps e (S n) (S i) (gq_step store releps abseps i (e i) s)).
      rewrite run_idle; auto using step_inv.
Qed.
Lemma map2g_const {A B C} (f : A -> B -> C) c (a : list A) {D} (l : list D) : List.length a = List.length l -> map2g f a (map (fun _ => c) l) = map (fun x => f x c) a.
Proof. revert l. induction a as [|x a IH]; intros [|y l]; cbn; try discriminate; auto. intros H. f_equal. auto. Qed.
Definition gq_est rules wfun alpha beta (q : (R -> option R) * R * R) (i : nat) : option R :=
  let '(f, a, b) := q in gq_estimate wfun alpha beta (rules (2 ^ (i + 1))%nat) f a b.
Lemma gaussq_run store rules wfun alpha beta releps abseps n integrals :
  gaussq store rules wfun alpha beta releps abseps (S n) integrals =
  map (fun q => let s := gq_run store releps abseps (gq_est rules wfun alpha beta q) (S n) 0 gq_init in (gval s, gerr s)) integrals.
Proof.
  unfold gaussq. cbv zeta.
  replace (fun i : nat => map (fun q : (R -> option R) * R * R => let '(f, a, b) := q in gq_estimate wfun alpha beta (rules (2 ^ (i + 1))%nat) f a b) integrals)
    with (fun i : nat => map (fun e => e i) (map (gq_est rules wfun alpha beta) integrals)).
  2:{ apply FunctionalExtensionality.functional_extensionality. intros i. rewrite map_map. apply map_ext. intros [[f a] b]. reflexivity. }
  rewrite loop_run, map2g_const by apply map_length. rewrite !map_map. reflexivity.
Qed.
Lemma gaussq_elementwise store rules wfun alpha beta releps abseps n integrals : (1 <= n)%nat ->
  gaussq store rules wfun alpha beta releps abseps n integrals =
  flat_map (fun q => gaussq store rules wfun alpha beta releps abseps n [q]) integrals.
Proof.
  intros H. destruct n as [|n]; [lia|]. rewrite gaussq_run.
  induction integrals as [|q l IH]; [reflexivity|]. cbn [flat_map]. rewrite <- IH. rewrite (gaussq_run _ _ _ _ _ _ _ n [q]). reflexivity.
Qed.

(* ---- meaning of the error estimate ---- *)
Definition gq_inv (releps abseps : R) (est : nat -> R) (i : nat) (s : gq_elem) : Prop :=
  (gact s = true /\ gerr s = Some (10 ^ 100) /\ (i <= 2)%nat /\ ((i = 0)%nat -> gold s = None) /\ ((1 <= i)%nat -> gold s = Some (est (i - 1)%nat) /\ gval s = Some (est (i - 1)%nat)))
  \/ (gact s = true /\ (3 <= i)%nat /\ gold s = Some (est (i - 1)%nat) /\ gval s = Some (est (i - 1)%nat) /\ gerr s = Some (Rabs (est (i - 2)%nat - est (i - 1)%nat)))
  \/ (gact s = false /\ gerr s = Some (10 ^ 100) /\ exists j, gval s = Some (est j) /\ 10 ^ 100 <= Rmax (Rabs (releps * est j)) abseps)
  \/ (gact s = false /\ exists j, (2 <= j < i)%nat /\ gval s = Some (est j) /\ gerr s = Some (Rabs (est (j - 1)%nat - est j)) /\
        Rabs (est (j - 1)%nat - est j) <= Rmax (Rabs (releps * est j)) abseps).
Lemma step_gq_inv releps abseps est i s : gq_inv releps abseps est i s -> idle_inv releps abseps s ->
  gq_inv releps abseps est (S i) (gq_step (fun v => v) releps abseps i (Some (est i)) s).
Proof.
  intros H Id. destruct (gact s) eqn:A.
  - destruct s as [v o e a]. cbn in A. subst a. unfold gq_step. cbn [gact gval gold gerr option_map andb].
    destruct H as [(_ & He & Hi & Ho & Hv)| [ (_ & Hi & Ho & Hv & He)| [ (C & _)|(C & _)]]]; cbn [gact gval gold gerr] in *; try discriminate.
    + assert (Ei : i = 0%nat \/ i = 1%nat \/ i = 2%nat) by lia. destruct Ei as [-> | [-> | ->]]; cbn [Nat.ltb Nat.leb].
      * destruct (ogt_tol e (Some (est 0%nat)) releps abseps) eqn:T.
        -- left. subst e. split; [reflexivity|]. split; [reflexivity|]. split; [lia|]. split; [intros; lia|]. intros _. split; reflexivity.
        -- right; right; left. subst e. split; [reflexivity|]. split; [reflexivity|]. exists 0%nat. split; [reflexivity|]. unfold ogt_tol in T. destruct (Rlt_dec _ _); [discriminate|]. lra.
      * destruct (ogt_tol e (Some (est 1%nat)) releps abseps) eqn:T.
        -- left. subst e. split; [reflexivity|]. split; [reflexivity|]. split; [lia|]. split; [intros; lia|]. intros _. split; reflexivity.
        -- right; right; left. subst e. split; [reflexivity|]. split; [reflexivity|]. exists 1%nat. split; [reflexivity|]. unfold ogt_tol in T. destruct (Rlt_dec _ _); [discriminate|]. lra.
      * destruct (Hv ltac:(lia)) as [Ho' _]. subst o. cbn [oabsdiff]. change (2 - 1)%nat with 1%nat.
        destruct (ogt_tol (Some (Rabs (est 1%nat - est 2%nat))) (Some (est 2%nat)) releps abseps) eqn:T.
        -- right; left. cbn. repeat split; auto.
        -- right; right; right. cbn. split; [reflexivity|]. exists 2%nat. repeat split; auto. cbn in T.
           destruct (Rlt_dec _ _); [discriminate|]. cbn. lra.
    + subst o. replace (1 <? i)%nat with true by (symmetry; apply Nat.ltb_lt; lia). cbn [oabsdiff].
      destruct (ogt_tol (Some (Rabs (est (i - 1)%nat - est i))) (Some (est i)) releps abseps) eqn:T.
      * right; left. cbn [gact gval gold gerr]. replace (S i - 1)%nat with i by lia. replace (S i - 2)%nat with (i - 1)%nat by lia. repeat split; try lia; auto.
      * right; right; right. cbn [gact gval gold gerr]. split; [reflexivity|]. exists i. repeat split; auto; try lia. cbn in T.
           destruct (Rlt_dec _ _); [discriminate|]. lra.
  - rewrite step_idle by auto. destruct H as [(C & _)| [ (C & _)|[H|(_ & j & Hj & H)]]]; try congruence.
    + right; right; left. exact H.
    + right; right; right. split; [exact A|]. exists j. split; [lia|exact H].
Qed.
Lemma run_gq_inv releps abseps est n : forall i s, gq_inv releps abseps est i s -> idle_inv releps abseps s ->
  gq_inv releps abseps est (n + i) (gq_run (fun v => v) releps abseps (fun i => Some (est i)) n i s).
Proof.
  induction n as [|n IH]; intros i s H Id; [exact H|]. cbn [gq_run plus]. replace (S (n + i)) with (n + S i)%nat by lia.
  apply IH; [apply step_gq_inv; assumption|apply step_inv].
Qed.
Lemma gq_run_ext store releps abseps e1 e2 n : (forall i, e1 i = e2 i) -> forall i s, gq_run store releps abseps e1 n i s = gq_run store releps abseps e2 n i s.
Proof. intros H. induction n as [|n IH]; intros i s; cbn; [reflexivity|]. rewrite H. apply IH. Qed.
Lemma gaussq_error rules wfun alpha beta releps abseps max_iter f a b est v e : (1 <= max_iter)%nat ->
  (forall i, gq_estimate wfun alpha beta (rules (2 ^ (i + 1))%nat) f a b = Some (est i)) ->
  gaussq (fun v => v) rules wfun alpha beta releps abseps max_iter [(f, a, b)] = [(Some v, Some e)] -> e < 10 ^ 100 ->
  exists i, (2 <= i < max_iter)%nat /\ v = est i /\ e = Rabs (est (i - 1)%nat - est i) /\
    ((i < max_iter - 1)%nat -> e <= Rmax (Rabs (releps * v)) abseps).
Proof.
  intros Hn He H Hlt. destruct max_iter as [|n]; [lia|]. rewrite gaussq_run in H. cbn [map] in H.
  rewrite (gq_run_ext _ _ _ _ (fun i => Some (est i))) in H by exact He.
  pose proof (run_gq_inv releps abseps est (S n) 0 gq_init) as G. rewrite Nat.add_0_r in G.
  set (s := gq_run _ _ _ _ _ _ _) in *. injection H as Hv Herr.
  destruct G as [(A & E & _)| [ (A & Hi & _ & V & E)| [ (A & E & _)|(A & j & Hj & V & E & T)]]].
  - left. cbn. repeat split; try lia.
  - intros C. discriminate C.
  - rewrite Herr in E. injection E as ->. lra.
  - exists n. rewrite Hv in V. rewrite Herr in E. injection V as ->. injection E as ->.
    replace (S n - 1)%nat with n by lia. replace (S n - 2)%nat with (n - 1)%nat by lia. rewrite ?Nat.sub_0_r. repeat split; auto; intros; lia.
  - rewrite Herr in E. injection E as ->. lra.
  - exists j. rewrite Hv in V. rewrite Herr in E. injection V as ->. injection E as ->. repeat split; auto; lia.
Qed.

(* ---- a low degree polynomial ---- *)
Lemma run_const releps abseps I est n : (forall i, est i = I) ->
  exists e, gq_run (fun v => v) releps abseps (fun i => Some (est i)) (S n) 0 gq_init = e /\ gval e = Some I /\
    ((2 <= n)%nat -> abseps < 10 ^ 100 -> Rabs (releps * I) < 10 ^ 100 -> gerr e = Some 0).
Proof.
  intros E. eexists. split; [reflexivity|].
  pose proof (run_gq_inv releps abseps est (S n) 0 gq_init) as G. rewrite Nat.add_0_r in G.
  assert (G0 : gq_inv releps abseps est 0 gq_init). { left. cbn. repeat split; try lia. }
  assert (I0 : idle_inv releps abseps gq_init) by (intros C; discriminate C).
  specialize (G G0 I0).
  assert (Z : forall i j, Rabs (est i - est j) = 0) by (intros; rewrite !E, Rminus_diag_eq by reflexivity; apply Rabs_R0).
  set (s := gq_run _ _ _ _ _ _ _) in *.
  destruct G as [(A & Er & Hi & _ & V)| [ (A & Hi & _ & V & Er)| [ (A & Er & j & V & T)|(A & j & Hj & V & Er & T)]]].
  - split; [rewrite (proj2 (V ltac:(lia))), E; reflexivity|]. intros; lia.
  - split; [rewrite V, E; reflexivity|]. intros. rewrite Er, Z. reflexivity.
  - split; [rewrite V, E; reflexivity|]. intros _ H1 H2. rewrite E in T. pose proof (Rmax_lub_lt _ _ _ H2 H1). lra.
  - split; [rewrite V, E; reflexivity|]. intros. rewrite Er, Z. reflexivity.
Qed.
