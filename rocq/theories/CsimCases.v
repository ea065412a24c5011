(* Simulation by circulant embedding: the statements and a few cases. *)
From Coq Require Import Reals List ZArith Lra Lia Bool.
From Coquelicot Require Import Complex.
From Verif Require Import Base PolyModel KdeModel SpectModel SpectProofs7 DftModel DftProofs CovModel ArSpec ArProofs2 CsimModel CsimSpec CsimProofs CsimProofs2 CsimProofs3.
Import ListNotations.
Local Open Scope R_scope.

Lemma embed_order eps data ns : fst (embed eps data ns) = if Rlt_dec eps (Rabs (last data 0)) then pow2_above (Nat.max (2 * List.length data - 1) (2 * ns)) else pow2_above (Nat.max (2 * List.length data - 2) (2 * ns)).
Proof. unfold embed. destruct (Rlt_dec eps (Rabs (last data 0))); reflexivity. Qed.
Lemma target_big eps data k : eps < Rabs (last data 0) -> target eps data k = nth k data 0.
Proof. intros H. unfold target. destruct (Rlt_dec eps (Rabs (last data 0))); [reflexivity|contradiction]. Qed.
Lemma target_small eps data k : Rabs (last data 0) <= eps -> target eps data k = averaged data k.
Proof. intros H. unfold target. destruct (Rlt_dec eps (Rabs (last data 0))); [lra|reflexivity]. Qed.
Lemma eigen_ext N r r' m : (forall k, r k = r' k) -> eigenvalue N r m = eigenvalue N r' m.
Proof. intros H. unfold eigenvalue. rewrite H. do 2 f_equal. apply sum_ext. intros k _. rewrite H. reflexivity. Qed.
Lemma sim_exact eps data args ns cases : (2 <= List.length data)%nat -> (2 <= List.length args)%nat -> (2 <= ns)%nat -> (forall k, (k < List.length data)%nat -> nth k data 0 <= nth 0 data 0) -> 0 < nth 0 data 0 -> eps < Rabs (last data 0) ->
  let N := pow2_above (Nat.max (2 * List.length data - 1) (2 * ns)) in let ev := eigenvalue N (fun k => nth k data 0) in
  (forall m j, (m < N)%nat -> (j < N)%nat -> ev j / 100000 <= ev m) ->
  forall a b p q, (a < cases)%nat -> (b < cases)%nat -> (p < ns)%nat -> (q < ns)%nat ->
  covariance3 N ((cases + 1) / 2) (fun d => value a p (sim eps data args (Some ns) cases d)) (fun d => value b q (sim eps data args (Some ns) cases d)) = if (a =? b)%nat then nth (distance p q) data 0 else 0.
Proof.
  intros LD LA LN MX P0 EL N ev EV a b p q A B P Q. assert (EN : fst (embed eps data ns) = N) by (rewrite embed_order; destruct (Rlt_dec eps (Rabs (last data 0))); [reflexivity|contradiction]).
  rewrite <- (target_big eps data (distance p q) EL). rewrite <- EN. apply sim_target; try assumption. rewrite EN. intros m j Hm Hj. rewrite !(eigen_ext N (target eps data) (fun k => nth k data 0)) by (intros k; apply target_big, EL). apply EV; assumption.
Qed.
Lemma sim_close eps data args ns cases M : (2 <= List.length data)%nat -> (2 <= List.length args)%nat -> (2 <= ns)%nat -> (forall k, (k < List.length data)%nat -> nth k data 0 <= nth 0 data 0) -> 0 < nth 0 data 0 -> eps < Rabs (last data 0) ->
  let N := pow2_above (Nat.max (2 * List.length data - 1) (2 * ns)) in
  (forall m, (m < N)%nat -> 0 <= eigenvalue N (fun k => nth k data 0) m <= M) ->
  forall a p q, (a < cases)%nat -> (p < ns)%nat -> (q < ns)%nat ->
  Rabs (covariance3 N ((cases + 1) / 2) (fun d => value a p (sim eps data args (Some ns) cases d)) (fun d => value a q (sim eps data args (Some ns) cases d)) - nth (distance p q) data 0) <= M / 100000.
Proof.
  intros LD LA LN MX P0 EL N EV a p q A P Q. assert (EN : fst (embed eps data ns) = N) by (rewrite embed_order; destruct (Rlt_dec eps (Rabs (last data 0))); [reflexivity|contradiction]).
  rewrite <- (target_big eps data (distance p q) EL). rewrite <- EN. apply sim_bound; try assumption. rewrite EN. intros m Hm. rewrite !(eigen_ext N (target eps data) (fun k => nth k data 0)) by (intros k; apply target_big, EL). apply EV; assumption.
Qed.
Lemma sim_averaged eps data args ns cases : (2 <= List.length data)%nat -> (2 <= List.length args)%nat -> (2 <= ns)%nat -> (forall k, (k < List.length data)%nat -> nth k data 0 <= nth 0 data 0) -> 0 < nth 0 data 0 -> Rabs (last data 0) <= eps ->
  let N := pow2_above (Nat.max (2 * List.length data - 2) (2 * ns)) in let ev := eigenvalue N (averaged data) in
  (forall m j, (m < N)%nat -> (j < N)%nat -> ev j / 100000 <= ev m) ->
  forall a b p q, (a < cases)%nat -> (b < cases)%nat -> (p < ns)%nat -> (q < ns)%nat ->
  covariance3 N ((cases + 1) / 2) (fun d => value a p (sim eps data args (Some ns) cases d)) (fun d => value b q (sim eps data args (Some ns) cases d)) = if (a =? b)%nat then averaged data (distance p q) else 0.
Proof.
  intros LD LA LN MX P0 EL N ev EV a b p q A B P Q. assert (EN : fst (embed eps data ns) = N) by (rewrite embed_order; destruct (Rlt_dec eps (Rabs (last data 0))); [lra|reflexivity]).
  rewrite <- (target_small eps data (distance p q) EL). rewrite <- EN. apply sim_target; try assumption. rewrite EN. intros m j Hm Hj. rewrite !(eigen_ext N (target eps data) (averaged data)) by (intros k; apply target_small, EL). apply EV; assumption.
Qed.
Lemma sim_shape eps data args ns cases d : (2 <= List.length data)%nat -> (2 <= List.length args)%nat -> (2 <= ns)%nat -> (forall k, (k < List.length data)%nat -> nth k data 0 <= nth 0 data 0) ->
  exists x, sim eps data args (Some ns) cases d = Ok (linspace 0 ((INR ns - 1) * ((last args 0 - nth 0 args 0) / INR (List.length args - 1))) ns, x) /\ List.length x = cases /\ forall a, (a < cases)%nat -> List.length (nth a x []) = ns.
Proof. intros LD LA LN MX. destruct (sim_form eps data args ns cases LD LA LN MX d) as [x [E [L [C _]]]]. exists x. split; [exact E|]. split; assumption. Qed.
Lemma sim_invalid eps data args ns cases d k : (k < List.length data)%nat -> nth 0 data 0 < nth k data 0 -> sim eps data args ns cases d = Err ValueError.
Proof. intros L H. unfold sim. rewrite (invalid_argmax data k L H). reflexivity. Qed.
Lemma sim_times eps data args ns cases d : (forall k, (k < List.length data)%nat -> nth k data 0 <= nth 0 data 0) -> data <> [] -> (List.length args <= 1)%nat -> sim eps data args ns cases d = Err IndexError.
Proof. intros MX NE L. unfold sim. rewrite valid_argmax by assumption. destruct args as [|a [|b l]]; [reflexivity|reflexivity|cbn in L; lia]. Qed.
Lemma sim_default : ~ (forall eps data args cases d, (2 <= List.length data)%nat -> (2 <= List.length args)%nat -> (forall k, (k < List.length data)%nat -> nth k data 0 <= nth 0 data 0) -> exists r, sim eps data args None cases d = Ok r).
Proof.
  intros H. destruct (H 0 [1; 0] [0; 1] 1%nat (fun _ _ _ => 0)) as [r E]; [cbn; lia|cbn; lia|intros [|[|k]] K; cbn in *; try lra; lia|]. unfold sim in E. rewrite valid_argmax in E; [discriminate|discriminate|]. intros [|[|k]] K; cbn in *; try lra; lia.
Qed.
(* a case that is simulated exactly: nfft = 8 *)
Lemma half_ev m : (m < 8)%nat -> eigenvalue 8 (fun k => nth k [2; 1 / 2] 0) m = 2 + cos (2 * PI * INR (m * 1) / INR 8).
Proof. intros _. unfold eigenvalue. cbn [sum_to Nat.sub nth]. lra. Qed.
Lemma simple_case : let N := pow2_above (Nat.max (2 * List.length [2; 1 / 2] - 1) (2 * 4)) in N = 8%nat /\ let ev := eigenvalue N (fun k => nth k [2; 1 / 2] 0) in forall m j, (m < N)%nat -> (j < N)%nat -> ev j / 100000 <= ev m.
Proof.
  intros N. assert (E : N = 8%nat) by reflexivity. split; [exact E|]. intros ev m j Hm Hj. unfold ev. rewrite E in *. rewrite !half_ev by assumption. pose proof (COS_bound (2 * PI * INR (m * 1) / INR 8)). pose proof (COS_bound (2 * PI * INR (j * 1) / INR 8)). lra.
Qed.
(* an autocovariance function that ends with 0 *)
Lemma zero_end : ~ (forall eps data args ns cases, 0 <= eps -> (2 <= List.length data)%nat -> (2 <= List.length args)%nat -> (2 <= ns)%nat -> (forall k, (k < List.length data)%nat -> nth k data 0 <= nth 0 data 0) -> 0 < nth 0 data 0 ->
  let N := pow2_above (Nat.max (2 * List.length data - 1) (2 * ns)) in let ev := eigenvalue N (fun k => nth k data 0) in
  (forall m j, (m < N)%nat -> (j < N)%nat -> ev j / 100000 <= ev m) ->
  forall a p q, (a < cases)%nat -> (p < ns)%nat -> (q < ns)%nat ->
  covariance3 N ((cases + 1) / 2) (fun d => value a p (sim eps data args (Some ns) cases d)) (fun d => value a q (sim eps data args (Some ns) cases d)) = nth (distance p q) data 0).
Proof.
  intros H. assert (MX : forall k, (k < List.length [3; 1; 0])%nat -> nth k [3; 1; 0] 0 <= nth 0 [3; 1; 0] 0) by (intros [|[|[|k]]] K; cbn in *; try lra; lia).
  assert (E1 : forall m, eigenvalue 8 (fun k => nth k [3; 1; 0] 0) m = 3 + 2 * cos (2 * PI * INR (m * 1) / INR 8)) by (intros m; unfold eigenvalue; cbn [sum_to Nat.sub nth]; lra).
  assert (E2 : forall m, eigenvalue 8 (averaged [3; 1; 0]) m = 3 + cos (2 * PI * INR (m * 1) / INR 8)) by (intros m; unfold eigenvalue; cbn [sum_to Nat.sub nth averaged]; lra).
  assert (N1 : pow2_above (Nat.max (2 * List.length [3; 1; 0] - 1) (2 * 4)) = 8%nat) by reflexivity. assert (N2 : pow2_above (Nat.max (2 * List.length [3; 1; 0] - 2) (2 * 4)) = 8%nat) by reflexivity.
  assert (L0 : Rabs (last [3; 1; 0] 0) <= 0) by (cbn; rewrite Rabs_R0; lra).
  pose proof (H 0 [3; 1; 0] [0; 1; 2] 4%nat 1%nat ltac:(lra) ltac:(cbn; lia) ltac:(cbn; lia) ltac:(lia) MX ltac:(cbn; lra)) as H1. cbv zeta in H1. rewrite N1 in H1.
  pose proof (sim_averaged 0 [3; 1; 0] [0; 1; 2] 4%nat 1%nat ltac:(cbn; lia) ltac:(cbn; lia) ltac:(lia) MX ltac:(cbn; lra) L0) as H2. cbv zeta in H2. rewrite N2 in H2.
  assert (Q1 := H1 ltac:(intros m j _ _; rewrite !E1; pose proof (COS_bound (2 * PI * INR (m * 1) / INR 8)); pose proof (COS_bound (2 * PI * INR (j * 1) / INR 8)); lra) 0%nat 0%nat 1%nat ltac:(lia) ltac:(lia) ltac:(lia)).
  assert (Q2 := H2 ltac:(intros m j _ _; rewrite !E2; pose proof (COS_bound (2 * PI * INR (m * 1) / INR 8)); pose proof (COS_bound (2 * PI * INR (j * 1) / INR 8)); lra) 0%nat 0%nat 0%nat 1%nat ltac:(lia) ltac:(lia) ltac:(lia) ltac:(lia)).
  rewrite Q1 in Q2. cbn in Q2. lra.
Qed.
(* a covariance function whose embedding has a negative eigenvalue: 14/5, 1, -4/5, 1 *)
Lemma negative_case : let N := pow2_above (Nat.max (2 * List.length [1; 9 / 10] - 1) (2 * 2)) in let ev := eigenvalue N (fun k => nth k [1; 9 / 10] 0) in
  N = 4%nat /\ peak_at N ev 0 /\ left_out N ev 0 2 /\ ~ left_out N ev 0 1.
Proof.
  intros N ev. assert (N = 4%nat) as EN by (vm_compute; reflexivity). clearbody N. subst N.
  assert (forall m, ev m = 1 + 9 / 5 * cos (2 * PI * INR m / 4)) as E.
  { intros m. unfold ev, eigenvalue. cbn [Nat.sub sum_to nth]. rewrite Nat.mul_1_r. replace (INR 4) with 4 by (cbn; lra). lra. }
  clearbody ev.
  assert (ev 0%nat = 14 / 5) as E0 by (rewrite E; replace (2 * PI * INR 0 / 4) with 0 by (cbn; field); rewrite cos_0; lra).
  assert (ev 1%nat = 1) as E1 by (rewrite E; replace (2 * PI * INR 1 / 4) with (PI / 2) by (cbn; field); rewrite cos_PI2; lra).
  assert (ev 2%nat = - (4 / 5)) as E2 by (rewrite E; replace (2 * PI * INR 2 / 4) with PI by (cbn; field); rewrite cos_PI; lra).
  assert (ev 3%nat = 1) as E3 by (rewrite E; replace (2 * PI * INR 3 / 4) with (3 * (PI / 2)) by (cbn; field); rewrite cos_3PI2; lra).
  split; [reflexivity|]. split; [|split].
  - split; [lia|]. split; [|intros m Hm; lia]. intros m Hm. destruct m as [|[|[|[|m]]]]; [lra..|lia].
  - left. lra.
  - intros [H|[(k & K1 & K2 & K3)|(H & _)]]; [lra| |lia]. assert (k = 1%nat) as -> by lia. lra.
Qed.
