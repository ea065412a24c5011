From Coq Require Import Reals List ZArith Bool Lia Lra Arith.
From Verif Require Import Base KdeModel KdeProofs ProcModel ProcProofs PolyModel HistModel HistSpec HistProofs ArSpec EstModel EstSpec EstProofs EstProofs2 EstProofs3 EstProofs4.
Import ListNotations.
Local Open Scope R_scope.

Definition inverse2 (M : list (list R)) : list (list R) :=
  let a := cell M 0 0 in let b := cell M 0 1 in let c := cell M 1 0 in let d := cell M 1 1 in let D := a * d - b * c in
  [[d / D; - b / D]; [- c / D; a / D]].
Definition demo (p : list R) : R := let a := nth 0 p 0 - 1 in let b := nth 1 p 0 - 2 in let c := nth 2 p 0 - 3 in a ^ 2 + a * b + b ^ 2 + c ^ 3.
Definition demo_A (i j : nat) : R := match i, j with O, O => 2 | O, S O => 1 | S O, O => 1 | S O, S O => 2 | _, _ => 0 end.
Lemma inverse2_ok : inverts 2 inverse2.
Proof.
  intros M A B HM IV. apply (proj1 (matrix_dims _ _ _)) in HM. destruct HM as [_ E].
  pose proof (IV 0 0 ltac:(lia) ltac:(lia))%nat as [P1 Q1]. pose proof (IV 0 1 ltac:(lia) ltac:(lia))%nat as [P2 Q2].
  pose proof (IV 1 0 ltac:(lia) ltac:(lia))%nat as [P3 Q3]. pose proof (IV 1 1 ltac:(lia) ltac:(lia))%nat as [P4 Q4]. cbn [sum_to Nat.eqb] in *. rewrite !Rplus_0_l in *.
  assert (C : cell M 0 0 = A 0%nat 0%nat /\ cell M 0 1 = A 0%nat 1%nat /\ cell M 1 0 = A 1%nat 0%nat /\ cell M 1 1 = A 1%nat 1%nat) by (repeat split; apply E; lia). destruct C as [C1 [C2 [C3 C4]]].
  unfold inverse2. cbv zeta. rewrite C1, C2, C3, C4. set (a := A 0%nat 0%nat) in *. set (b := A 0%nat 1%nat) in *. set (c := A 1%nat 0%nat) in *. set (d := A 1%nat 1%nat) in *.
  set (x := B 0%nat 0%nat) in *. set (y := B 0%nat 1%nat) in *. set (z := B 1%nat 0%nat) in *. set (t := B 1%nat 1%nat) in *.
  assert (D1 : (a * d - b * c) * (x * t - y * z) = 1).
  { replace ((a * d - b * c) * (x * t - y * z)) with ((a * x + b * z) * (c * y + d * t) - (a * y + b * t) * (c * x + d * z)) by ring. rewrite P1, P2, P3, P4. ring. }
  assert (D0 : a * d - b * c <> 0) by (intros Z; rewrite Z in D1; lra).
  assert (X : x = d / (a * d - b * c)). { apply (Rmult_eq_reg_r (a * d - b * c)); [|exact D0]. replace (d / (a * d - b * c) * (a * d - b * c)) with d by (field; exact D0). replace (x * (a * d - b * c)) with ((x * a + y * c) * d - (x * b + y * d) * c) by ring. rewrite Q1, Q2. ring. }
  assert (Y : y = - b / (a * d - b * c)). { apply (Rmult_eq_reg_r (a * d - b * c)); [|exact D0]. replace (- b / (a * d - b * c) * (a * d - b * c)) with (- b) by (field; exact D0). replace (y * (a * d - b * c)) with ((x * b + y * d) * a - (x * a + y * c) * b) by ring. rewrite Q1, Q2. ring. }
  assert (Zz : z = - c / (a * d - b * c)). { apply (Rmult_eq_reg_r (a * d - b * c)); [|exact D0]. replace (- c / (a * d - b * c) * (a * d - b * c)) with (- c) by (field; exact D0). replace (z * (a * d - b * c)) with ((z * a + t * c) * d - (z * b + t * d) * c) by ring. rewrite Q3, Q4. ring. }
  assert (T : t = a / (a * d - b * c)). { apply (Rmult_eq_reg_r (a * d - b * c)); [|exact D0]. replace (a / (a * d - b * c) * (a * d - b * c)) with a by (field; exact D0). replace (t * (a * d - b * c)) with ((z * b + t * d) * a - (z * a + t * c) * b) by ring. rewrite Q3, Q4. ring. }
  split; [reflexivity|]. split; [intros r [<-|[<-|[]]]; reflexivity|]. intros [|[|i]] [|[|j]] Hi Hj; try lia; cbn [nth]; symmetry; assumption.
Qed.
Lemma demo_quadratic : nearly_quadratic demo [1; 2; 3] (/ 2 ^ 13) 0 demo_A.
Proof.
  exists 0, (fun v => (nth 2 v 0) ^ 3). split.
  - intros [|a [|b [|c [|? ?]]]] L; cbn in L; try discriminate. cbn. ring.
  - intros [|a [|b [|c [|? ?]]]] L _; cbn in L; try discriminate.
    match goal with |- Rabs ?e <= 0 => replace e with 0; [rewrite Rabs_R0; lra|] end.
    unfold shifted, demo. change (List.length [1; 2; 3]) with 3%nat. cbn [seq map nth sum_to demo_A]. field.
Qed.
Lemma cov_case : exists cov, compute_cov inverse2 demo [1; 2; 3] (Some [2%nat]) = Ok cov /\
  nth 0 (nth 0 cov []) 0 = 2 / 3 /\ nth 1 (nth 0 cov []) 0 = - 1 / 3 /\ nth 1 (nth 1 cov []) 0 = 2 / 3 /\ nth 2 (nth 2 cov []) 0 = 0 /\ nth 2 (nth 0 cov []) 0 = 0.
Proof.
  destruct (covariance_quadratic inverse2 demo [1; 2; 3] [2%nat] [0; 1]%nat demo_A
    (fun i j => match i, j with O, O => 2 / 3 | O, S O => - 1 / 3 | S O, O => - 1 / 3 | S O, S O => 2 / 3 | _, _ => 0 end)) as [cov [E [Z V]]].
  - intros i [<-|[]]. cbn. lia.
  - split.
    + intros i. cbn. split; intros H; [lia|]. destruct H as [H1 H2]. lia.
    + intros a b H. cbn in H. assert (a = 0 /\ b = 1)%nat as [-> ->] by lia. cbn. lia.
  - intros [|[|[|i]]] [|[|[|j]]] Hi Hj; cbn in Hi, Hj; try lia; reflexivity.
  - exact demo_quadratic.
  - exact inverse2_ok.
  - intros [|[|i]] [|[|j]] Hi Hj; cbn in Hi, Hj; try lia; cbn; split; lra.
  - exists cov. split; [exact E|]. pose proof (V 0 0)%nat as V00. pose proof (V 0 1)%nat as V01. pose proof (V 1 1)%nat as V11. cbn [nth List.length] in *.
    rewrite V00, V01, V11 by lia. rewrite (Z 2 2)%nat, (Z 0 2)%nat by (cbn; auto). repeat split; lra.
Qed.
Definition logistic (x : R) : R := 1 / (1 + exp (- x)).
Lemma logistic_case : quantiles logistic (fun p => ln (p / (1 - p))).
Proof.
  unfold logistic. split; [|split].
  - intros x y H. assert (E : exp (- y) < exp (- x)) by (apply exp_increasing; lra). pose proof (exp_pos (- x)). pose proof (exp_pos (- y)).
    unfold Rdiv. rewrite !Rmult_1_l. apply Rinv_lt_contravar; [nra|lra].
  - intros x. rewrite Ropp_involutive. pose proof (exp_pos x) as P. rewrite exp_Ropp. field. lra.
  - intros p P. rewrite exp_Ropp, exp_ln by (apply Rdiv_lt_0_compat; lra). field. lra.
Qed.
Lemma ladder_eq lo s K L : List.length L = (K + 1)%nat -> (forall i, (i <= K)%nat -> nth i L 0 = lo + INR i * s) -> ladder lo s K = L.
Proof. intros E H. apply list_eq; [rewrite ladder_length; auto|]. intros i I. rewrite ladder_length in I. rewrite ladder_nth by lia. symmetry. apply H. lia. Qed.
Lemma step_case : grid_step (11 / 2) = 2.
Proof.
  unfold grid_step. assert (LT : ln (11 / 2) < ln 10) by (apply ln_increasing; lra). assert (L0 : 0 < ln (11 / 2)) by (rewrite <- ln_1; apply ln_increasing; lra). pose proof ln10 as L10.
  rewrite (floor_unique (ln (11 / 2) / ln 10) 0).
  2:{ split; [apply Rlt_le, Rdiv_lt_0_compat; lra|]. rewrite Rplus_0_l. apply Rmult_lt_reg_r with (ln 10); [exact L10|]. unfold Rdiv. rewrite Rmult_assoc, Rinv_l by lra. lra. }
  cbn [powerRZ]. rewrite (floor_unique (11 / 2 / 1) 5) by (change (IZR 5) with 5; lra). cbn [Z.ltb Z.compare Pos.compare Pos.compare_cont]. lra.
Qed.
(* a step of 5 would fit: 5 <= 5.5 *)
Definition demo_x : list R := 0 :: repeat 22 15.
Lemma grid_case : get_grid demo_x false = Ok [-2; 0; 2; 4; 6; 8; 10; 12; 14; 16; 18; 20; 22].
Proof.
  assert (MN : minR demo_x = 0 /\ maxR demo_x = 22).
  { assert (N : demo_x <> []) by discriminate. destruct (minR_spec demo_x N) as [I1 M1]. destruct (maxR_spec demo_x N) as [I2 M2].
    pose proof (M1 0 ltac:(left; reflexivity)) as A. pose proof (M2 22 ltac:(right; left; reflexivity)) as B.
    assert (IN : forall v, In v demo_x -> v = 0 \/ v = 22) by (intros v [<-|H]; [left; reflexivity|right; apply repeat_spec in H; exact H]).
    destruct (IN _ I1), (IN _ I2); split; lra. }
  destruct MN as [M1 M2]. unfold get_grid, demo_x. cbv zeta. fold demo_x. rewrite M1, M2. change (List.length demo_x) with 16%nat.
  assert (S1 : sqrt (INR 16) = 4) by (replace (INR 16) with (4 * 4) by (cbn; lra); apply sqrt_square; lra). assert (S2 : sqrt 4 = 2) by (replace 4 with (2 * 2) by lra; apply sqrt_square; lra).
  rewrite S1, S2. rewrite (ceil_unique (4 * 2) 8) by (change (IZR 8) with 8; lra). replace ((22 - 0) / 8 * 2) with (11 / 2) by lra. destruct (Rlt_dec 0 (11 / 2)); [|lra]. rewrite step_case.
  rewrite (floor_unique (0 / 2) 0) by lra. rewrite (ceil_unique (22 / 2) 11) by (change (IZR 11) with 11; lra). cbn [b2r].
  replace ((0 - 1) * 2 - 0 * 2 / 2) with (-2) by lra. replace ((11 + 1) * 2 + 0 * 2 / 2) with (-2 + INR (12 + 1) * 2) by (cbn [INR Nat.add]; lra).
  rewrite arange_whole by lra. f_equal. apply ladder_eq; [reflexivity|]. intros i I. do 13 (destruct i as [|i]; [cbn [nth]; cbn [INR]; lra|]). lia.
Qed.
Lemma pdf_case : exists xx y, empirical_pdf demo_x = Ok (xx, map Some y) /\ area xx y = 1.
Proof. destruct (pdf_ok demo_x) as [e [h [xx [y [E [_ [_ [A _]]]]]]]]; [exists 0, 22; cbn; split; [auto|split; [auto|lra]]|]. eauto. Qed.
