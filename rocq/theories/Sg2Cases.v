From Coq Require Import Reals List Lra Lia Bool Arith.
From Verif Require Import Base ArSpec Sg2Model Sg2Spec Sg2Proofs Sg2Proofs4 Sg2Proofs5 Sg2Proofs6.
Import ListNotations.
Local Open Scope R_scope.
Set Bullet Behavior "Strict Subproofs".

(* the surface i^2 + 2 i j - j on 5 x 6 points, seen from (2, 3) *)
Definition hill : image := Image 5 6 (fun i j => INR i * INR i + 2 * INR i * INR j - INR j).
Definition hill_c (u v : nat) : R := match u, v with O, O => 13 | S O, O => 10 | O, S O => 3 | S (S O), O => 1 | S O, S O => 2 | _, _ => 0 end.
Lemma hill_looks : looks_like (px hill) 2 3 1 2 hill_c.
Proof.
  intros a b Ha Hb. destruct a as [|[|[|a]]]; [| | |lia]; destruct b as [|[|[|b]]]; try lia; cbn; ring.
Qed.
Lemma hill_case pinv : is_inverse pinv -> exists y y' y'', sgolay2d pinv hill 3 2 NoDeriv = Ok [y] /\ px y 2%nat 3%nat = 13 /\ sgolay2d pinv hill 3 2 Both = Ok [y'; y''] /\ px y' 2%nat 3%nat = 10 /\ px y'' 2%nat 3%nat = 3.
Proof.
  intros MP. assert (I : inside (rows hill) (cols hill) (3 / 2) 2 3) by (unfold inside; cbn; lia).
  destruct (accepted pinv hill 3 2 NoDeriv eq_refl ltac:(lia) ltac:(cbn; lia) ltac:(cbn; lia) ltac:(cbn; lia)) as [y [Ey _]].
  destruct (accepted pinv hill 3 2 Both eq_refl ltac:(lia) ltac:(cbn; lia) ltac:(cbn; lia) ltac:(cbn; lia)) as [y' [y'' [Ed _]]].
  destruct (both_slopes _ _ _ _ _ Ed) as [u [v [E [E1 E2]]]]. injection E as <- <-. exists y, y', y''.
  destruct (smoothing pinv hill 3 2 [y] 2 3 hill_c MP Ey I hill_looks) as [t [Et Vt]]. injection Et as <-.
  destruct (row_slope pinv hill 3 2 [y'] 2 3 hill_c 10 MP ltac:(lia) E1 I hill_looks (row_rate_is 2 hill_c ltac:(lia))) as [t' [Et' Vt']]. injection Et' as <-.
  destruct (column_slope pinv hill 3 2 [y''] 2 3 hill_c 3 MP ltac:(lia) E2 I hill_looks (column_rate_is 2 hill_c ltac:(lia))) as [t'' [Et'' Vt'']]. injection Et'' as <-.
  repeat split; auto. rewrite Vt. cbn. ring.
Qed.
Definition ramp : image := Image 7 6 (fun i j => INR i).
Lemma ramp_case pinv : is_inverse pinv -> plane (px ramp) 0 1 0 /\ exists y y', sgolay2d pinv ramp 5 5 Col = Ok [y] /\ px y 3%nat 3%nat <> 1 /\ sgolay2d pinv ramp 5 4 Col = Ok [y'] /\ px y' 3%nat 3%nat = 1.
Proof.
  intros MP. assert (P : plane (px ramp) 0 1 0) by (intros i j; cbn [px ramp]; ring). split; [exact P|].
  destruct (accepted pinv ramp 5 5 Col eq_refl ltac:(lia) ltac:(cbn; lia) ltac:(cbn; lia) ltac:(cbn; lia)) as [y [Ey _]].
  destruct (accepted pinv ramp 5 4 Both eq_refl ltac:(lia) ltac:(cbn; lia) ltac:(cbn; lia) ltac:(cbn; lia)) as [y' [y'' [Ed _]]].
  destruct (both_slopes _ _ _ _ _ Ed) as [u [v [E [E1 E2]]]]. injection E as <- <-. exists y, y'.
  destruct (high_order pinv ramp 5 5 [y] 3 3 MP ltac:(lia) P Ey ltac:(cbn; lia) ltac:(cbn; lia)) as [t [Et Vt]]. injection Et as <-.
  destruct (rising_slopes pinv ramp 5 4 _ 0 1 0 MP ltac:(lia) P ltac:(lra) ltac:(lra) Ed) as [t' [t'' [Et' Vt']]]. injection Et' as <- <-.
  repeat split; auto. apply (Vt' 3%nat 3%nat); cbn; lia.
Qed.
Definition slide : image := Image 4 4 (fun i j => - INR i).
Lemma slide_case pinv : plane (px slide) 0 (-1) 0 /\ exists y, sgolay2d pinv slide 3 1 NoDeriv = Ok [y].
Proof.
  split; [intros i j; cbn [px slide]; ring|].
  destruct (accepted pinv slide 3 1 NoDeriv eq_refl ltac:(lia) ltac:(cbn; lia) ltac:(cbn; lia) ltac:(cbn; lia)) as [y [Ey _]]. now exists y.
Qed.
Lemma inverse_case : exists pinv, is_inverse pinv.
Proof. exact inverse_exists. Qed.
