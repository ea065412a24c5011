From Coq Require Import Reals List Lra Lia Bool Arith.
From Verif Require Import Base ArSpec ArProofs2 CsimProofs Sg2Model Sg2Spec Sg2Proofs Sg2Proofs2 Sg2Proofs3 Sg2Proofs4 Sg2Proofs5.
Import ListNotations.
Local Open Scope R_scope.
Set Bullet Behavior "Strict Subproofs".

(* ---- falling planes at the border ---- *)
Lemma row_space p q A P k r : moore_penrose p q A P -> (k < q)%nat -> (r < p)%nat -> P k r = sum_to q (fun m => A r m * sum_to p (fun t => P k t * P m t)).
Proof.
  intros (_ & H2 & H3 & _) Hk Hr. rewrite <- (H2 k r Hk Hr), times_assoc. unfold times at 1. rewrite (sum_ext p _ (fun t => sum_to q (fun m => A r m * (P k t * P m t)))).
  - rewrite sum_swap. apply sum_ext. intros m _. apply sum_scal.
  - intros t Ht. rewrite (H3 t r Ht Hr). unfold times. rewrite <- sum_scal. apply sum_ext. intros; ring.
Qed.
Lemma mean_kernel P r : moore_penrose 9 3 (design 3 1 1) P -> (r < 9)%nat -> P 0%nat r = 1 / 9.
Proof.
  intros MP Hr. set (B := fun m => sum_to 9 (fun t => P 0%nat t * P m t)).
  assert (E : forall t, (t < 9)%nat -> P 0%nat t = sum_to 3 (fun m => design 3 1 1 t m * B m)) by (intros t Ht; apply (row_space 9 3); [exact MP|lia|exact Ht]).
  assert (D : forall l, (l < 3)%nat -> sum_to 9 (fun t => sum_to 3 (fun m => design 3 1 1 t m * B m) * design 3 1 1 t l) = unit_m l 0).
  { intros l Hl. rewrite <- (row_zero 1 1 P l MP Hl). unfold times. apply sum_ext. intros t Ht. now rewrite <- E. }
  rewrite (E r Hr). clear E. clearbody B.
  assert (B0 : B 0%nat = 1 / 9). { pose proof (D 0%nat ltac:(lia)) as K. unfold unit_m, design, exps in K. cbn in K. lra. }
  assert (B1 : B 1%nat = 0). { pose proof (D 1%nat ltac:(lia)) as K. unfold unit_m, design, exps in K. cbn in K. lra. }
  assert (B2 : B 2%nat = 0). { pose proof (D 2%nat ltac:(lia)) as K. unfold unit_m, design, exps in K. cbn in K. lra. }
  cbn [sum_to]. rewrite B0, B1, B2. unfold design, exps. cbn [seq flat_map map app nth fst snd Nat.add Nat.sub pow]. ring.
Qed.
Lemma falling_plane pinv z out : is_inverse pinv -> plane (px z) 0 (-1) 0 -> (3 <= rows z)%nat -> (3 <= cols z)%nat -> sgolay2d pinv z 3 1 NoDeriv = Ok out ->
  px z 0%nat 1%nat = 0 /\ exists y, out = [y] /\ px y 0%nat 1%nat = - 2 / 3.
Proof.
  intros MP P Hr Hc H. split; [rewrite P; cbn; ring|]. apply call_spec in H. cbv zeta in H. destruct H as (_ & _ & _ & _ & _ & _ & ->). eexists. split; [reflexivity|].
  pose proof (MP 9%nat 3%nat (design 3 1 1)) as Q.
  assert (K : forall r, (r < 9)%nat -> 1 * pinv 9%nat 3%nat (design 3 1 1) 0%nat r = 1 / 9) by (intros r Hr'; rewrite (mean_kernel _ r Q Hr'); ring).
  assert (V : forall i j, (i < 3)%nat -> (j < 3)%nat -> pad z 1 i (1 + j) = match i with S O => 0 | _ => -1 end).
  { intros i j Hi Hj. unfold pad. cbv zeta. assert (J1 : (1 + j <? 1)%nat = false) by (apply Nat.ltb_ge; lia). assert (J2 : (1 + j <? 1 + cols z)%nat = true) by (apply Nat.ltb_lt; lia). rewrite J1, J2.
    destruct i as [|[|[|i]]]; [| | |lia].
    - cbn [Nat.ltb Nat.leb]. unfold top. rewrite !P. cbn [Nat.sub INR]. replace (0 + -1 * 1 + 0 * INR (1 + j - 1) - (0 + -1 * 0 + 0 * INR (1 + j - 1))) with (- (1)) by ring. rewrite Rabs_Ropp, Rabs_R1. ring.
    - assert (I2 : (1 <? 1 + rows z)%nat = true) by (apply Nat.ltb_lt; lia). rewrite I2. cbn [Nat.ltb Nat.leb]. rewrite P. cbn. ring.
    - assert (I2 : (2 <? 1 + rows z)%nat = true) by (apply Nat.ltb_lt; lia). rewrite I2. cbn [Nat.ltb Nat.leb]. rewrite P. cbn. ring. }
  change (sum_to 3 (fun a => sum_to 3 (fun b => (1 * pinv 9%nat 3%nat (design 3 1 1) 0%nat (a * 3 + b)%nat) * pad z 1 (0 + 2 * 1 - a) (1 + 2 * 1 - b))) = - 2 / 3).
  cbn [sum_to]. rewrite !K by (cbn; lia).
  change (1 + 2 * 1 - 0)%nat with (1 + 2)%nat. change (1 + 2 * 1 - 1)%nat with (1 + 1)%nat. change (1 + 2 * 1 - 2)%nat with (1 + 0)%nat. rewrite !V by (cbn; lia). cbn. field.
Qed.

(* ---- refused calls ---- *)
Lemma even_window pinv z w order d : Nat.even w = true -> sgolay2d pinv z w order d = Err TypeError.
Proof.
  intros H. unfold sgolay2d. cbv zeta. apply Nat.even_spec in H. destruct H as [k ->]. replace ((2 * k) mod 2)%nat with 0%nat by (rewrite Nat.mul_comm, Nat.mod_mul by lia; reflexivity). reflexivity.
Qed.
Lemma few_points pinv z w order d : (2 * (w * w) + 1 < (order + 1) * (order + 2))%nat -> sgolay2d pinv z w order d = Err TypeError.
Proof.
  intros H. unfold sgolay2d. cbv zeta. destruct (negb _ || _)%bool; [reflexivity|]. destruct (Nat.ltb_spec (w * w) ((order + 1) * (order + 2) / 2)) as [L|L]; [reflexivity|]. exfalso.
  pose proof (Nat.div_mod ((order + 1) * (order + 2)) 2 ltac:(lia)) as D. pose proof (Nat.mod_upper_bound ((order + 1) * (order + 2)) 2 ltac:(lia)). lia.
Qed.
Lemma accepted pinv z w order d : Nat.odd w = true -> (3 <= w)%nat -> (w / 2 < rows z)%nat -> (w / 2 < cols z)%nat -> ((order + 1) * (order + 2) <= 2 * (w * w) + 1)%nat ->
  match d with
  | Other => sgolay2d pinv z w order d = Err KeyError
  | NoDeriv => exists y, sgolay2d pinv z w order d = Ok [y] /\ rows y = rows z /\ cols y = cols z
  | Col | Row => if (order =? 0)%nat then sgolay2d pinv z w order d = Err IndexError else exists y, sgolay2d pinv z w order d = Ok [y] /\ rows y = rows z /\ cols y = cols z
  | Both => if (order =? 0)%nat then sgolay2d pinv z w order d = Err IndexError else exists y y', sgolay2d pinv z w order d = Ok [y; y'] /\ rows y = rows z /\ cols y = cols z /\ rows y' = rows z /\ cols y' = cols z
  end.
Proof.
  intros Ow W Hr Hc Hn. apply Nat.odd_spec in Ow. destruct Ow as [k Ek]. assert (E1 : (w mod 2 =? 1)%nat = true) by (apply Nat.eqb_eq; subst w; rewrite Nat.add_comm, Nat.mul_comm, Nat.mod_add by lia; reflexivity).
  assert (E2 : (w <? 1)%nat = false) by (apply Nat.ltb_ge; lia).
  assert (E3 : (w * w <? (order + 1) * (order + 2) / 2)%nat = false).
  { apply Nat.ltb_ge. pose proof (Nat.div_mod ((order + 1) * (order + 2)) 2 ltac:(lia)) as D. lia. }
  assert (E4 : (w / 2 <? 1)%nat = false) by (apply Nat.ltb_ge; apply Nat.div_le_lower_bound; lia).
  assert (E5 : (rows z <=? w / 2)%nat = false) by (apply Nat.leb_gt; exact Hr). assert (E6 : (cols z <=? w / 2)%nat = false) by (apply Nat.leb_gt; exact Hc).
  unfold sgolay2d. cbv zeta. rewrite E1, E2, E3, E4, E5, E6. cbn [negb orb].
  destruct d; try reflexivity.
  - destruct (exps_0 order) as [_ L]. cbn [existsb]. apply Nat.leb_gt in L. rewrite L. cbn [orb map]. eexists. split; [reflexivity|]. split; reflexivity.
  - destruct (Nat.eqb_spec order 0) as [->|N]; [reflexivity|]. destruct (exps_prefix order ltac:(lia)) as [L E]. cbn [existsb]. assert (X1 : (List.length (exps order) <=? 1)%nat = false) by (now rewrite E). assert (X2 : (List.length (exps order) <=? 2)%nat = false) by (now rewrite E). rewrite ?X1, ?X2. cbn [orb map]. eexists. split; [reflexivity|]. split; reflexivity.
  - destruct (Nat.eqb_spec order 0) as [->|N]; [reflexivity|]. destruct (exps_prefix order ltac:(lia)) as [L E]. cbn [existsb]. assert (X1 : (List.length (exps order) <=? 1)%nat = false) by (now rewrite E). assert (X2 : (List.length (exps order) <=? 2)%nat = false) by (now rewrite E). rewrite ?X1, ?X2. cbn [orb map]. eexists. split; [reflexivity|]. split; reflexivity.
  - destruct (Nat.eqb_spec order 0) as [->|N]; [reflexivity|]. destruct (exps_prefix order ltac:(lia)) as [L E]. cbn [existsb]. assert (X1 : (List.length (exps order) <=? 1)%nat = false) by (now rewrite E). assert (X2 : (List.length (exps order) <=? 2)%nat = false) by (now rewrite E). rewrite ?X1, ?X2. cbn [orb map]. eexists. eexists. split; [reflexivity|]. repeat split; reflexivity.
Qed.
