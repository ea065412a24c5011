From Coq Require Import Reals List Lra Lia Bool Arith ZArith.
From Coquelicot Require Import Coquelicot.
From Verif Require Import Base ArSpec PolyModel DftModel DftProofs CsimProofs ArProofs2 PadeProofs2 Sg2Spec Sg2Proofs OscModel OscSpec OscProofs OscProofs2 OscProofs3 OscProofs4 OscProofs6 OscProofs7.
Import ListNotations.
Local Open Scope R_scope.
Set Bullet Behavior "Strict Subproofs".

(* a solver: real and imaginary parts as 2 n real unknowns *)
Definition real_matrix (n : nat) (A : nat -> nat -> C) (p q : nat) : R :=
  if (p <? n)%nat then (if (q <? n)%nat then fst (A p q) else - snd (A p (q - n)%nat)) else (if (q <? n)%nat then snd (A (p - n)%nat q) else fst (A (p - n)%nat (q - n)%nat)).
Definition parts (n : nat) (y : nat -> C) (q : nat) : R := if (q <? n)%nat then fst (y q) else snd (y (q - n)%nat).
Definition solver (n : nat) (A : nat -> nat -> C) (b : nat -> C) (j : nat) : C :=
  let x := fun j => sum_to (n + n) (fun k => greville (n + n) (n + n) (real_matrix n A) j k * parts n b k) in (x j, x (n + j)%nat).
Lemma real_row n A y r : (r < n)%nat -> sum_to (n + n) (fun q => real_matrix n A r q * parts n y q) = fst (csum n (fun j => Cmult (A r j) (y j))) /\ sum_to (n + n) (fun q => real_matrix n A (n + r) q * parts n y q) = snd (csum n (fun j => Cmult (A r j) (y j))).
Proof.
  intros Hr. rewrite csum_fst, csum_snd. split; rewrite sum_split, <- sum_plus; apply sum_ext; intros j Hj; unfold real_matrix, parts;
    repeat match goal with |- context [(?x <? ?y)%nat] => destruct (Nat.ltb_spec x y); [|try lia]; try lia end; replace (n + j - n)%nat with j by lia; try replace (n + r - n)%nat with r by lia; cbn; ring.
Qed.
Lemma solver_solves : solves_systems solver.
Proof.
  intros n A b y H r Hr.
  assert (E : forall p, (p < n + n)%nat -> sum_to (n + n) (fun q => real_matrix n A p q * parts n y q) = parts n b p).
  { intros p Hp. unfold parts at 2. destruct (Nat.ltb_spec p n) as [L|L].
    - rewrite (proj1 (real_row n A y p L)). now rewrite H.
    - pose proof (proj2 (real_row n A y (p - n) ltac:(lia))) as Q. replace (n + (p - n))%nat with p in Q by lia. rewrite Q. now rewrite H by lia. }
  pose proof (consistent (n + n) (n + n) (real_matrix n A) _ (parts n b) (parts n y) (greville_inverse (n + n) (n + n) (real_matrix n A)) E) as K. cbv beta in K.
  set (x := fun j => sum_to (n + n) (fun k => greville (n + n) (n + n) (real_matrix n A) j k * parts n b k)) in *.
  assert (Px : forall q, (q < n + n)%nat -> parts n (solver n A b) q = x q).
  { intros q Hq. unfold parts, solver. fold x. destruct (Nat.ltb_spec q n); cbn [fst snd]; [reflexivity|]. unfold x. now replace (n + (q - n))%nat with q by lia. }
  destruct (real_row n A (solver n A b) r Hr) as [R1 R2]. apply C_ext.
  - rewrite <- R1. rewrite (sum_ext _ _ (fun q => real_matrix n A r q * x q)) by (intros q Hq; now rewrite Px). etransitivity; [exact (K r ltac:(lia))|]. unfold parts. destruct (Nat.ltb_spec r n); [reflexivity|lia].
  - rewrite <- R2. rewrite (sum_ext _ _ (fun q => real_matrix n A (n + r) q * x q)) by (intros q Hq; now rewrite Px). etransitivity; [exact (K (n + r)%nat ltac:(lia))|]. unfold parts. destruct (Nat.ltb_spec (n + r) n); [lia|]. now replace (n + r - n)%nat with r by lia.
Qed.
Lemma solver_exists : exists ls, solves_systems ls. Proof. exists solver. exact solver_solves. Qed.
Lemma bases : is_basis poly_basis /\ is_basis chebyshev_basis. Proof. split; [exact poly_basis_ok|exact chebyshev_basis_ok]. Qed.
(* t exp(i t) from 0 to 2 pi *)
Lemma saw_integral v : integral (oscillating 1 (fun t => t) (fun t => RtoC t)) 0 (2 * PI) v -> v = (0, - (2 * PI)).
Proof.
  intros [I1 I2]. assert (Ph : phase (fun t : R => t) (fun _ => 1)) by (apply (linear_phase _ _ 1 0); intros; ring).
  destruct (amplitude_integral 1 (fun t => t) (fun _ => 1) 2 (fun k => if (k =? 0)%nat then RtoC 1 else (0, -1)) 0 (2 * PI) Ph) as [J1 J2].
  assert (A : forall t, amplitude 1 (fun _ => 1) 2 (fun k => if (k =? 0)%nat then RtoC 1 else (0, -1)) t = RtoC t) by (intros t; unfold amplitude, dpoly, cpoly; apply C_ext; cbn; ring).
  set (bd := boundary 1 (fun t => t) 2 (fun k => if (k =? 0)%nat then RtoC 1 else (0, -1)) 0 (2 * PI)) in *.
  assert (E : v = bd).
  { apply C_ext; [apply (unique_integral (fun t => fst (oscillating 1 (fun t => t) (fun t => RtoC t) t)) 0 (2 * PI) _ _ I1)|apply (unique_integral (fun t => snd (oscillating 1 (fun t => t) (fun t => RtoC t) t)) 0 (2 * PI) _ _ I2)].
    - apply (is_RInt_ext (fun t => fst (oscillating 1 (fun t => t) (amplitude 1 (fun _ => 1) 2 (fun k => if (k =? 0)%nat then RtoC 1 else (0, -1))) t))); [|exact J1]. intros t _. unfold oscillating. now rewrite A.
    - apply (is_RInt_ext (fun t => snd (oscillating 1 (fun t => t) (amplitude 1 (fun _ => 1) 2 (fun k => if (k =? 0)%nat then RtoC 1 else (0, -1))) t))); [|exact J2]. intros t _. unfold oscillating. now rewrite A. }
  rewrite E. unfold bd, boundary, oscillating, cpoly, cis. rewrite !Rmult_1_l, cos_2PI, sin_2PI, cos_0, sin_0. apply C_ext; cbn; ring.
Qed.
Lemma saw_case ls dea3 eps prec : solves_systems ls -> exists err n, quad_call ls chebyshev_basis dea3 eps prec 10 15 false (fun t => RtoC t) (fun t => t) (fun _ => 1) 0 (2 * PI) 1 = Ok ((0, - (2 * PI)), err, n).
Proof.
  intros LS. destruct (quad_fourier ls chebyshev_basis dea3 eps prec 10 15 false (fun t => RtoC t) (fun t => t) (fun _ => 1) 0 (2 * PI) 1 1 0 (fun k => if (k =? 1)%nat then RtoC 1 else RtoC 0) 2 LS chebyshev_basis_ok ltac:(lia) ltac:(discriminate)) as (v & err & n & E & I); try (intros; ring); try lra; try lia.
  - intros t. unfold cpoly. apply C_ext; cbn; ring.
  - exists err, n. rewrite E. do 3 f_equal. now apply saw_integral.
Qed.
Lemma levin_case ls crossings evans : solves_systems ls -> exists err n, levin_call evans ls chebyshev_basis crossings 10 false 1 (fun t => t) (fun t => t) (fun _ => 1) 0 (2 * PI) 1 = Ok ((0, - (2 * PI)), err, n).
Proof.
  intros LS. pose proof PI_RGT_0. destruct (levin_linear evans ls chebyshev_basis crossings 10 false 1 (fun t => t) (fun t => t) (fun _ => 1) 0 (2 * PI) 1 1 0 2 (fun k => if (k =? 1)%nat then RtoC 1 else RtoC 0) LS chebyshev_basis_ok) as (v & err & n & E & I); try (intros; ring); try lra.
  - intros t. unfold cpoly. apply C_ext; cbn; ring.
  - rewrite Bool.andb_false_r. lia.
  - exists err, n. rewrite E. do 3 f_equal. now apply saw_integral.
Qed.
