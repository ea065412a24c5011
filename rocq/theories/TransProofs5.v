From Coq Require Import Reals ZArith Lra Lia Psatz.
From Coquelicot Require Import Coquelicot.
From Verif Require Import Base PolyModel TransModel TransSpec TransProofs TransProofs2 TransProofs3 TransProofs4.
Local Open Scope R_scope.

Lemma parameters_hardening : forall eps pardef s, kurt s <= 3 -> parameters eps pardef s = Ok (skew s / 6, chop eps ((kurt s - 3) / 24)).
Proof. intros eps pardef s H. unfold parameters. destruct (Rle_dec (kurt s) 3); [|lra]. reflexivity. Qed.
Lemma parameters_1988 : forall eps s, 3 < kurt s -> parameters eps 2 s = Ok (c3_1988 (skew s) (kurt s - 3), chop eps (c4_1988 (kurt s - 3))).
Proof. intros eps s H. unfold parameters. destruct (Rle_dec (kurt s) 3); [lra|]. cbn [Z.eqb Pos.eqb]. unfold winterstein1988, sqrt_. destruct (Rlt_dec (1 + 1.5 * (kurt s - 3)) 0); [lra|]. reflexivity. Qed.
Lemma parameters_1994 : forall eps pardef s, pardef <> 2%Z -> 3 < kurt s -> 
  (1.43 * skew s ^ 2 < kurt s - 3 -> parameters eps pardef s = Ok (c3_1994 (skew s) (kurt s - 3), chop eps (c4_1994 (skew s) (kurt s - 3)))) /\
  (kurt s - 3 < 1.43 * skew s ^ 2 -> 1 - 0.1 * Rpower (kurt s) 0.8 <> 0 -> parameters eps pardef s = Err ValueError).
Proof.
  intros eps pardef s Hp H. unfold parameters. destruct (Rle_dec (kurt s) 3); [lra|]. destruct (Z.eqb_spec pardef 2); [contradiction|]. unfold winterstein1994. destruct (Req_EM_T (kurt s - 3) 0); [lra|].
  set (ek := kurt s - 3) in *. replace (power (ek + 3) 0.8) with (Some (Rpower (ek + 3) 0.8)) by (unfold power; destruct (Req_EM_T 0.8 0); [lra|]; destruct (Rlt_dec 0 (ek + 3)); [reflexivity|unfold ek in *; lra]). cbn [obind].
  replace (power (1 + 1.25 * ek) (1 / 3)) with (Some (Rpower (1 + 1.25 * ek) (1 / 3))) by (unfold power; destruct (Req_EM_T (1 / 3) 0); [lra|]; destruct (Rlt_dec 0 (1 + 1.25 * ek)); [reflexivity|unfold ek in *; lra]).
  assert (Hek : 0 < ek) by (unfold ek; lra). split.
  - intros L. assert (B : 0 < 1 - 1.43 * skew s ^ 2 / ek). { assert (1.43 * skew s ^ 2 / ek < 1); [|lra]. apply (Rmult_lt_reg_r ek); auto. unfold Rdiv. rewrite Rmult_assoc, Rinv_l by lra. lra. }
    assert (E : power (1 - 1.43 * skew s ^ 2 / ek) (1 - 0.1 * Rpower (ek + 3) 0.8) = Some (Rpower (1 - 1.43 * skew s ^ 2 / ek) (1 - 0.1 * Rpower (ek + 3) 0.8))).
    { unfold power. destruct (Req_EM_T _ 0) as [Z|Z]; [rewrite Z, Rpower_O by auto; reflexivity|]. destruct (Rlt_dec 0 _); [reflexivity|contradiction]. }
    rewrite E. reflexivity.
  - intros L N. assert (B : 1 - 1.43 * skew s ^ 2 / ek < 0). { assert (1 < 1.43 * skew s ^ 2 / ek); [|lra]. apply (Rmult_lt_reg_r ek); auto. unfold Rdiv. rewrite Rmult_assoc, Rinv_l by lra. lra. }
    unfold power. replace (ek + 3) with (kurt s) by (unfold ek; ring). destruct (Req_EM_T _ 0) as [Z|Z]; [contradiction|]. destruct (Rlt_dec 0 _); [lra|]. destruct (Req_EM_T _ 0); [lra|]. reflexivity.
Qed.
Lemma hermite_derivatives : forall h x x1 xi, hermite_dat2gauss h x (x1 :: xi) = Err ValueError /\ hermite_gauss2dat h x (x1 :: xi) = Err ValueError.
Proof. intros. split; reflexivity. Qed.

(* an instance of brentq for the Example: the function handed over tells its skewness through its value at 1 *)
Lemma bracket_of : forall v, 0 < v -> v <= 2.82842712474619 -> ochi_bracket v.
Proof. intros v H1 H2. unfold ochi_bracket. rewrite Rabs_pos_eq by lra. auto. Qed.
Definition a_brentq (f : R -> R) (a b : R) : R :=
  match Rlt_dec 0 (f 1) with
  | left H1 => match Rle_dec (f 1) 2.82842712474619 with
               | left H2 => proj1_sig (ochi_root (f 1) (bracket_of (f 1) H1 H2))
               | right _ => 1
               end
  | right _ => 1
  end.
Lemma a_brentq_ok : forall skew, ochi_bracket skew -> finds_root a_brentq skew.
Proof.
  intros skew B. destruct B as [B1 B2]. assert (E : g2 skew 1 = Rabs skew) by (replace 1 with (1 + 0) at 1 by ring; rewrite g2_at by lra; replace (2 * 0) with 0 by ring; rewrite sqrt_0; ring).
  unfold finds_root. unfold a_brentq. rewrite E. destruct (Rlt_dec 0 (Rabs skew)); [|contradiction]. destruct (Rle_dec (Rabs skew) 2.82842712474619); [|contradiction].
  destruct (ochi_root _ _) as (z & Hz & Ez). cbn [proj1_sig]. split; auto. unfold g2 in *. rewrite Rabs_Rabsolu in Ez. exact Ez.
Qed.
