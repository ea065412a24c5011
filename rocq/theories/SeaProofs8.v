From Coq Require Import Reals Lra List Bool.
From Verif Require Import Base PolyModel WaveModel SeaModel SeaSpec SeaProofs5.
Local Open Scope R_scope.

(* the height of the peak with the parametric normalisation *)
Lemma parametric_peak g quad H T y sa sb N M wnc s : 0 < H -> 0 < T -> 1 < y -> jonswap g quad H T (Some y) sa sb None N M Parametric wnc true = Ok s ->
  let f1 := 41 / 10 * Rpower (N - 2 * Rpower M (28 / 100) + 53 / 10) (96 / 100 - 145 / 100 * Rpower M (1 / 10)) in
  let f2 := (22 / 10 * Rpower M (- (33 / 10)) + 57 / 100) * Rpower N (53 / 100 - 58 / 100 * Rpower M (37 / 100)) + 94 / 100 - 104 / 100 * Rpower M (- (19 / 10)) in
  jons_call g s (2 * PI / T) = (1 + f1 * Rpower (ln y) f2) * bret_call g (Bret H T N M) (2 * PI / T).
Proof.
  intros HH HT Hy E f1 f2. unfold jonswap in E. destruct (Rlt_dec y 1); [lra|]. destruct (Req_EM_T y 1); [lra|]. destruct (check_parametric_ag N M y); [|discriminate]. cbn [bind] in E. unfold chk_seastate in E. destruct (Rlt_dec H 0); [lra|]. destruct (Rle_dec T 0); [lra|]. cbn [bind] in E. assert (Q : forall a b : jons, Ok a = Ok b -> a = b) by congruence. apply Q in E. subst s.
  unfold jons_call, bret_call. cbn [jHm0 jTp jgamma jsigmaA jsigmaB jAg jN jM bHm0 bTp bN bM]. destruct (Rlt_dec 0 H); [|lra]. assert (WP : 0 < 2 * PI / T) by (apply Rdiv_lt_0_compat; [pose proof PI_RGT_0; lra|lra]). assert (W1 : 2 * PI / T / (2 * PI / T) = 1) by (field; pose proof PI_RGT_0; lra). rewrite W1.
  assert (PE : peak_e_factor y sa sb 1 = y). { unfold peak_e_factor. rewrite Rmax_left by lra. destruct (Rlt_dec 1 1); [lra|]. assert (Z : - (1 / 2 * ((1 - 1) / sa) ^ 2) = 0) by (unfold Rdiv; rewrite Rminus_diag_eq by reflexivity; ring). rewrite Z, exp_0. apply Rpower_1. lra. } rewrite PE.
  unfold parametric_ag. replace (- (145 / 100) * Rpower M (1 / 10) + 96 / 100) with (96 / 100 - 145 / 100 * Rpower M (1 / 10)) by ring. replace (- (58 / 100) * Rpower M (37 / 100) + 53 / 100) with (53 / 100 - 58 / 100 * Rpower M (37 / 100)) by ring. fold f1.
  assert (F2 : (22 / 10 * Rpower M (- (33 / 10)) + 57 / 100) * Rpower N (53 / 100 - 58 / 100 * Rpower M (37 / 100)) - 104 / 100 * Rpower M (- (19 / 10)) + 94 / 100 = f2) by (unfold f2; ring). rewrite F2. clearbody f1 f2. generalize (Rpower (ln y) f2) (gengamspec g N M 1). intros u v. assert (PI <> 0) by (pose proof PI_RGT_0; lra). field. lra.
Qed.
Lemma parametric_case g quad : exists s, jonswap g quad 7 11 (Some (33 / 10)) (7 / 100) (9 / 100) None 5 4 Parametric 6 true = Ok s.
Proof. apply parametric_unchecked; lra. Qed.
