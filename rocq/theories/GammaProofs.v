From Coq Require Import Reals Lra Lia.
From Coquelicot Require Import Coquelicot.
From Verif Require Import Base SeaModel SeaSpec SeaProofs SeaProofs2 SeaProofs3 SeaCases.
Local Open Scope R_scope.

(* ends of the interval of integration that serve several exponents at once *)
Lemma pow_small c eps : 0 < c -> 0 < eps -> exists d, 0 < d /\ forall x, 0 < x < d -> Rpower x c < eps.
Proof.
  intros Hc He. exists (exp (ln eps / c)). split; [apply exp_pos|]. intros x Hx. unfold Rpower. rewrite <- (exp_ln eps) by easy. apply exp_increasing.
  assert (L : ln x < ln eps / c). { rewrite <- (ln_exp (ln eps / c)). apply ln_increasing; lra. }
  apply (Rmult_lt_compat_l c) in L; [|easy]. replace (c * (ln eps / c)) with (ln eps) in L by (field; lra). exact L.
Qed.
Lemma tail_small c eps : 0 < c -> 0 < eps -> exists K, 0 < K /\ forall y, K < y -> Rpower y c * exp (- y) < eps.
Proof.
  intros Hc He. set (a := 2 * c). set (B := exp (a * ln a)).
  assert (HB : forall y, 0 < y -> Rpower y c * exp (- y) <= exp (c * ln a) * exp (- (y / 2))).
  { intros y Hy. unfold Rpower. rewrite <- !exp_plus. apply exp_le. assert (L : ln (y / a) <= y / a - 1) by (pose proof (exp_ineq1_le (ln (y / a))) as L; rewrite exp_ln in L by (unfold a; apply Rdiv_lt_0_compat; lra); lra).
    rewrite ln_div in L by (unfold a; lra). assert (E : c * (y / a) = y / 2) by (unfold a; field; lra). apply (Rmult_le_compat_l c) in L; [|lra]. lra. }
  set (Q := exp (c * ln a)). exists (Rmax 1 (2 * (Q / eps))). split; [pose proof (Rmax_l 1 (2 * (Q / eps))); lra|]. intros y Hy.
  pose proof (Rmax_l 1 (2 * (Q / eps))). pose proof (Rmax_r 1 (2 * (Q / eps))). eapply Rle_lt_trans; [apply HB; lra|]. fold Q. assert (HQ : 0 < Q) by apply exp_pos.
  assert (E1 : y / 2 < exp (y / 2)) by (pose proof (exp_ineq1 (y / 2)); lra). rewrite exp_Ropp. pose proof (exp_pos (y / 2)) as P.
  apply (Rmult_lt_reg_r (exp (y / 2))); [easy|]. rewrite Rmult_assoc, Rinv_l by lra. assert (Q / eps < y / 2) by lra. apply (Rmult_lt_compat_l eps) in H1; [|easy]. replace (eps * (Q / eps)) with Q in H1 by (field; lra). nra.
Qed.
Lemma euler_parts c x y : 0 < c -> 0 < x -> x <= y -> RInt (euler (c + 1)) x y = Rpower x c * exp (- x) - Rpower y c * exp (- y) + c * RInt (euler c) x y.
Proof.
  intros Hc Hx Hy.
  assert (D : is_RInt (fun t => c * euler c t - euler (c + 1) t) x y (minus (Rpower y c * exp (- y)) (Rpower x c * exp (- x)))).
  { apply (@is_RInt_derive R_CompleteNormedModule (fun t => Rpower t c * exp (- t))).
    - intros t Ht. rewrite Rmin_left in Ht by lra. unfold Rpower, euler. auto_derive; [lra|].
      replace (c + 1 - 1) with c by ring. unfold Rpower. replace ((c - 1) * ln t) with (c * ln t + - ln t) by ring. rewrite exp_plus, (exp_Ropp (ln t)), exp_ln by lra. field. lra.
    - intros t Ht. rewrite Rmin_left in Ht by lra. apply (@continuous_minus _ R_AbsRing R_NormedModule (fun t => c * euler c t) (euler (c + 1))); [|apply euler_continuous; lra].
      apply (@continuous_scal_r _ R_AbsRing R_NormedModule). apply euler_continuous. lra. }
  assert (E1 : ex_RInt (euler c) x y) by (apply euler_ex; lra). assert (E2 : ex_RInt (euler (c + 1)) x y) by (apply euler_ex; lra).
  apply (@RInt_correct R_CompleteNormedModule) in E1. apply (@RInt_correct R_CompleteNormedModule) in E2.
  pose proof (@is_RInt_minus R_NormedModule _ _ _ _ _ _ (@is_RInt_scal R_NormedModule _ _ _ c _ E1) E2) as D2.
  assert (U : c * RInt (euler c) x y - RInt (euler (c + 1)) x y = Rpower y c * exp (- y) - Rpower x c * exp (- x)).
  { transitivity (RInt (fun t => c * euler c t - euler (c + 1) t) x y); [symmetry; exact (is_RInt_unique _ _ _ _ D2)|exact (is_RInt_unique _ _ _ _ D)]. }
  lra.
Qed.
(* the functional equation *)
Lemma gamma_step g c : log_gamma g -> 0 < c -> exp (g (c + 1)) = c * exp (g c).
Proof.
  intros Hg Hc. apply cond_eq. intros eps He. set (e := eps / (3 + c)). assert (He' : 0 < e) by (unfold e; apply Rdiv_lt_0_compat; lra).
  destruct (euler_limits g c e Hg Hc He') as (d1 & K1 & Hd1 & HK1 & H1). destruct (euler_limits g (c + 1) e Hg ltac:(lra) He') as (d2 & K2 & Hd2 & HK2 & H2).
  destruct (pow_small c e Hc He') as (d3 & Hd3 & H3). destruct (tail_small c e Hc He') as (K3 & HK3 & H4).
  set (x := Rmin 1 (Rmin d1 (Rmin d2 d3)) / 2). assert (B : 0 < Rmin 1 (Rmin d1 (Rmin d2 d3))) by (repeat apply Rmin_pos; lra).
  assert (B1 : Rmin 1 (Rmin d1 (Rmin d2 d3)) <= 1) by apply Rmin_l. assert (B2 : Rmin 1 (Rmin d1 (Rmin d2 d3)) <= d1) by (eapply Rle_trans; [apply Rmin_r|apply Rmin_l]).
  assert (B3 : Rmin 1 (Rmin d1 (Rmin d2 d3)) <= d2) by (eapply Rle_trans; [apply Rmin_r|eapply Rle_trans; [apply Rmin_r|apply Rmin_l]]).
  assert (B4 : Rmin 1 (Rmin d1 (Rmin d2 d3)) <= d3) by (eapply Rle_trans; [apply Rmin_r|eapply Rle_trans; [apply Rmin_r|apply Rmin_r]]).
  set (y := 1 + K1 + K2 + K3). unfold x in *. set (m := Rmin 1 (Rmin d1 (Rmin d2 d3))) in *.
  specialize (H1 (m / 2) y ltac:(lra) ltac:(unfold y; lra)). specialize (H2 (m / 2) y ltac:(lra) ltac:(unfold y; lra)). specialize (H3 (m / 2) ltac:(lra)). specialize (H4 y ltac:(unfold y; lra)).
  rewrite euler_parts in H2 by (unfold y; lra). set (I := RInt (euler c) (m / 2) y) in *. set (p := Rpower (m / 2) c) in *. set (q := Rpower y c * exp (- y)) in *.
  assert (P0 : 0 < p) by apply exp_pos. assert (P1 : 0 < exp (- (m / 2)) < 1). { split; [apply exp_pos|]. pose proof (exp_increasing (- (m / 2)) 0 ltac:(lra)) as Q. rewrite exp_0 in Q. exact Q. }
  assert (P2 : 0 < q) by (unfold q; apply Rmult_lt_0_compat; apply exp_pos). apply Rabs_def2 in H1, H2.
  assert (EE : eps = (3 + c) * e) by (unfold e; field; lra). rewrite EE. assert (P3 : 0 < p * exp (- (m / 2)) < e) by nra. set (r := p * exp (- (m / 2))) in *.
  apply Rabs_def1; nra.
Qed.
(* the quotient of values half a unit apart grows *)
Lemma euler_prod c a t : 0 < t -> euler c t * Rpower t a = euler (c + a) t.
Proof. intros Ht. unfold euler, Rpower. replace ((c + a - 1) * ln t) with ((c - 1) * ln t + a * ln t) by ring. rewrite exp_plus. ring. Qed.
Lemma pow_cross c a b t : 0 < c -> 0 < t -> 0 < a -> 0 < b -> 0 <= (Rpower t a - Rpower c a) * (Rpower t b - Rpower c b).
Proof.
  intros Hc Ht Ha Hb. assert (M : forall u v e, 0 < u -> u <= v -> 0 < e -> Rpower u e <= Rpower v e).
  { intros u v e Hu Huv He. unfold Rpower. apply exp_le. apply Rmult_le_compat_l; [lra|]. destruct Huv as [L| ->]; [left; now apply ln_increasing|lra]. }
  destruct (Rle_dec t c) as [L|L].
  - pose proof (M t c a Ht L Ha). pose proof (M t c b Ht L Hb). nra.
  - pose proof (M c t a Hc ltac:(lra) Ha). pose proof (M c t b Hc ltac:(lra) Hb). nra.
Qed.
Lemma gamma_cross g x a b : log_gamma g -> 0 < x -> 0 < a -> 0 < b -> exp (g (x + a)) * exp (g (x + b)) <= exp (g (x + a + b)) * exp (g x).
Proof.
  intros Hg Hx Ha Hb. set (G := fun c => exp (g c)). assert (GP : forall c, 0 < G c) by (intros; apply exp_pos).
  (* the mean of t^a *)
  set (mu := G (x + a) / G x). assert (Hmu : 0 < mu) by (unfold mu; apply Rdiv_lt_0_compat; apply GP). set (c := Rpower mu (/ a)).
  assert (Ec : Rpower c a = mu) by (unfold c; rewrite Rpower_mult, Rinv_l, Rpower_1 by lra; easy). set (nu := Rpower c b). assert (Hnu : 0 < nu) by apply exp_pos.
  enough (Q : G (x + a + b) - mu * G (x + b) - nu * (G (x + a) - mu * G x) >= 0).
  { assert (Z : G (x + a) - mu * G x = 0) by (unfold mu; field; apply Rgt_not_eq, GP). rewrite Z in Q. change (G (x + a) * G (x + b) <= G (x + a + b) * G x).
    assert (Z2 : G (x + a) = mu * G x) by lra. rewrite Z2. pose proof (GP x). nra. }
  apply Rle_ge, Rnot_lt_le. intros N. set (V := G (x + a + b) - mu * G (x + b) - nu * (G (x + a) - mu * G x)) in *.
  set (e := - V / (2 * (1 + mu + nu + nu * mu))). assert (P : 0 < nu * mu) by now apply Rmult_lt_0_compat. assert (He : 0 < e) by (unfold e; apply Rdiv_lt_0_compat; lra).
  destruct (euler_limits g (x + a + b) e Hg ltac:(lra) He) as (d1 & K1 & Hd1 & HK1 & H1). destruct (euler_limits g (x + b) e Hg ltac:(lra) He) as (d2 & K2 & Hd2 & HK2 & H2).
  destruct (euler_limits g (x + a) e Hg ltac:(lra) He) as (d3 & K3 & Hd3 & HK3 & H3). destruct (euler_limits g x e Hg ltac:(lra) He) as (d4 & K4 & Hd4 & HK4 & H4).
  set (m := Rmin (Rmin 1 d1) (Rmin d2 (Rmin d3 d4))). assert (B : 0 < m) by (unfold m; repeat apply Rmin_pos; lra).
  assert (B0 : m <= 1) by (eapply Rle_trans; [apply Rmin_l|apply Rmin_l]). assert (B1 : m <= d1) by (eapply Rle_trans; [apply Rmin_l|apply Rmin_r]). assert (B2 : m <= d2) by (eapply Rle_trans; [apply Rmin_r|apply Rmin_l]).
  assert (B3 : m <= d3) by (eapply Rle_trans; [apply Rmin_r|eapply Rle_trans; [apply Rmin_r|apply Rmin_l]]). assert (B4 : m <= d4) by (eapply Rle_trans; [apply Rmin_r|eapply Rle_trans; [apply Rmin_r|apply Rmin_r]]).
  set (y := 1 + K1 + K2 + K3 + K4). assert (Hy : 1 < y) by (unfold y; lra). set (l := m / 2). assert (Hl : 0 < l < y) by (unfold l; lra).
  specialize (H1 l y ltac:(unfold l; lra) ltac:(unfold y; lra)). specialize (H2 l y ltac:(unfold l; lra) ltac:(unfold y; lra)). specialize (H3 l y ltac:(unfold l; lra) ltac:(unfold y; lra)). specialize (H4 l y ltac:(unfold l; lra) ltac:(unfold y; lra)).
  fold (G (x + a + b)) in H1. fold (G (x + b)) in H2. fold (G (x + a)) in H3. fold (G x) in H4.
  assert (R : forall c, is_RInt (euler c) l y (RInt (euler c) l y)) by (intros c0; apply (@RInt_correct R_CompleteNormedModule), euler_ex; lra).
  set (I1 := RInt (euler (x + a + b)) l y) in *. set (I2 := RInt (euler (x + b)) l y) in *. set (I3 := RInt (euler (x + a)) l y) in *. set (I4 := RInt (euler x) l y) in *.
  assert (T : is_RInt (fun t => euler (x + a + b) t - mu * euler (x + b) t - nu * (euler (x + a) t - mu * euler x t)) l y (I1 - mu * I2 - nu * (I3 - mu * I4))).
  { apply (@is_RInt_minus R_NormedModule); [apply (@is_RInt_minus R_NormedModule); [apply R|apply (@is_RInt_scal R_NormedModule); apply R]|].
    apply (@is_RInt_scal R_NormedModule). apply (@is_RInt_minus R_NormedModule); [apply R|apply (@is_RInt_scal R_NormedModule); apply R]. }
  assert (NN : 0 <= I1 - mu * I2 - nu * (I3 - mu * I4)).
  { apply (is_RInt_le (fun _ => 0) (fun t => euler (x + a + b) t - mu * euler (x + b) t - nu * (euler (x + a) t - mu * euler x t)) l y); [lra| |exact T|].
    - pose proof (@is_RInt_const R_NormedModule l y 0) as Z. change (scal (y - l) 0) with ((y - l) * 0) in Z. rewrite Rmult_0_r in Z. exact Z.
    - intros t Ht. pose proof (pow_cross c a b t ltac:(apply exp_pos) ltac:(lra) Ha Hb) as C0. rewrite Ec in C0. fold nu in C0.
      replace (x + a + b) with (x + (a + b)) by ring. rewrite <- !euler_prod by lra. rewrite Rpower_plus. assert (0 < euler x t) by (unfold euler; apply Rmult_lt_0_compat; apply exp_pos).
      set (p := Rpower t a) in *. set (q := Rpower t b) in *. set (u := euler x t) in *. replace (u * (p * q) - mu * (u * q) - nu * (u * p - mu * u)) with (u * ((p - mu) * (q - nu))) by ring. apply Rmult_le_pos; lra. }
  apply Rabs_def2 in H1, H2, H3, H4. assert (EV : V = - (2 * (1 + mu + nu + nu * mu) * e)) by (unfold e; field; lra).
  assert (UB : I1 - mu * I2 - nu * (I3 - mu * I4) < V + (1 + mu + nu + nu * mu) * e).
  { unfold V. assert (mu * (G (x + b) - I2) < mu * e) by (apply Rmult_lt_compat_l; lra). assert (nu * (G (x + a) - I3) < nu * e) by (apply Rmult_lt_compat_l; lra).
    assert (nu * mu * (I4 - G x) < nu * mu * e) by (apply Rmult_lt_compat_l; lra). lra. }
  nra.
Qed.
