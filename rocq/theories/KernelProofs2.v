From Coq Require Import Reals Lra Lia List Bool Psatz.
From Coquelicot Require Import Coquelicot.
From Verif Require Import Base PolyModel KdeModel SeaModel SeaSpec SeaProofs SeaProofs2 SeaProofs3 SeaCases SpreadModel SpreadSpec CosPow GammaProofs KernelModel KernelSpec SpreadProofs SpreadProofs2 SpreadProofs4 KernelProofs.
Import ListNotations.
Local Open Scope R_scope.

(* the radial kernels *)
Fixpoint KM (p : nat) (r : R) (d : nat) : R := match d with O => 1 | S d' => KM p r d' * r * beta (INR p + INR d' / 2) end.
Lemma multi_integral p r d : (1 <= p)%nat -> 0 < r -> forall c, space_integral d (fun v => pw (c - npsum (map (fun v => v ^ 2) v) / r ^ 2) (INR p)) (KM p r d * pw c (INR p + INR d / 2)).
Proof.
  intros Hp Hr. assert (HP : 1 <= INR p) by (apply (le_INR 1) in Hp; exact Hp). induction d as [|d IH]; intros c.
  - cbn [space_integral KM map npsum fold_right]. replace (INR p + INR 0 / 2) with (INR p) by (cbn; field). rewrite Rmult_1_l. unfold npsum. cbn [fold_right]. unfold Rdiv. rewrite Rmult_0_l, Rminus_0_r. reflexivity.
  - exists (fun x => KM p r d * pw (c - x ^ 2 / r ^ 2) (INR p + INR d / 2)). split.
    + intros x. apply (space_ext d (fun v => pw (c - x ^ 2 / r ^ 2 - npsum (map (fun v => v ^ 2) v) / r ^ 2) (INR p))); [|apply IH]. intros v _. f_equal. unfold npsum. cbn [map fold_right]. field. lra.
    + assert (Hq : 0 < INR p + INR d / 2) by (pose proof (pos_INR d); lra). pose proof (line_mult (KM p r d) _ _ (line_pw _ r c Hq Hr)) as G. cbn [KM]. replace (INR p + INR (S d) / 2) with (INR p + INR d / 2 + 1 / 2) by (rewrite S_INR; field).
      replace (KM p r d * r * beta (INR p + INR d / 2) * pw c (INR p + INR d / 2 + 1 / 2)) with (KM p r d * (r * beta (INR p + INR d / 2) * pw c (INR p + INR d / 2 + 1 / 2))) by ring. exact G.
Qed.
Lemma KM_gamma g p r d : log_gamma g -> (1 <= p)%nat -> KM p r d * exp (g (INR p + INR d / 2 + 1)) = r ^ d * sqrt PI ^ d * exp (g (INR p + 1)).
Proof.
  intros Hg Hp. assert (HP : 1 <= INR p) by (apply (le_INR 1) in Hp; exact Hp). induction d as [|d IH].
  - cbn [KM pow INR]. replace (INR p + 0 / 2 + 1) with (INR p + 1) by field. ring.
  - cbn [KM pow]. assert (Hq : 0 < INR p + INR d / 2) by (pose proof (pos_INR d); lra). pose proof (beta_gamma g (INR p + INR d / 2) Hg Hq) as B. replace (INR p + INR (S d) / 2 + 1) with (INR p + INR d / 2 + 3 / 2) by (rewrite S_INR; field).
    replace (KM p r d * r * beta (INR p + INR d / 2) * exp (g (INR p + INR d / 2 + 3 / 2))) with (KM p r d * r * (beta (INR p + INR d / 2) * exp (g (INR p + INR d / 2 + 3 / 2)))) by ring. rewrite B.
    replace (KM p r d * r * (sqrt PI * exp (g (INR p + INR d / 2 + 1)))) with (r * sqrt PI * (KM p r d * exp (g (INR p + INR d / 2 + 1)))) by ring. rewrite IH. ring.
Qed.
Lemma prodl_app a b : prodl (a ++ b) = prodl a * prodl b.
Proof. unfold prodl. induction a as [|x a IH]; cbn [app fold_right]; [ring|]. rewrite IH. ring. Qed.
Lemma prodl_S (f : nat -> R) p : prodl (map f (seq 0 (S p))) = prodl (map f (seq 0 p)) * f p.
Proof. rewrite seq_S, map_app, prodl_app. unfold prodl. cbn. ring. Qed.
Lemma gamma_prod g a p : log_gamma g -> 0 < a -> exp (g (a + INR p)) = exp (g a) * prodl (map (fun i => a + INR i) (seq 0 p)).
Proof.
  intros Hg Ha. induction p as [|p IH]; [unfold prodl; cbn [map seq fold_right INR]; rewrite Rplus_0_r; ring|]. rewrite prodl_S, S_INR. replace (a + (INR p + 1)) with (a + INR p + 1) by ring. rewrite gamma_step by (easy || (pose proof (pos_INR p); lra)). rewrite IH. ring.
Qed.
Lemma prodl_pos (f : nat -> R) p : (forall i, 0 < f i) -> 0 < prodl (map f (seq 0 p)).
Proof. intros H. induction p as [|p IH]; [unfold prodl; cbn; lra|]. rewrite prodl_S. apply Rmult_lt_0_compat; [easy|apply H]. Qed.
Lemma gamma_fact g p : log_gamma g -> exp (g (INR p + 1)) = prodl (map (fun i => INR (S i)) (seq 0 p)).
Proof.
  intros Hg. replace (INR p + 1) with (1 + INR p) by ring. rewrite gamma_prod by (easy || lra). rewrite (log_gamma_1 g Hg), exp_0, Rmult_1_l. apply f_equal. apply map_ext. intros i. rewrite S_INR. ring.
Qed.
Lemma steps_twice p d : prodl (map (fun i => INR (d + 2 + 2 * i)) (seq 0 p)) = 2 ^ p * prodl (map (fun i => (INR d / 2 + 1) + INR i) (seq 0 p)).
Proof.
  induction p as [|p IH]; [unfold prodl; cbn; ring|]. rewrite !prodl_S, IH. rewrite !plus_INR, mult_INR. cbn [pow INR]. field.
Qed.
Lemma sqrt_pow_PI d : sqrt PI ^ d = Rpower PI (INR d / 2).
Proof. pose proof PI_RGT_0 as HP. rewrite <- Rpower_sqrt by easy. rewrite <- Rpower_pow by apply exp_pos. rewrite Rpower_mult. f_equal. field. Qed.
Lemma multi_norm g p r d n : log_gamma g -> (1 <= p)%nat -> (1 <= d)%nat -> 0 < r -> norm_factor g (Multi p r) d n = Ok (KM p r d) /\ 0 < KM p r d.
Proof.
  intros Hg Hp Hd Hr. assert (HD : 1 <= INR d) by (apply (le_INR 1) in Hd; exact Hd).
  pose proof (KM_gamma g p r d Hg Hp) as E. rewrite gamma_fact in E by easy. replace (INR p + INR d / 2 + 1) with (INR d / 2 + 1 + INR p) in E by ring. rewrite gamma_prod in E by (easy || lra). rewrite gamma_step in E by (easy || lra). rewrite sqrt_pow_PI in E.
  assert (P1 : 0 < prodl (map (fun i => INR d / 2 + 1 + INR i) (seq 0 p))) by (apply prodl_pos; intros i; pose proof (pos_INR i); lra). pose proof (exp_pos (g (INR d / 2))) as P2. assert (P3 : 0 < 2 ^ p) by (apply pow_lt; lra).
  assert (EQ : KM p r d = 2 ^ p * prodl (map (fun i => INR (S i)) (seq 0 p)) * sphere_volume g d r / prodl (map (fun i => INR (d + 2 + 2 * i)) (seq 0 p))).
  { rewrite steps_twice. unfold sphere_volume. set (P := prodl (map (fun i => INR d / 2 + 1 + INR i) (seq 0 p))) in *. set (F := prodl (map (fun i => INR (S i)) (seq 0 p))) in *.
    apply (Rmult_eq_reg_r (INR d / 2 * exp (g (INR d / 2)) * P)). 2:{ apply Rgt_not_eq. repeat apply Rmult_lt_0_compat; lra. } rewrite E. field. repeat split; lra. }
  split; [unfold norm_factor; now rewrite EQ|]. rewrite EQ. unfold sphere_volume. assert (P4 : 0 < prodl (map (fun i => INR (S i)) (seq 0 p))) by (apply prodl_pos; intros i; apply lt_0_INR; lia).
  assert (P5 : 0 < prodl (map (fun i => INR (d + 2 + 2 * i)) (seq 0 p))) by (apply prodl_pos; intros i; apply lt_0_INR; lia). assert (P6 : 0 < Rpower PI (INR d / 2)) by apply exp_pos. assert (P7 : 0 < r ^ d) by (now apply pow_lt).
  apply Rdiv_lt_0_compat; [|easy]. apply Rmult_lt_0_compat; [now apply Rmult_lt_0_compat|]. apply Rdiv_lt_0_compat; [|apply Rmult_lt_0_compat; lra]. repeat apply Rmult_lt_0_compat; lra.
Qed.
Lemma pw_clip c p : (1 <= p)%nat -> Rmax 0 c ^ p = pw c (INR p).
Proof.
  intros Hp. assert (HP : 1 <= INR p) by (apply (le_INR 1) in Hp; exact Hp). destruct (Rlt_dec 0 c) as [H|H].
  - rewrite Rmax_right by lra. rewrite pw_pos by easy. now rewrite Rpower_pow.
  - rewrite Rmax_left by lra. rewrite pw_neg by lra. apply pow_i. lia.
Qed.
Lemma multi_one g p r d n c : log_gamma g -> (1 <= p)%nat -> (1 <= d)%nat -> 0 < r -> norm_factor g (Multi p r) d n = Ok c -> space_integral d (fun v => kernel (Multi p r) v / c) 1.
Proof.
  intros Hg Hp Hd Hr E. destruct (multi_norm g p r d n Hg Hp Hd Hr) as [E1 Hc]. rewrite E1 in E. injection E as <-. pose proof (space_mult d (/ KM p r d) _ _ (multi_integral p r d Hp Hr 1)) as G. rewrite (pw_pos 1) in G by lra.
  replace (/ KM p r d * (KM p r d * Rpower 1 (INR p + INR d / 2))) with 1 in G. 2:{ unfold Rpower. rewrite ln_1, Rmult_0_r, exp_0. field. lra. }
  apply (space_ext d) with (2 := G). intros v _. cbn [kernel]. rewrite pw_clip by easy. unfold Rdiv. ring.
Qed.
(* the product kernels *)
Lemma one_multi p r : (1 <= p)%nat -> 0 < r -> line_integral (fun v => Rmax 0 (1 - (v / r) ^ 2) ^ p) (KM p r 1).
Proof.
  intros Hp Hr. destruct (multi_integral p r 1 Hp Hr 1) as (h & H1 & H2). cbn [space_integral] in H1. rewrite (pw_pos 1) in H2 by lra. unfold Rpower in H2. rewrite ln_1, Rmult_0_r, exp_0, Rmult_1_r in H2.
  apply (line_ext h); [|exact H2]. intros x. rewrite <- H1. rewrite pw_clip by easy. f_equal. unfold npsum. cbn [map fold_right]. field. lra.
Qed.
Lemma space_factor (h : R -> R) I c d f : line_integral h I -> 0 < c -> I = c -> (forall v, List.length v = d -> f v = prodl (map h v)) -> space_integral d (fun v => f v / c ^ d) 1.
Proof.
  intros H Hc E Ef. subst I. pose proof (space_mult d (/ c ^ d) _ _ (space_product h c d H)) as G. replace (/ c ^ d * c ^ d) with 1 in G by (field; apply pow_nonzero; lra). apply (space_ext d) with (2 := G). intros v Hv. rewrite Ef by easy. unfold Rdiv. ring.
Qed.
Lemma product_one g p r d n c : log_gamma g -> (1 <= p)%nat -> 0 < r -> norm_factor g (Product p r) d n = Ok c -> space_integral d (fun v => kernel (Product p r) v / c) 1.
Proof.
  intros Hg Hp Hr E. destruct (multi_norm g p r 1 n Hg Hp ltac:(lia) Hr) as [E1 Hc]. unfold norm_factor in E, E1. cbv zeta in E, E1. assert (Q : forall a b : R, Ok a = Ok b -> a = b) by (intros a b Q; now injection Q). apply Q in E1. rewrite E1 in E. injection E as <-. exact (space_factor _ _ _ d _ (one_multi p r Hp Hr) Hc eq_refl (fun v _ => eq_refl)).
Qed.
Lemma rect_line r : 0 < r -> line_integral (fun v => if Rle_dec (Rabs v) r then 1 else 0) (2 * r).
Proof.
  intros Hr. apply (line_compact _ r); [lra| |].
  - intros x Hx. destruct (Rle_dec (Rabs x) r); [lra|easy].
  - apply (area_ext_in (fun _ => 1)); [lra| |].
    + intros x Hx. destruct (Rle_dec (Rabs x) r) as [H|H]; [easy|]. exfalso. apply H. apply Rabs_le. lra.
    + pose proof (const_area (- r) r 1) as G. replace ((r - - r) * 1) with (2 * r) in G by ring. exact G.
Qed.
Lemma rect_prod r v : (if forallb (fun v => if Rle_dec (Rabs v) r then true else false) v then 1 else 0) = prodl (map (fun v => if Rle_dec (Rabs v) r then 1 else 0) v).
Proof.
  induction v as [|a v IH]; [reflexivity|]. cbn [forallb map]. unfold prodl in *. cbn [fold_right]. rewrite <- IH. destruct (Rle_dec (Rabs a) r); cbn [andb]; [|ring]. destruct (forallb _ v); ring.
Qed.
Lemma rect_one g r d n c : 0 < r -> norm_factor g (Rectangular r) d n = Ok c -> space_integral d (fun v => kernel (Rectangular r) v / c) 1.
Proof. intros Hr E. cbn [norm_factor] in E. injection E as <-. assert (H2 : 0 < 2 * r) by lra. exact (space_factor _ _ _ d _ (rect_line r Hr) H2 eq_refl (fun v _ => rect_prod r v)). Qed.
Lemma area_split (f : R -> R) a b c l m : area f a b l -> area f b c m -> area f a c (l + m).
Proof. intros H1 H2. exact (@is_RInt_Chasles R_NormedModule f a b c l m H1 H2). Qed.
Lemma area_value (f : R -> R) a b l m : l = m -> area f a b l -> area f a b m.
Proof. now intros ->. Qed.
(* piecewise smooth functions on [-1, 1] *)
Lemma area_tent (F f F' f' h : R -> R) : (forall x, is_derive F x (f x)) -> (forall x, continuous f x) -> (forall x, is_derive F' x (f' x)) -> (forall x, continuous f' x) ->
  (forall x, -1 < x < 0 -> f x = h x) -> (forall x, 0 < x < 1 -> f' x = h x) -> area h (-1) 1 (F 0 - F (-1) + (F' 1 - F' 0)).
Proof.
  intros D1 C1 D2 C2 E1 E2. apply (area_split h (-1) 0 1).
  - apply (area_ext_in f); [lra|easy|]. now apply area_deriv.
  - apply (area_ext_in f'); [lra|easy|]. now apply area_deriv.
Qed.
Lemma tria_line : line_integral (fun v => Rmax 0 (1 - Rabs v)) 1.
Proof.
  apply (line_compact _ 1); [lra| |].
  - intros x Hx. apply Rmax_left. lra.
  - apply (area_value _ (- 1) 1 (0 + 0 ^ 2 / 2 - (-1 + (-1) ^ 2 / 2) + (1 - 1 ^ 2 / 2 - (0 - 0 ^ 2 / 2)))); [field|].
    apply (area_tent (fun x => x + x ^ 2 / 2) (fun x => 1 + x) (fun x => x - x ^ 2 / 2) (fun x => 1 - x)).
    + intros x. auto_derive; [easy|field].
    + intros x. smooth. easy.
    + intros x. auto_derive; [easy|field].
    + intros x. smooth. easy.
    + intros x Hx. rewrite Rabs_left by lra. rewrite Rmax_right; lra.
    + intros x Hx. rewrite Rabs_right by lra. rewrite Rmax_right; lra.
Qed.
Lemma tria_one g r d n c : norm_factor g (Triangular r) d n = Ok c -> space_integral d (fun v => kernel (Triangular r) v / c) 1.
Proof.
  intros E. cbn in E. destruct (Nat.eqb d 0); [discriminate|]. destruct (Nat.eqb n 0); [discriminate|]. injection E as <-. pose proof (space_factor _ _ 1 d (kernel (Triangular r)) tria_line ltac:(lra) eq_refl (fun v _ => eq_refl)) as G. rewrite pow1 in G. exact G.
Qed.
