From Coq Require Import Reals Lra Lia List Bool Psatz String.
From Coquelicot Require Import Coquelicot.
From Verif Require Import SpreadProofs2 SeaCases Base PolyModel FilterModel GridSpec GridProofs5 KdeModel KdeSpec KdeProofs2 KdeProofs5 SeaSpec SeaProofs KernelModel KernelSpec KernelProofs KernelProofs2 KernelProofs6 KernelProofs7 KernelCases TkdeModel TkdeSpec Subst TkdeProofs TkdeProofs2 TkdeProofs3.
Import ListNotations.
Local Open Scope R_scope.

Lemma spread_ok L2 d l : exponents L2 d l -> spread_L2 L2 d = Ok l /\ List.length l = d.
Proof.
  intros [(a & -> & ->)|(H & ->)]; [split; [reflexivity|apply repeat_length]|]. split; [|easy]. unfold spread_L2. rewrite (proj2 (Nat.eqb_eq _ _) H). destruct L2 as [|a [|b L2]]; try reflexivity. cbn in H. subst d. reflexivity.
Qed.
Lemma transform1_change x v : transform1 x v = change v x.
Proof. reflexivity. Qed.
Lemma zip_change p l : zip_with (fun x v => transform1 x v) p l = change_point l p.
Proof. revert p. induction l as [|v l IH]; intros [|x p]; try reflexivity. unfold zip_with in *. cbn. now rewrite IH. Qed.
Lemma change_length l p : List.length (change_point l p) = Nat.min (List.length l) (List.length p).
Proof. revert p. induction l as [|v l IH]; intros [|x p]; cbn; try reflexivity. now rewrite IH. Qed.
Lemma transform_value L2 d l X : exponents L2 d l -> transform (fun v => v) (Some L2) d X = Ok (map (change_point l) X).
Proof.
  intros H. destruct (spread_ok L2 d l H) as (E & L). unfold transform. rewrite E. cbn [bind]. rewrite (proj2 (Nat.eqb_eq _ _) L). f_equal. apply map_ext. intros p. apply zip_change.
Qed.
Lemma scale_jacobian l : forall p, in_domain l p -> jacobian l p (prodl (zip_with scale1 p l)).
Proof.
  intros p H. induction H as [|v x l p D H IH]; cbn [jacobian]; [reflexivity|]. destruct (change_derive v x D) as (dt & D1 & D2). exists dt, (prodl (zip_with scale1 p l)). split; [easy|]. split; [easy|]. unfold zip_with. cbn. now rewrite D2.
Qed.
Lemma jacobian_pos l : forall p j, jacobian l p j -> 0 <= j.
Proof. induction l as [|v l IH]; intros [|x p] j; cbn [jacobian]; try easy; [intros ->; lra|]. intros (dt & j' & _ & H & ->). apply Rmult_le_pos; [apply Rabs_pos|now apply (IH p)]. Qed.
Lemma in_domain_length l p : in_domain l p -> List.length p = List.length l.
Proof. induction 1; cbn; congruence. Qed.
Lemma tkde_main g key k s name c d X L2 l hs alpha gs : log_gamma g -> In (key, (k, s, name)) mkernel_dict -> norm_factor g k d (List.length X) = Ok c -> (1 <= d)%nat -> X <> [] -> exponents L2 d l -> Forall (in_domain l) X -> fits d hs ->
  (forall i, (i < d)%nat -> 0 < gs (row (map (change_point l) X) i)) ->
  exists kd caller F f, tkde_init (fun v => v) (fun v => v) gs (kernel k) (norm_factor g k) (Some L2) d X hs alpha = Ok (kd, caller)
    /\ kde_init (fun v => v) gs (kernel k) (norm_factor g k) d (map (change_point l) X) hs alpha = Ok (kd, caller)
    /\ (forall pts, Forall (fun p => List.length p = d) pts -> eval_points kd pts (repeat 1 (List.length X)) 0 = Ok (map F pts)) /\ space_integral d F 1 /\ (forall x, 0 <= F x)
    /\ (forall pts, (2 <= List.length pts)%nat -> Forall (in_domain l) pts -> tkde_eval_points (fun v => v) (Some L2) kd d d pts = Ok (map f pts))
    /\ (forall p, in_domain l p -> exists j, jacobian l p j /\ f p = F (change_point l p) * j) /\ (forall p, in_domain l p -> 0 <= f p)
    /\ (forall m, range_integrals l F m -> domain_integrals l f m)
    /\ f = (fun p => F (change_point l p) * prodl (zip_with scale1 p l)) /\ F = (estimate kd (repeat 1 (List.length X)) 0).
Proof.
  intros Hlg HI HC Hd HX HL HD Hf Hg. set (T := map (change_point l) X) in *. assert (LT : List.length T = List.length X) by (unfold T; apply map_length). destruct (spread_ok L2 d l HL) as (SE & SL).
  assert (HT : T <> []) by (intros E; rewrite E in LT; destruct X; [congruence|discriminate]).
  assert (HFT : Forall (fun p => List.length p = d) T). { apply Forall_forall. intros p Hp. unfold T in Hp. apply in_map_iff in Hp as (q & <- & Hq). rewrite Forall_forall in HD. rewrite change_length, (in_domain_length l q (HD q Hq)), SL. lia. }
  rewrite <- LT in HC. destruct (built g key k s name c d T hs alpha gs HI HC Hd HT HFT Hf Hg) as (h & c' & f0 & E & L & P & V & Ef & Pf). assert (Lf : List.length f0 = List.length T) by (rewrite Ef; apply map_length). assert (Hh : h <> []) by (intros ->; cbn in L; lia).
  set (kd := my_kde k c T h (lambdas alpha f0)) in *. set (F := estimate kd (repeat 1 (List.length T)) 0).
  assert (F1 : forall pts, Forall (fun p => List.length p = d) pts -> eval_points kd pts (repeat 1 (List.length T)) 0 = Ok (map F pts)).
  { intros pts HP. apply (eval_points_value kd); [apply repeat_length|unfold kd, my_kde; cbn [lambda_ dataset]; now rewrite lambdas_length|]. intros p Hp. unfold kd, my_kde. cbn [inv_hs]. rewrite diagonal_length, map_length, L. rewrite Forall_forall in HP. now apply HP. }
  assert (F2 : space_integral d F 1). { rewrite <- L. apply (estimate_density g key k s name); try easy; [now rewrite L|now rewrite lambdas_length|apply lambdas_pos|now rewrite L]. }
  assert (F3 : forall x, 0 <= F x). { intros x. apply (estimate_nonneg g key k s name); try easy; [now rewrite L|now rewrite lambdas_length|apply lambdas_pos]. }
  exists kd, c', F, (fun p => F (change_point l p) * prodl (zip_with scale1 p l)). rewrite <- LT.
  assert (J : forall p, in_domain l p -> exists j, jacobian l p j /\ F (change_point l p) * prodl (zip_with scale1 p l) = F (change_point l p) * j). { intros p Hp. exists (prodl (zip_with scale1 p l)). split; [now apply scale_jacobian|reflexivity]. }
  split; [|split; [exact E|split; [exact F1|split; [exact F2|split; [exact F3|split; [|split; [exact J|split; [|split; [|split; reflexivity]]]]]]]]].
  - unfold tkde_init. rewrite (transform_value L2 d l X HL). exact E.
  - intros pts H2 HP. unfold tkde_eval_points. replace (List.length (dataset kd)) with (List.length T) by reflexivity. unfold check_shape. rewrite Nat.eqb_refl. cbn [bind]. rewrite (transform_value L2 d l pts HL). cbn [bind]. rewrite F1.
    2:{ apply Forall_forall. intros p Hp. apply in_map_iff in Hp as (q & <- & Hq). rewrite Forall_forall in HP. rewrite change_length, (in_domain_length l q (HP q Hq)), SL. lia. }
    cbn [bind]. unfold scale_pdf. rewrite SE. cbn [bind]. rewrite !map_length. rewrite (proj2 (Nat.ltb_ge _ _) H2). rewrite (proj2 (Nat.eqb_neq _ _)) by lia. cbn [orb]. f_equal. clear. induction pts as [|p pts IH]; [reflexivity|]. cbn [map combine]. f_equal. exact IH.
  - intros p Hp. destruct (J p Hp) as (j & Hj & ->). apply Rmult_le_pos; [apply F3|now apply (jacobian_pos l p)].
  - intros m Hm. now apply change_integrals.
Qed.
Lemma tkde_density g key k s name c d X L2 l hs alpha gs : log_gamma g -> In (key, (k, s, name)) mkernel_dict -> norm_factor g k d (List.length X) = Ok c -> (1 <= d)%nat -> X <> [] -> exponents L2 d l -> Forall (in_domain l) X -> fits d hs ->
  (forall i, (i < d)%nat -> 0 < gs (row (map (change_point l) X) i)) -> (forall v, In v l -> v = 0 \/ v = 1) ->
  exists kd caller f, tkde_init (fun v => v) (fun v => v) gs (kernel k) (norm_factor g k) (Some L2) d X hs alpha = Ok (kd, caller)
    /\ (forall pts, (2 <= List.length pts)%nat -> Forall (in_domain l) pts -> tkde_eval_points (fun v => v) (Some L2) kd d d pts = Ok (map f pts))
    /\ domain_integrals l f 1 /\ (forall p, in_domain l p -> 0 <= f p).
Proof.
  intros Hlg HI HC Hd HX HL HD Hf Hg H01. destruct (tkde_main g key k s name c d X L2 l hs alpha gs Hlg HI HC Hd HX HL HD Hf Hg) as (kd & c' & F & f & A1 & A2 & A3 & A4 & A5 & A6 & A7 & A8 & A9 & _). exists kd, c', f. split; [easy|]. split; [easy|]. split; [|easy]. apply A9. apply range_space; [easy|]. destruct (spread_ok L2 d l HL) as (_ & ->). exact A4.
Qed.
Lemma tkde_change g key k s name c d X L2 l hs alpha gs : log_gamma g -> In (key, (k, s, name)) mkernel_dict -> norm_factor g k d (List.length X) = Ok c -> (1 <= d)%nat -> X <> [] -> exponents L2 d l -> Forall (in_domain l) X -> fits d hs ->
  (forall i, (i < d)%nat -> 0 < gs (row (map (change_point l) X) i)) ->
  exists kd caller F f, tkde_init (fun v => v) (fun v => v) gs (kernel k) (norm_factor g k) (Some L2) d X hs alpha = Ok (kd, caller)
    /\ kde_init (fun v => v) gs (kernel k) (norm_factor g k) d (map (change_point l) X) hs alpha = Ok (kd, caller)
    /\ (forall pts, Forall (fun p => List.length p = d) pts -> eval_points kd pts (repeat 1 (List.length X)) 0 = Ok (map F pts)) /\ space_integral d F 1
    /\ (forall pts, (2 <= List.length pts)%nat -> Forall (in_domain l) pts -> tkde_eval_points (fun v => v) (Some L2) kd d d pts = Ok (map f pts))
    /\ (forall p, in_domain l p -> exists j, jacobian l p j /\ f p = F (change_point l p) * j)
    /\ (forall m, range_integrals l F m -> domain_integrals l f m).
Proof.
  intros Hlg HI HC Hd HX HL HD Hf Hg. destruct (tkde_main g key k s name c d X L2 l hs alpha gs Hlg HI HC Hd HX HL HD Hf Hg) as (kd & c' & F & f & A1 & A2 & A3 & A4 & A5 & A6 & A7 & A8 & A9 & _). exists kd, c', F, f. repeat (split; [assumption|]). assumption.
Qed.
(* the mass that a power transformation loses *)
Lemma monotone_limit (f : R -> R) (l a : R) : is_lim f p_infty l -> (forall x y, a <= x -> x <= y -> f x <= f y) -> forall x, a <= x -> f x <= l.
Proof.
  intros H M x Hx. assert (Q : Rbar_le (f x) l); [|exact Q]. apply (is_lim_le_loc (fun _ => f x) f p_infty (f x) l); [|apply is_lim_const|exact H]. exists (Rmax a x). intros y Hy. apply M; [easy|]. pose proof (Rmax_r a x). lra.
Qed.
Lemma line_part (F : R -> R) delta : (forall x, 0 <= F x) -> line_integral F 1 -> (forall x, -1 <= x <= 0 -> delta <= F x) -> forall u w, 0 <= u -> u <= w -> exists m, area F u w m /\ m <= 1 - delta.
Proof.
  intros HP (H1 & H2) HD u w Hu Hw. exists (RInt F u w). split; [apply (@RInt_correct R_CompleteNormedModule); apply H1|].
  assert (Nn : forall a b, a <= b -> 0 <= RInt F a b) by (intros a b Hab; apply RInt_ge_0; [easy|apply H1|intros; apply HP]).
  assert (Ch : forall a b c, RInt F a c = RInt F a b + RInt F b c) by (intros a b c; symmetry; apply (RInt_Chasles F); apply H1).
  set (W := Rmax w 1). pose proof (Rmax_l w 1) as W1. pose proof (Rmax_r w 1) as W2. fold W in W1, W2.
  assert (T : RInt F (- W) W <= 1). { apply (monotone_limit (fun V => RInt F (- V) V) 1 0 H2); [|lra]. intros x y Hx Hy. rewrite (Ch (- y) (- x) y), (Ch (- x) x y). pose proof (Nn (- y) (- x) ltac:(lra)). pose proof (Nn x y Hy). lra. }
  rewrite (Ch (- W) (-1) W), (Ch (-1) 0 W), (Ch 0 u W), (Ch u w W) in T. pose proof (Nn (- W) (-1) ltac:(lra)). pose proof (Nn 0 u Hu). pose proof (Nn w W W1).
  assert (D : delta <= RInt F (-1) 0). { replace delta with (RInt (fun _ => delta) (-1) 0). 2:{ apply area_unique. apply (area_value _ _ _ ((0 - -1) * delta)); [ring|apply SpreadProofs2.const_area]. } apply RInt_le; [lra|apply ex_RInt_const|apply H1|]. intros x Hx. apply HD. lra. }
  lra.
Qed.
Lemma tkde_mass g n c X v l hs alpha gs : log_gamma g -> norm_factor g (Gaussian 4) 1 n = Ok c -> n = List.length X -> X <> [] -> v <> 0 -> v <> 1 -> Forall (in_domain [v]) X -> fits 1 hs -> 0 < gs (row (map (change_point [v]) X) 0) -> l = [v] ->
  exists kd caller f delta, tkde_init (fun v => v) (fun v => v) gs (kernel (Gaussian 4)) (norm_factor g (Gaussian 4)) (Some [v]) 1 X hs alpha = Ok (kd, caller)
    /\ (forall pts, (2 <= List.length pts)%nat -> Forall (in_domain [v]) pts -> tkde_eval_points (fun v => v) (Some [v]) kd 1 1 pts = Ok (map f pts))
    /\ 0 < delta /\ forall a b, 0 < a -> a <= b -> exists m, area (fun x => f [x]) a b m /\ m <= 1 - delta.
Proof.
  intros Hlg HC Hn HX H0 H1 HD Hf Hg _. subst n. assert (HI : In ("gaus", (Gaussian 4, stats_gaus, "Gaussian"))%string mkernel_dict) by (cbn; tauto).
  assert (HL : exponents [v] 1 [v]) by (right; split; reflexivity).
  destruct (tkde_main g _ (Gaussian 4) _ _ c 1 X [v] [v] hs alpha gs Hlg HI HC ltac:(lia) HX HL HD Hf ltac:(intros i Hi; replace i with O by lia; exact Hg)) as (kd & c' & F & f & A1 & A2 & A3 & A4 & A5 & A6 & A7 & A8 & A9 & A10 & A11).
  assert (HT : map (change_point [v]) X <> []) by (destruct X; [congruence|discriminate]).
  assert (HFT : Forall (fun p => List.length p = 1%nat) (map (change_point [v]) X)). { apply Forall_forall. intros p Hp. apply in_map_iff in Hp as (q & <- & Hq). rewrite Forall_forall in HD. rewrite change_length, (in_domain_length _ _ (HD q Hq)). reflexivity. }
  destruct (built g _ (Gaussian 4) _ _ c 1 (map (change_point [v]) X) hs alpha gs HI ltac:(rewrite map_length; exact HC) ltac:(lia) HT HFT Hf ltac:(intros i Hi; replace i with O by lia; exact Hg)) as (h & c2 & f0 & B1 & B2 & B3 & B4 & B5 & B6).
  rewrite A2 in B1. assert (Q : forall (a b : kde) (c d : option (list R)), Ok (a, c) = Ok (b, d) -> a = b) by (intros ? ? ? ? Z; injection Z; auto). apply Q in B1. clear Q.
  set (T := map (change_point [v]) X) in *. assert (LT : List.length T = List.length X) by apply map_length. assert (Lf : List.length f0 = List.length T) by (rewrite B5; apply map_length).
  destruct h as [|h [|]]; try discriminate. inversion B3 as [|? ? Hh _]; subst x l0.
  (* a lower bound *)
  destruct T as [|T0 T'] eqn:ET; [congruence|]. set (lam := lambdas alpha f0) in *. assert (Plam : forall i, (i < List.length (T0 :: T'))%nat -> 0 < nth i lam 0). { intros i Hi. pose proof (lambdas_pos alpha f0) as PP. fold lam in PP. rewrite Forall_forall in PP. apply PP. apply nth_In. unfold lam. rewrite lambdas_length. lia. }
  pose proof (Plam O ltac:(cbn; lia)) as P0. pose proof (factor_pos g 1 _ _ _ _ _ c HI ltac:(lia) HC) as Cp.
  inversion HFT as [|? ? H0T _]; subst x l0. destruct T0 as [|t0 [|]]; try discriminate.
  set (N := prodl [h] * INR (List.length ([t0] :: T')) * c). assert (HN : 0 < N). { unfold N, prodl. cbn [fold_right]. rewrite Rmult_1_r. apply Rmult_lt_0_compat; [apply Rmult_lt_0_compat|]; try easy. apply lt_0_INR. cbn. lia. }
  set (lam0 := nth 0 lam 0) in *.
  set (delta := / lam0 * exp (- (1 / 2) * ((Rabs t0 + 1) / (h * lam0)) ^ 2) / N).
  assert (Hdelta : 0 < delta). { unfold delta. apply Rdiv_lt_0_compat; [|easy]. apply Rmult_lt_0_compat; [now apply Rinv_0_lt_compat|apply exp_pos]. }
  assert (LB : forall x, -1 <= x <= 0 -> delta <= F [x]).
  { intros x Hx. rewrite A11, B1. rewrite <- LT. unfold estimate, my_kde. cbn [dataset inv_hs lambda_ KdeModel.kernel KdeModel.norm_factor]. fold N. unfold delta. apply Rmult_le_compat_r; [left; now apply Rinv_0_lt_compat|]. cbn [List.length seq map]. unfold sumR. cbn [fold_right]. rewrite <- (Rplus_0_r (/ lam0 * _)). apply Rplus_le_compat.
    - cbn [repeat nth power_sum minus_vec map apply_matrix diagonal List.length seq Nat.eqb inner kernel npsum fold_right]. unfold npsum. cbn [map fold_right]. fold lam0. replace (1 / lam0 ^ 1 * 1) with (/ lam0) by (field; lra). apply Rmult_le_compat_l; [left; now apply Rinv_0_lt_compat|]. apply SeaCases.exp_le. rewrite !Rplus_0_r.
      replace (4 / 4) with 1 by field. replace (/ h * ((x - t0) / lam0) / 1) with ((x - t0) / (h * lam0)) by (field; lra). assert (Hc : 0 < h * lam0) by (now apply Rmult_lt_0_compat).
      assert (S1 : ((x - t0) / (h * lam0)) ^ 2 <= ((Rabs t0 + 1) / (h * lam0)) ^ 2). { rewrite <- (pow2_abs ((x - t0) / (h * lam0))). apply pow_incr. split; [apply Rabs_pos|]. unfold Rdiv. rewrite Rabs_mult, (Rabs_right (/ (h * lam0))) by (apply Rle_ge; left; now apply Rinv_0_lt_compat). apply Rmult_le_compat_r; [left; now apply Rinv_0_lt_compat|]. pose proof (Rle_abs t0). pose proof (Rle_abs (- t0)). rewrite Rabs_Ropp in H2. apply Rabs_le. lra. } lra.
    - assert (G : forall is, (forall i, In i is -> (i < List.length ([t0] :: T'))%nat) -> 0 <= fold_right Rplus 0 (map (fun i => nth i (repeat 1 (S (List.length T'))) 0 / nth i lam 0 ^ List.length (diagonal (map Rinv [h])) * power_sum 0 (minus_vec [x] (nth i ([t0] :: T') [])) * kernel (Gaussian 4) (apply_matrix (diagonal (map Rinv [h])) (map (fun v0 => v0 / nth i lam 0) (minus_vec [x] (nth i ([t0] :: T') []))))) is)).
      { induction is as [|i is IH]; intros HH; cbn [map fold_right]; [lra|]. apply Rplus_le_le_0_compat; [|apply IH; intros; apply HH; now right]. apply Rmult_le_pos; [|apply kernel_nonneg]. cbn [power_sum]. rewrite Rmult_1_r. specialize (HH i ltac:(now left)). rewrite nth_repeat_1 by (cbn in HH; lia). left. apply Rdiv_lt_0_compat; [lra|]. apply pow_lt. now apply Plam. }
      apply (G (seq 1 (List.length T'))). intros i Hi. apply in_seq in Hi. cbn. lia. }
  exists kd, c', f, delta. split; [exact A1|]. split; [exact A6|]. split; [exact Hdelta|]. intros a b Ha Hb.
  assert (LF : line_integral (fun x => F [x]) 1). { destruct A4 as (gg & G1 & G2). apply (line_ext gg); [intros x; symmetry; apply (G1 x)|exact G2]. }
  set (u := if Rlt_dec v 0 then Rpower b v else Rpower a v). set (w := if Rlt_dec v 0 then Rpower a v else Rpower b v). assert (U0 : 0 < u) by (unfold u; destruct (Rlt_dec v 0); apply Rpower_pos). assert (UW : u <= w) by (now apply Rpower_order).
  destruct (line_part (fun x => F [x]) delta ltac:(intros; apply A5) LF LB u w ltac:(lra) UW) as (m & M1 & M2). exists m. split; [|exact M2].
  pose proof (pow_area v (fun x => F [x]) a b m H0 Ha Hb M1) as PA. apply (is_RInt_ext) with (2 := PA). intros x Hx. rewrite Rmin_left in Hx by easy. rewrite A10. unfold zip_with, prodl. cbn [combine map fold_right fst snd change_point]. rewrite scale1_value by (easy || lra). unfold change. destruct (Req_EM_T v 0); [contradiction|]. destruct (Req_EM_T v 1); [contradiction|]. now rewrite Rmult_1_r.
Qed.
(* errors and other findings *)
Lemma single_value L2 l k d x : exponents L2 d l -> List.length (inv_hs k) = d -> List.length (lambda_ k) = List.length (dataset k) -> in_domain l x -> tkde_eval_points (fun v => v) (Some L2) k d d [x] = Err ValueError.
Proof.
  intros HL Hd Hl Hx. destruct (spread_ok L2 d l HL) as (SE & SL). unfold tkde_eval_points, check_shape. rewrite Nat.eqb_refl. cbn [bind]. rewrite (transform_value L2 d l [x] HL). cbn [bind]. rewrite eval_points_value; [|apply repeat_length|easy|]. 2:{ intros p [<-|[]]. rewrite change_length, (in_domain_length _ _ Hx), Hd, SL. lia. } cbn [bind]. unfold scale_pdf. rewrite SE. reflexivity.
Qed.
Lemma integer_data dtype X : (forall v, 1 <= v < 2 -> dtype v = 1) -> (forall p, In p X -> exists x, p = [x] /\ 1 <= x < 4) -> transform dtype (Some [1 / 2]) 1 X = Ok (map (fun _ => [1]) X).
Proof.
  intros Hd HX. unfold transform. cbn [spread_L2 repeat bind List.length Nat.eqb]. f_equal. apply map_ext_in. intros p Hp. destruct (HX p Hp) as (x & -> & Hx). unfold zip_with. cbn [combine map fst snd]. f_equal. apply Hd. unfold transform1, power. destruct (Req_EM_T (1 / 2) 0); [lra|]. destruct (Req_EM_T (1 / 2) 1); [lra|]. replace (1 / 2) with (/ 2) by field. rewrite Rpower_sqrt by lra. split.
  - rewrite <- sqrt_1. apply sqrt_le_1_alt. lra.
  - replace 2 with (sqrt (2 * 2)) by (apply sqrt_square; lra). apply sqrt_lt_1_alt. lra.
Qed.
Lemma round_trip L2 d l X : exponents L2 d l -> (forall p, In p X -> Forall2 (fun v x => 0 < x \/ v = 1) l p) -> (let* t := transform (fun v => v) (Some L2) d X in inverse_transform (fun v => v) (Some L2) d t) = Ok X.
Proof.
  intros HL HX. destruct (spread_ok L2 d l HL) as (SE & SL). rewrite (transform_value L2 d l X HL). cbn [bind]. unfold inverse_transform. rewrite SE. cbn [bind]. rewrite (proj2 (Nat.eqb_eq _ _) SL). f_equal. rewrite map_map. transitivity (map (fun x : list R => x) X); [|apply map_id]. apply map_ext_in. intros p Hp. specialize (HX p Hp). clear -HX. induction HX as [|v x l p D H IH]; [reflexivity|]. unfold zip_with in *. cbn [change_point combine map fst snd]. f_equal; [|exact IH].
  unfold inverse1, change, power. destruct (Req_EM_T v 0) as [Z|Z]; [apply exp_ln; destruct D; [easy|lra]|]. destruct (Req_EM_T v 1) as [E|E].
  - subst. destruct (Req_EM_T (1 / 1) 1); [reflexivity|]. exfalso. lra.
  - destruct D as [D|D]; [|contradiction]. destruct (Req_EM_T (1 / v) 1) as [Q|Q]. + exfalso. apply E. apply (f_equal (fun z => z * v)) in Q. unfold Rdiv in Q. rewrite Rmult_1_l, Rinv_l in Q by easy. lra.
    + rewrite Rpower_mult. replace (v * (1 / v)) with 1 by (field; easy). now apply Rpower_1.
Qed.
(* grids *)
Lemma cartesian_change l : forall args, List.length l = List.length args -> cartesian (map (fun q => map (fun x => transform1 x (snd q)) (fst q)) (combine args l)) = map (change_point l) (cartesian args).
Proof.
  induction l as [|v l IH]; intros [|x args] H; try discriminate; [reflexivity|]. cbn [combine map cartesian fst snd]. rewrite IH by (cbn in H; lia). clear IH H. induction x as [|a x IHx]; [reflexivity|]. cbn [map flat_map]. rewrite map_app, IHx. f_equal. rewrite !map_map. apply map_ext. intros p. reflexivity.
Qed.
Lemma cartesian_length args : forall p, In p (cartesian args) -> List.length p = List.length args.
Proof. induction args as [|x args IH]; intros p; cbn [cartesian]; [intros [<-|[]]; reflexivity|]. intros H. apply in_flat_map in H as (a & _ & H). apply in_map_iff in H as (q & <- & H). cbn. now rewrite (IH q H). Qed.
Lemma cartesian_count x args : List.length (cartesian (x :: args)) = (List.length x * List.length (cartesian args))%nat.
Proof. cbn [cartesian]. induction x as [|a x IH]; [reflexivity|]. cbn [flat_map List.length Nat.mul]. rewrite app_length, map_length, IH. reflexivity. Qed.
Lemma cartesian_two args : args <> [] -> Forall (fun x => (2 <= List.length x)%nat) args -> (2 <= List.length (cartesian args))%nat.
Proof.
  intros Hn H. induction H as [|x args Hx H IH]; [congruence|]. rewrite cartesian_count. destruct args as [|y args]; [cbn; lia|]. specialize (IH ltac:(discriminate)). nia.
Qed.
Lemma meshgrid_change l args : List.length l = List.length args -> meshgrid (map (fun q => map (fun x => transform1 x (snd q)) (fst q)) (combine args l)) = map (change_point l) (meshgrid args).
Proof.
  intros H. destruct args as [|x [|y r]].
  - destruct l; [reflexivity|discriminate].
  - destruct l as [|v [|]]; try discriminate. unfold meshgrid. cbn [combine map]. exact (cartesian_change [v] [x] eq_refl).
  - destruct l as [|v [|w m]]; try discriminate. unfold meshgrid. cbn [combine map]. pose proof (cartesian_change (w :: v :: m) (y :: x :: r) ltac:(cbn in *; lia)) as C. cbn [combine map fst snd] in C. etransitivity; [apply f_equal; exact C|]. rewrite !map_map. apply map_ext_in. intros p Hp. pose proof (cartesian_length _ _ Hp) as L. destruct p as [|b [|a q]]; try discriminate. reflexivity.
Qed.
Lemma meshgrid_length args p : In p (meshgrid args) -> List.length p = List.length args.
Proof.
  destruct args as [|x [|y r]]; [apply cartesian_length|apply cartesian_length|]. unfold meshgrid. intros H. apply in_map_iff in H as (q & <- & H). pose proof (cartesian_length _ _ H) as L. destruct q as [|b [|a q]]; try discriminate. exact L.
Qed.
Lemma meshgrid_two args : args <> [] -> Forall (fun x => (2 <= List.length x)%nat) args -> (2 <= List.length (meshgrid args))%nat.
Proof.
  intros Hn H. destruct args as [|x [|y r]]; [congruence|now apply cartesian_two|]. unfold meshgrid. rewrite map_length. apply cartesian_two; [discriminate|]. inversion H as [|? ? H1 H2]; subst. inversion H2; subst. repeat constructor; assumption.
Qed.
Lemma pair_flat x y : meshgrid [x; y] = flat_map (fun b => map (fun a => [a; b]) x) y.
Proof.
  unfold meshgrid. cbn [cartesian]. induction y as [|b y IH]; [reflexivity|]. cbn [flat_map]. rewrite map_app, IH. f_equal. clear. induction x as [|a x IH]; [reflexivity|]. cbn in *. now rewrite IH.
Qed.
Lemma grid_pair x y i j : (i < List.length y)%nat -> (j < List.length x)%nat -> nth (i * List.length x + j) (meshgrid [x; y]) [] = [nth j x 0; nth i y 0] /\ List.length (meshgrid [x; y]) = (List.length y * List.length x)%nat.
Proof.
  intros Hi Hj. rewrite pair_flat. split.
  - revert i Hi. induction y as [|b y IH]; intros i Hi; [cbn in Hi; lia|]. cbn [flat_map]. destruct i as [|i].
    + rewrite app_nth1 by (rewrite map_length; lia). cbn [Nat.mul Nat.add nth]. rewrite (nth_indep _ [] [0; b]) by (rewrite map_length; lia). rewrite (map_nth (fun a => [a; b])). reflexivity.
    + rewrite app_nth2 by (rewrite map_length; cbn; lia). rewrite map_length. replace (S i * List.length x + j - List.length x)%nat with (i * List.length x + j)%nat by (cbn; lia). cbn [nth]. apply IH. cbn in Hi. lia.
  - clear. induction y as [|b y IH]; [reflexivity|]. cbn [flat_map List.length Nat.mul]. rewrite app_length, map_length, IH. reflexivity.
Qed.

Lemma grid_values L2 l k args : exponents L2 (List.length args) l -> Forall (fun x => (2 <= List.length x)%nat) args -> args <> [] ->
  List.length (inv_hs k) = List.length args -> List.length (lambda_ k) = List.length (dataset k) ->
  tkde_eval_grid (Some L2) k args = tkde_eval_points (fun v => v) (Some L2) k (List.length args) (List.length args) (meshgrid args).
Proof.
  intros HL HF Hn Hd Hl. destruct (spread_ok L2 _ l HL) as (SE & SL). unfold tkde_eval_grid, tkde_eval_points, eval_grid, check_shape. rewrite SE. cbn [bind]. rewrite (proj2 (Nat.eqb_eq _ _) SL), Nat.eqb_refl. cbn [bind]. rewrite (transform_value L2 _ l (meshgrid args) HL). cbn [bind]. rewrite meshgrid_change by easy.
  rewrite eval_points_value; [|apply repeat_length|easy|]. 2:{ intros p Hp. apply in_map_iff in Hp as (q & <- & Hq). rewrite change_length, (meshgrid_length _ _ Hq), Hd, SL. lia. } cbn [bind]. unfold scale_pdf. rewrite SE. cbn [bind]. pose proof (meshgrid_two args Hn HF) as T. rewrite !map_length. rewrite (proj2 (Nat.eqb_neq (List.length (meshgrid args)) 0)) by lia. rewrite (proj2 (Nat.ltb_ge (List.length (meshgrid args)) 2) T).
  assert (Q : (2 <= List.length (match args with [x; _] => x | _ => last args [] end))%nat). { assert (In (match args with [x; _] => x | _ => last args [] end) args). { destruct args as [|x [|y [|z r]]]; [congruence|now left|now left|]. destruct (exists_last (l := x :: y :: z :: r) ltac:(discriminate)) as (r' & a & ->). rewrite last_last. apply in_or_app. right. now left. } rewrite Forall_forall in HF. now apply HF. }
  rewrite (proj2 (Nat.ltb_ge _ 2) Q). reflexivity.
Qed.
