From Coq Require Import Reals Lra Lia.
From Coquelicot Require Import Coquelicot.
From Verif Require Import Base PolyModel WaveModel SeaModel SeaSpec SeaProofs SeaProofs2 SeaProofs3.
Local Open Scope R_scope.

(* ---- the peak enhancement factor ---- *)
Definition spread2 (sa sb wn : R) : R := let w := Rmax wn 0 in ((w - 1) / (if Rlt_dec 1 w then sb else sa)) ^ 2.
Lemma factor_val gam sa sb wn : peak_e_factor gam sa sb wn = Rpower gam (exp (- (1 / 2 * spread2 sa sb wn))).
Proof. reflexivity. Qed.
Lemma expo_le x y : x <= y -> exp x <= exp y.
Proof. intros [H| ->]; [left; now apply exp_increasing|lra]. Qed.
Lemma factor_bounds gam sa sb wn : 1 <= gam -> 1 <= peak_e_factor gam sa sb wn <= gam.
Proof.
  intros Hg. rewrite factor_val. set (e := exp _). assert (He : 0 < e) by apply exp_pos.
  assert (He1 : e <= 1). { apply Rle_trans with (exp 0); [|rewrite exp_0; lra]. apply expo_le. unfold spread2. match goal with |- context [?z ^ 2] => pose proof (pow2_ge_0 z) end. lra. }
  unfold Rpower. pose proof (ln_ge1 gam Hg). split.
  - apply Rle_trans with (exp 0); [rewrite exp_0; lra|]. apply expo_le. nra.
  - rewrite <- (exp_ln gam) at 2 by lra. apply expo_le. nra.
Qed.
Lemma factor_peak gam sa sb : 0 < gam -> peak_e_factor gam sa sb 1 = gam.
Proof.
  intros Hg. rewrite factor_val. unfold spread2. rewrite Rmax_left by lra. replace ((1 - 1) / _) with 0 by (unfold Rdiv; ring).
  replace (- (1 / 2 * 0 ^ 2)) with 0 by ring. rewrite exp_0. unfold Rpower. rewrite Rmult_1_l. now apply exp_ln.
Qed.
Lemma factor_one sa sb wn : peak_e_factor 1 sa sb wn = 1.
Proof. unfold peak_e_factor, Rpower. rewrite ln_1, Rmult_0_r. apply exp_0. Qed.
Lemma sq_div a b s : 0 < s -> 0 <= a -> a <= b -> (a / s) ^ 2 <= (b / s) ^ 2.
Proof. intros Hs Ha Hb. apply pow_incr. split; [apply Rmult_le_pos; [easy|left; now apply Rinv_0_lt_compat]|]. apply Rmult_le_compat_r; [left; now apply Rinv_0_lt_compat|easy]. Qed.
Lemma sq_opp x s : ((- x) / s) ^ 2 = (x / s) ^ 2.
Proof. unfold Rdiv. ring. Qed.
Lemma factor_up gam sa sb x y : 1 <= gam -> 0 < sa -> 0 < x -> x < y -> y <= 1 -> peak_e_factor gam sa sb x <= peak_e_factor gam sa sb y.
Proof.
  intros Hg Hs Hx Hy H1. rewrite !factor_val. unfold Rpower. apply expo_le. apply Rmult_le_compat_r; [now apply ln_ge1|]. apply expo_le.
  enough (spread2 sa sb y <= spread2 sa sb x) by lra. unfold spread2. rewrite !Rmax_left by lra. destruct (Rlt_dec 1 y); [lra|]. destruct (Rlt_dec 1 x); [lra|].
  rewrite <- (sq_opp (y - 1)), <- (sq_opp (x - 1)). apply sq_div; lra.
Qed.
Lemma factor_down gam sa sb x y : 1 <= gam -> 0 < sb -> 1 <= x -> x < y -> peak_e_factor gam sa sb y <= peak_e_factor gam sa sb x.
Proof.
  intros Hg Hs Hx Hy. rewrite !factor_val. unfold Rpower. apply expo_le. apply Rmult_le_compat_r; [now apply ln_ge1|]. apply expo_le.
  enough (spread2 sa sb x <= spread2 sa sb y) by lra. unfold spread2. rewrite !Rmax_left by lra. destruct (Rlt_dec 1 y); [|lra]. destruct (Rlt_dec 1 x).
  - apply sq_div; lra.
  - replace (x - 1) with 0 by lra. replace (0 / sa) with 0 by (unfold Rdiv; ring). rewrite pow_i by lia. apply pow2_ge_0.
Qed.
Lemma cont_Rabs x : continuous Rabs x.
Proof. apply (continuous_comp (fun y => y) Rabs); [apply continuous_id|]. apply continuity_pt_filterlim. apply Rcontinuity_abs. Qed.
Lemma cont_max0 x : continuous (fun y => Rmax y 0) x.
Proof.
  apply (continuous_ext (fun y => / 2 * (y + Rabs y))).
  - intros y. unfold Rmax, Rabs. destruct (Rle_dec y 0), (Rcase_abs y); lra.
  - apply (continuous_mult (fun _ => / 2) (fun y => y + Rabs y)); [apply continuous_const|]. apply (continuous_plus (fun y => y) Rabs); [apply continuous_id|apply cont_Rabs].
Qed.
Lemma spread2_max sa sb wn : spread2 sa sb wn = (Rmax (Rmax wn 0 - 1) 0 / sb) ^ 2 + (Rmax (- (Rmax wn 0 - 1)) 0 / sa) ^ 2.
Proof.
  unfold spread2. set (w := Rmax wn 0). destruct (Rlt_dec 1 w) as [H|H].
  - rewrite (Rmax_left (w - 1) 0) by lra. rewrite Rmax_right by lra. unfold Rdiv. ring.
  - rewrite (Rmax_right (w - 1) 0) by lra. rewrite Rmax_left by lra. unfold Rdiv. ring.
Qed.
Lemma cont_smooth (f h : R -> R) (x : R) : ex_derive f (h x) -> continuous h x -> continuous (fun y => f (h y)) x.
Proof. intros H C. apply (continuous_comp h f); [easy|]. now apply (ex_derive_continuous (V := R_NormedModule)). Qed.
Lemma factor_continuous gam sa sb x : 0 < sa -> 0 < sb -> continuous (peak_e_factor gam sa sb) x.
Proof.
  intros Ha Hb. apply (continuous_ext (fun wn => Rpower gam (exp (- (1 / 2 * ((Rmax (Rmax wn 0 - 1) 0 / sb) ^ 2 + (Rmax (- (Rmax wn 0 - 1)) 0 / sa) ^ 2)))))).
  { intros y. now rewrite factor_val, spread2_max. }
  apply (cont_smooth (fun z => Rpower gam (exp (- (1 / 2 * z))))). { unfold Rpower. auto_derive. easy. }
  apply (continuous_plus (fun y => (Rmax (Rmax y 0 - 1) 0 / sb) ^ 2) (fun y => (Rmax (- (Rmax y 0 - 1)) 0 / sa) ^ 2)).
  - apply (cont_smooth (fun z => (z / sb) ^ 2) (fun y => Rmax (Rmax y 0 - 1) 0)). { auto_derive. lra. }
    apply (continuous_comp (fun y => Rmax y 0 - 1) (fun z => Rmax z 0)); [|apply cont_max0]. apply (cont_smooth (fun z => z - 1) (fun y => Rmax y 0)); [auto_derive; easy|apply cont_max0].
  - apply (cont_smooth (fun z => (z / sa) ^ 2) (fun y => Rmax (- (Rmax y 0 - 1)) 0)). { auto_derive. lra. }
    apply (continuous_comp (fun y => - (Rmax y 0 - 1)) (fun z => Rmax z 0)); [|apply cont_max0]. apply (cont_smooth (fun z => - (z - 1)) (fun y => Rmax y 0)); [auto_derive; easy|apply cont_max0].
Qed.
Lemma local_continuous g gam sa sb N M x : 0 < sa -> 0 < sb -> 0 < N -> 0 < M -> continuous (localspec g gam sa sb N M) x.
Proof. intros. apply (continuous_mult (peak_e_factor gam sa sb) (gengamspec g N M)); [now apply factor_continuous|now apply gengam_continuous]. Qed.
Lemma factor_pos gam sa sb x : 0 < peak_e_factor gam sa sb x.
Proof. rewrite factor_val. apply exp_pos. Qed.
Lemma local_pos g gam sa sb N M x : 0 < x -> 0 < localspec g gam sa sb N M x.
Proof. intros H. apply Rmult_lt_0_compat; [apply factor_pos|now apply gengam_pos]. Qed.
Lemma local_peak g gam sa sb N M : 1 <= gam -> 0 < sa -> 0 < sb -> 0 < N -> 0 < M -> single_peak (localspec g gam sa sb N M) 1.
Proof.
  intros Hg Ha Hb HN HM. destruct (gengam_peak g N M HN HM) as [P1 P2]. unfold localspec. split; intros x y H1 H2.
  - intros H3. specialize (P1 x y H1 H2 H3). pose proof (factor_up gam sa sb x y Hg Ha H1 H2 H3). pose proof (factor_pos gam sa sb x). pose proof (gengam_pos g N M x H1). nra.
  - specialize (P2 x y H1 H2). pose proof (factor_down gam sa sb x y Hg Hb H1 H2). pose proof (factor_pos gam sa sb y). pose proof (gengam_pos g N M x ltac:(lra)). nra.
Qed.

(* ---- the spectrum ---- *)
Lemma jons_val g H T gam sa sb A N M w : 0 < H -> jons_call g (Jons H T gam sa sb A N M) w = (H / 4) ^ 2 * A / (2 * PI / T) * localspec g gam sa sb N M (w / (2 * PI / T)).
Proof. intros HH. unfold jons_call, localspec. cbn [jHm0 jTp jgamma jsigmaA jsigmaB jAg jN jM]. destruct (Rlt_dec 0 H); [|lra]. unfold Rdiv. ring. Qed.
Lemma jons_zero g H T gam sa sb A N M w : H <= 0 -> jons_call g (Jons H T gam sa sb A N M) w = 0.
Proof. intros HH. unfold jons_call. cbn [jHm0]. destruct (Rlt_dec 0 H); [lra|easy]. Qed.
(* ---- the peak factor from Hm0 and Tp ---- *)
Lemma peak_poly x : 0 <= x -> 1975 / 10000 * (36 / 1000 - 56 / 10000 * x) * x ^ 4 < 1.
Proof.
  intros Hx. set (m := 36 / 7).
  assert (E : 56 / 10000 * (m ^ 5 / 4) - (36 / 1000 - 56 / 10000 * x) * x ^ 4 = 56 / 10000 * ((x - m) ^ 2 * (x ^ 3 + 3 * m / 4 * x ^ 2 + m ^ 2 / 2 * x + m ^ 3 / 4))) by (unfold m; field).
  assert (P : 0 <= (x - m) ^ 2 * (x ^ 3 + 3 * m / 4 * x ^ 2 + m ^ 2 / 2 * x + m ^ 3 / 4)).
  { apply Rmult_le_pos; [apply pow2_ge_0|]. pose proof (pow_le x 3 Hx). pose proof (pow_le x 2 Hx). unfold m. nra. }
  assert (Q : 1975 / 10000 * (56 / 10000 * (m ^ 5 / 4)) < 1) by (unfold m; lra). lra.
Qed.
Lemma peakfact_bounds H T : 0 < T -> 1 <= jonswap_peakfact H T <= 7.
Proof.
  intros HT. unfold jonswap_peakfact. destruct (Rlt_dec 0 H) as [HH|]; [|lra]. set (x := T / sqrt H). assert (Hx : 0 < x) by (apply Rdiv_lt_0_compat; [easy|now apply sqrt_lt_R0]).
  destruct (Rle_dec x _) as [L|]; [|lra]. pose proof (peak_poly x ltac:(lra)) as P. split; [|apply Rmin_r].
  apply Rmin_glb; [|lra]. apply Rle_trans with (exp 0); [rewrite exp_0; lra|]. apply expo_le. lra.
Qed.
Lemma peakfact_above H T : 0 < H -> 0 < T -> T <= 514285714285714 / 10 ^ 14 * sqrt H -> 1 < jonswap_peakfact H T.
Proof.
  intros HH HT Hl. unfold jonswap_peakfact. destruct (Rlt_dec 0 H); [|lra]. assert (Hs : 0 < sqrt H) by now apply sqrt_lt_R0. set (x := T / sqrt H). assert (Hx : 0 < x) by (now apply Rdiv_lt_0_compat).
  destruct (Rle_dec x _) as [L|L].
  - pose proof (peak_poly x ltac:(lra)) as P. apply Rmin_glb_lt; [|lra]. apply Rle_lt_trans with (exp 0); [rewrite exp_0; lra|]. apply exp_increasing. lra.
  - exfalso. apply L. apply (Rmult_le_reg_r (sqrt H)); [easy|]. unfold x, Rdiv. rewrite (Rmult_assoc T), Rinv_l by lra. lra.
Qed.
Lemma peakfact_one H T : 0 < T -> H <= 0 \/ 514285714285714 / 10 ^ 14 * sqrt H < T -> jonswap_peakfact H T = 1.
Proof.
  intros HT [HH|HH]; unfold jonswap_peakfact; destruct (Rlt_dec 0 H) as [H0|]; try lra. assert (Hs : 0 < sqrt H) by now apply sqrt_lt_R0.
  destruct (Rle_dec (T / sqrt H) _) as [L|]; [|easy]. exfalso. apply (Rmult_le_compat_r (sqrt H)) in L; [|lra]. unfold Rdiv in L at 1. rewrite (Rmult_assoc T), Rinv_l in L by lra. lra.
Qed.
Definition gamma_of (H T : R) (gamma : option R) : R :=
  match gamma with None => jonswap_peakfact H T | Some y => if Rlt_dec y 1 then jonswap_peakfact H T else y end.
Lemma gamma_of_ge H T gamma : 0 < T -> 1 <= gamma_of H T gamma.
Proof. intros HT. pose proof (peakfact_bounds H T HT). unfold gamma_of. destruct gamma as [y|]; [destruct (Rlt_dec y 1)|]; lra. Qed.
(* everything a successful construction tells *)
Lemma jonswap_inv g quad H T gamma sa sb Ag N M m wnc chk s : jonswap g quad H T gamma sa sb Ag N M m wnc chk = Ok s ->
  jHm0 s = H /\ jTp s = T /\ jgamma s = gamma_of H T gamma /\ jsigmaA s = sa /\ jsigmaB s = sb /\ jN s = N /\ jM s = M /\ (chk = true -> 0 <= H /\ 0 < T)
  /\ (gamma_of H T gamma = 1 -> jAg s = 1)
  /\ (gamma_of H T gamma <> 1 -> match Ag with
      | Some a => 0 < a /\ jAg s = a
      | None => (m = Integration /\ 1 <= wnc /\ jAg s = 1 / (quad (localspec g (gamma_of H T gamma) sa sb N M) 0 1 + quad (localspec g (gamma_of H T gamma) sa sb N M) 1 wnc))
                \/ (m = Parametric /\ jAg s = parametric_ag N M (gamma_of H T gamma)) end).
Proof.
  unfold jonswap. fold (gamma_of H T gamma). set (gm := gamma_of H T gamma). intros E.
  assert (X : exists a, s = Jons H T gm sa sb a N M /\ (chk = true -> 0 <= H /\ 0 < T) /\
    (if Req_EM_T gm 1 then Ok 1 else match Ag with
         | Some _ => custom_ag Ag
         | None => match m with
                   | Integration => integrate_ag quad (localspec g gm sa sb N M) wnc
                   | Parametric => let* _ := check_parametric_ag N M gm in Ok (parametric_ag N M gm)
                   | Custom => custom_ag Ag
                   | Unknown => Err KeyError
                   end end) = Ok a).
  { destruct (if Req_EM_T gm 1 then _ else _) as [a|]; [|discriminate E]. cbn [bind] in E. exists a. destruct chk.
    - unfold chk_seastate in E. destruct (Rlt_dec H 0); [discriminate E|]. destruct (Rle_dec T 0); [discriminate E|]. cbn in E. injection E as <-. split; [easy|split; [lra|easy]].
    - cbn in E. injection E as <-. easy. }
  destruct X as (a & -> & Hc & Ha). cbn [jHm0 jTp jgamma jsigmaA jsigmaB jAg jN jM].
  do 7 (split; [easy|]). split; [easy|]. destruct (Req_EM_T gm 1) as [E1|E1].
  - injection Ha as <-. easy.
  - split; [easy|]. intros _. destruct Ag as [b|].
    + unfold custom_ag in Ha. destruct (Rle_dec b 0); [easy|]. injection Ha as <-. split; lra.
    + destruct m.
      * unfold integrate_ag in Ha. destruct (Rlt_dec wnc 1); [easy|]. injection Ha as <-. left. split; [easy|split; [lra|easy]].
      * destruct (check_parametric_ag N M gm); [|easy]. injection Ha as <-. now right.
      * discriminate Ha.
      * discriminate Ha.
Qed.
