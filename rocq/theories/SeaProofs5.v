From Coq Require Import Reals Lra Lia.
From Coquelicot Require Import Coquelicot.
From Verif Require Import Base PolyModel WaveModel SeaModel SeaSpec SeaProofs SeaProofs2 SeaProofs3 SeaProofs4.
Local Open Scope R_scope.

Lemma jonswap_bret g quad H T sa sb Ag N M m wnc w : forall s, jonswap g quad H T (Some 1) sa sb Ag N M m wnc true = Ok s ->
  jons_call g s w = bret_call g (Bret H T N M) w.
Proof.
  intros s E. apply jonswap_inv in E. destruct E as (E1 & E2 & E3 & E4 & E5 & E6 & E7 & Hc & HA & _). destruct s as [H' T' g' sa' sb' A' N' M']. cbn in *. subst.
  unfold gamma_of in *. destruct (Rlt_dec 1 1); [lra|]. rewrite (HA eq_refl). destruct (Rlt_dec 0 H).
  - rewrite jons_val, bret_val by easy. unfold localspec. rewrite factor_one. unfold Rdiv. ring.
  - rewrite jons_zero, bret_zero by lra. easy.
Qed.
Lemma jonswap_bret_ok g quad H T sa sb Ag N M m wnc : 0 <= H -> 0 < T -> exists s, jonswap g quad H T (Some 1) sa sb Ag N M m wnc true = Ok s.
Proof.
  intros HH HT. unfold jonswap. destruct (Rlt_dec 1 1); [lra|]. destruct (Req_EM_T 1 1); [|easy]. cbn [bind]. unfold chk_seastate.
  destruct (Rlt_dec H 0); [lra|]. destruct (Rle_dec T 0); [lra|]. cbn. now eexists.
Qed.
Lemma local_area g gam sa sb N M a b : 0 < sa -> 0 < sb -> 0 < N -> 0 < M -> area (localspec g gam sa sb N M) a b (RInt (localspec g gam sa sb N M) a b).
Proof. intros. apply cont_area. intros x. now apply local_continuous. Qed.
Lemma jonswap_energy g quad H T gamma sa sb N M wnc chk s : exact_quad quad -> 0 < H -> 0 < T -> 0 < sa -> 0 < sb -> 0 < N -> 0 < M ->
  jonswap g quad H T gamma sa sb None N M Integration wnc chk = Ok s -> jgamma s <> 1 -> area (jons_call g s) 0 (wnc * (2 * PI / T)) ((H / 4) ^ 2).
Proof.
  intros Hq HH HT Ha Hb HN HM E Hg. apply jonswap_inv in E. destruct E as (E1 & E2 & E3 & E4 & E5 & E6 & E7 & Hc & _ & HA). destruct s as [H' T' g' sa' sb' A' N' M']. cbn in *. subst.
  set (gm := gamma_of H T gamma) in *. specialize (HA Hg). destruct HA as [(_ & Hw & HA)|[HA _]]; [|discriminate HA].
  pose proof (local_area g gm sa sb N M) as LA. set (L := localspec g gm sa sb N M) in *.
  rewrite (Hq L 0 1 _ (LA 0 1 Ha Hb HN HM)), (Hq L 1 wnc _ (LA 1 wnc Ha Hb HN HM)) in HA.
  assert (EL : RInt L 0 1 + RInt L 1 wnc = RInt L 0 wnc). { apply (RInt_Chasles L 0 1 wnc); eexists; now apply LA. } rewrite EL in HA.
  assert (P : 0 < RInt L 0 wnc). { apply RInt_gt_0; [lra|intros; apply local_pos; lra|intros; now apply local_continuous]. }
  pose proof (peak_pos T HT) as Hp. set (p := 2 * PI / T) in *.
  apply (is_RInt_ext (fun w => (H / 4) ^ 2 * A' / p * L (w / p))). { intros x _. symmetry. now apply jons_val. }
  assert (EA : (H / 4) ^ 2 * A' * RInt L 0 wnc = (H / 4) ^ 2) by (rewrite HA; field; lra).
  enough (G : area (fun w => (H / 4) ^ 2 * A' / p * L (w / p)) 0 (wnc * p) ((H / 4) ^ 2 * A' * RInt L 0 wnc)) by (rewrite EA in G; exact G).
  apply area_scale; [easy|]. replace (wnc * p / p) with wnc by (field; lra). now apply LA.
Qed.
Lemma jonswap_sign g quad H T gamma sa sb N M wnc s : exact_quad quad -> 0 < H -> 0 < T -> 0 < sa -> 0 < sb -> 0 < N -> 0 < M ->
  jonswap g quad H T gamma sa sb None N M Integration wnc true = Ok s -> 0 < jAg s.
Proof.
  intros Hq HH HT Ha Hb HN HM E. apply jonswap_inv in E. destruct E as (E1 & E2 & E3 & E4 & E5 & E6 & E7 & Hc & A1 & HA). destruct s as [H' T' g' sa' sb' A' N' M']. cbn in *. subst.
  set (gm := gamma_of H T gamma) in *. destruct (Req_dec gm 1) as [E|E]; [rewrite A1 by easy; lra|]. specialize (HA E). destruct HA as [(_ & Hw & HA)|[HA _]]; [|discriminate HA].
  pose proof (local_area g gm sa sb N M) as LA. set (L := localspec g gm sa sb N M) in *.
  rewrite (Hq L 0 1 _ (LA 0 1 Ha Hb HN HM)), (Hq L 1 wnc _ (LA 1 wnc Ha Hb HN HM)) in HA.
  assert (EL : RInt L 0 1 + RInt L 1 wnc = RInt L 0 wnc). { apply (RInt_Chasles L 0 1 wnc); eexists; now apply LA. } rewrite EL in HA.
  rewrite HA. apply Rdiv_lt_0_compat; [lra|]. apply RInt_gt_0; [lra|intros; apply local_pos; lra|intros; now apply local_continuous].
Qed.
Lemma jons_single_peak g H T gam sa sb A N M : 0 < H -> 0 < T -> 1 <= gam -> 0 < sa -> 0 < sb -> 0 < A -> 0 < N -> 0 < M -> single_peak (jons_call g (Jons H T gam sa sb A N M)) (2 * PI / T).
Proof.
  intros. apply (single_peak_ext (fun w => (H / 4) ^ 2 * A / (2 * PI / T) * localspec g gam sa sb N M (w / (2 * PI / T)))); [intros x; now rewrite jons_val|].
  apply single_peak_scale; [now apply peak_pos| |now apply local_peak]. apply Rdiv_lt_0_compat; [|now apply peak_pos]. apply Rmult_lt_0_compat; nra.
Qed.
Lemma jons_signs g H T gam sa sb A N M w : 0 < H -> 0 < T -> 0 < A -> (0 < w -> 0 < jons_call g (Jons H T gam sa sb A N M) w) /\ (w <= 0 -> jons_call g (Jons H T gam sa sb A N M) w = 0).
Proof.
  intros HH HT HA. rewrite jons_val by easy. pose proof (peak_pos T HT) as Hp. split; intros Hw.
  - apply Rmult_lt_0_compat; [|apply local_pos; now apply Rdiv_lt_0_compat]. apply Rdiv_lt_0_compat; [|easy]. apply Rmult_lt_0_compat; nra.
  - unfold localspec. rewrite gengam_neg; [ring|]. pose proof (Rinv_0_lt_compat _ Hp). unfold Rdiv at 1. nra.
Qed.
Lemma jonswap_shape g quad H T gamma sa sb N M wnc s : exact_quad quad -> 0 < H -> 0 < T -> 0 < sa -> 0 < sb -> 0 < N -> 0 < M ->
  jonswap g quad H T gamma sa sb None N M Integration wnc true = Ok s ->
  single_peak (jons_call g s) (2 * PI / T) /\ (forall w, 0 < w -> 0 < jons_call g s w) /\ (forall w, w <= 0 -> jons_call g s w = 0).
Proof.
  intros Hq HH HT Ha Hb HN HM E. pose proof (jonswap_sign _ _ _ _ _ _ _ _ _ _ _ Hq HH HT Ha Hb HN HM E) as PA. apply jonswap_inv in E. destruct E as (E1 & E2 & E3 & E4 & E5 & E6 & E7 & _). destruct s as [H' T' g' sa' sb' A' N' M']. cbn in *. subst.
  split; [apply jons_single_peak; try easy; now apply gamma_of_ge|]. split; intros w; now apply jons_signs.
Qed.
Lemma jonswap_gamma g quad H T gamma sa sb Ag N M m wnc chk s : 0 < T -> jonswap g quad H T gamma sa sb Ag N M m wnc chk = Ok s ->
  1 <= jgamma s /\ (gamma = None -> jgamma s <= 7) /\ (forall y, gamma = Some y -> 1 <= y -> jgamma s = y).
Proof.
  intros HT E. apply jonswap_inv in E. destruct E as (_ & _ & E3 & _). rewrite E3. split; [now apply gamma_of_ge|]. pose proof (peakfact_bounds H T HT). split.
  - intros ->. cbn. lra.
  - intros y -> Hy. cbn. destruct (Rlt_dec y 1); [lra|easy].
Qed.
Lemma jonswap_errors g quad H T y sa sb a N M m wnc : 1 < y ->
  (a <= 0 -> jonswap g quad H T (Some y) sa sb (Some a) N M m wnc true = Err ValueError)
  /\ (wnc < 1 -> jonswap g quad H T (Some y) sa sb None N M Integration wnc true = Err ValueError)
  /\ jonswap g quad H T (Some y) sa sb None N M Custom wnc true = Err TypeError
  /\ jonswap g quad H T (Some y) sa sb None N M Unknown wnc true = Err KeyError
  /\ (H < 0 \/ T <= 0 -> 0 < a -> jonswap g quad H T (Some y) sa sb (Some a) N M m wnc true = Err ValueError)
  /\ (0 <= H -> 0 < T -> 0 < a -> jonswap g quad H T (Some y) sa sb (Some a) N M m wnc true = Ok (Jons H T y sa sb a N M))
  /\ (0 <= H -> 0 < T -> 1 <= wnc -> exists s, jonswap g quad H T (Some y) sa sb None N M Integration wnc true = Ok s).
Proof.
  intros Hy. unfold jonswap. destruct (Rlt_dec y 1); [lra|]. destruct (Req_EM_T y 1); [lra|]. unfold custom_ag, integrate_ag, chk_seastate.
  destruct (Rle_dec a 0), (Rlt_dec wnc 1), (Rlt_dec H 0), (Rle_dec T 0); cbn; repeat split; intros; try lra; try easy; try (now eexists).
Qed.
Lemma parametric_unchecked g quad H T y sa sb N M wnc : 0 <= H -> 0 < T -> 1 < y -> 3 <= N <= 50 -> exists s, jonswap g quad H T (Some y) sa sb None N M Parametric wnc true = Ok s.
Proof.
  intros HH HT Hy HN. unfold jonswap. destruct (Rlt_dec y 1); [lra|]. destruct (Req_EM_T y 1); [lra|]. unfold check_parametric_ag, between, chk_seastate.
  destruct (Rle_dec 3 N), (Rle_dec N 50), (Rlt_dec H 0), (Rle_dec T 0); try lra. cbn. now eexists.
Qed.

(* ---- the seastate of jonswap_seastate, passed on to Jonswap ---- *)
Lemma Rpower_pos x y : 0 < Rpower x y.
Proof. unfold Rpower. apply exp_pos. Qed.
Lemma Rpower_neg_le1 z a : 1 <= z -> a <= 0 -> Rpower z a <= 1.
Proof. intros Hz Ha. unfold Rpower. apply Rle_trans with (exp 0); [|rewrite exp_0; lra]. apply expo_le. pose proof (ln_ge1 z Hz). nra. Qed.
Lemma Rpower_quarter z a : 16 <= z -> a <= - (1 / 2) -> Rpower z a <= 1 / 4.
Proof.
  intros Hz Ha. unfold Rpower. rewrite <- (exp_ln (1 / 4)) by lra. apply expo_le. replace (1 / 4) with (/ 4) by field. rewrite ln_Rinv by lra.
  assert (E : ln 16 = 2 * ln 4). { replace 16 with (4 * 4) by ring. rewrite ln_mult by lra. ring. }
  assert (L : ln 16 <= ln z). { destruct Hz as [Hz| ->]; [left; apply ln_increasing; lra|lra]. }
  assert (P : 0 <= ln 4) by (apply ln_ge1; lra). nra.
Qed.
Lemma seastate_facts u10 fetch m gr : 0 < u10 -> 0 < gr -> 16 * u10 ^ 2 <= gr * fetch -> let ss := jonswap_seastate u10 fetch m gr in
  0 < sHm0 ss /\ 0 < sTp ss /\ 1 <= sgamma ss /\ 0 < ssigmaA ss /\ 0 < ssigmaB ss /\ 0 < sAg ss /\ sAg ss * sgamma ss <= 1 / 3.
Proof.
  intros Hu Hg Hz. set (z := gr * fetch / u10 ^ 2). assert (U2 : 0 < u10 ^ 2) by nra.
  assert (Z : 16 <= z). { unfold z. apply (Rmult_le_reg_r (u10 ^ 2)); [easy|]. unfold Rdiv. rewrite Rmult_assoc, Rinv_l; lra. }
  assert (HH : forall e, 0 < e -> 0 < 4 * sqrt e * u10 ^ 2 / gr). { intros e He. pose proof (sqrt_lt_R0 e He). apply Rdiv_lt_0_compat; [|easy]. nra. }
  assert (HT : forall ny, 0 < ny -> 0 < u10 / (ny * gr)). { intros ny Hn. apply Rdiv_lt_0_compat; [easy|nra]. }
  assert (T10 : 10 ^ 10 = 10000000000) by ring. assert (T8 : 10 ^ 8 = 100000000) by ring. assert (T7 : 10 ^ 7 = 10000000) by ring. assert (T6 : 10 ^ 6 = 1000000) by ring. assert (T5 : 10 ^ 5 = 100000) by ring.
  unfold jonswap_seastate. fold z. rewrite T10, T8, T7, T6, T5. pose proof (Rpower_pos z) as RP. destruct m; cbn [sHm0 sTp sgamma ssigmaA ssigmaB sAg].
  - pose proof (RP (- 22 / 100)). pose proof (RP (- 33 / 100)). pose proof (RP (11 / 10)). pose proof (Rpower_neg_le1 z (- 22 / 100) ltac:(lra) ltac:(lra)).
    split; [apply HH; lra|split; [apply HT; lra|]]. repeat split; lra.
  - pose proof (RP (- 2 / 10)). pose proof (RP (- 3 / 10)). pose proof (Rpower_neg_le1 z (- 2 / 10) ltac:(lra) ltac:(lra)).
    split; [apply HH; lra|split; [apply HT; lra|]]. repeat split; lra.
  - set (A := 74 / 1000 * Rpower z (- 22 / 100)). set (ny := 357 / 100 * Rpower z (- 33 / 100)). assert (HA : 0 < A) by (pose proof (RP (- 22 / 100)); unfold A; lra).
    assert (Hn : 0 < ny) by (pose proof (RP (- 33 / 100)); unfold ny; lra). pose proof (Rpower_pos ny (- 4)). pose proof (RP (- 1 / 10)). pose proof (Rpower_pos ny (- 32 / 100)). pose proof (Rpower_pos ny (- 16 / 100)).
    split; [apply HH; apply Rmult_lt_0_compat; [apply Rmult_lt_0_compat; [lra|easy]|easy]|]. split; [now apply HT|]. split; [apply Rmax_r|]. split; [lra|]. split; [lra|]. split; [easy|].
    pose proof (Rpower_neg_le1 z (- 22 / 100) ltac:(lra) ltac:(lra)). unfold Rmax. destruct (Rle_dec _ 1); [unfold A; lra|].
    unfold A. replace (74 / 1000 * Rpower z (- 22 / 100) * (1754 / 100 * Rpower z (- 28384 / 100000))) with (74 / 1000 * (1754 / 100) * (Rpower z (- 22 / 100) * Rpower z (- 28384 / 100000))) by ring.
    rewrite <- Rpower_plus. pose proof (Rpower_quarter z (- 22 / 100 + - 28384 / 100000) Z ltac:(lra)). lra.
Qed.
Lemma jons_area_bound g H T gam sa sb A W : g 1 = 0 -> 0 < H -> 0 < T -> 1 <= gam -> 0 < sa -> 0 < sb -> 0 < A -> 0 < W ->
  exists e, area (jons_call g (Jons H T gam sa sb A 5 4)) 0 W e /\ e <= A * gam * (H / 4) ^ 2.
Proof.
  intros Hg HH HT Hgam Ha Hb HA HW. pose proof (peak_pos T HT) as Hp. set (p := 2 * PI / T) in *. set (L := localspec g gam sa sb 5 4).
  assert (HWp : 0 < W / p) by now apply Rdiv_lt_0_compat.
  pose proof (local_area g gam sa sb 5 4 0 (W / p) Ha Hb ltac:(lra) ltac:(lra)) as LA. fold L in LA.
  exists ((H / 4) ^ 2 * A * RInt L 0 (W / p)). split.
  - apply (is_RInt_ext (fun w => (H / 4) ^ 2 * A / p * L (w / p))). { intros x _. symmetry. now apply jons_val. } now apply area_scale.
  - assert (GA : area (gengamspec g 5 4) 0 (W / p) (cumulative 5 4 (W / p))). { pose proof (gengam_area g 4 (W / p) ltac:(lra) HWp Hg) as G. replace (4 + 1) with 5 in G by ring. exact G. }
    assert (LE : RInt L 0 (W / p) <= gam * cumulative 5 4 (W / p)).
    { assert (GS : area (fun x => gam * gengamspec g 5 4 x) 0 (W / p) (gam * cumulative 5 4 (W / p))) by exact (@is_RInt_scal R_NormedModule _ _ _ gam _ GA).
      rewrite <- (is_RInt_unique _ _ _ _ GS). apply RInt_le; [lra|eexists; exact LA|eexists; exact GS|]. intros x Hx. unfold L, localspec. apply Rmult_le_compat_r; [apply gengam_nonneg|now apply factor_bounds]. }
    assert (C1 : cumulative 5 4 (W / p) <= 1). { unfold cumulative. apply Rle_trans with (exp 0); [|rewrite exp_0; lra]. apply expo_le. pose proof (exp_pos (- (4) * ln (W / p))). nra. }
    assert (C0 : 0 < (H / 4) ^ 2 * A) by (apply Rmult_lt_0_compat; nra). assert (RInt L 0 (W / p) <= gam) by nra. nra.
Qed.
Lemma seastate_refuted g quad u10 fetch m gr : g 1 = 0 -> 0 < u10 -> 0 < gr -> 16 * u10 ^ 2 <= gr * fetch ->
  let ss := jonswap_seastate u10 fetch m gr in sgamma ss <> 1 ->
  exists s, jonswap g quad (sHm0 ss) (sTp ss) (Some (sgamma ss)) (ssigmaA ss) (ssigmaB ss) (Some (sAg ss)) 5 4 Integration 6 true = Ok s
    /\ jHm0 s = sHm0 ss /\ forall W, 0 < W -> exists e, area (jons_call g s) 0 W e /\ e <= 1 / 3 * (jHm0 s / 4) ^ 2.
Proof.
  intros Hg Hu Hgr Hz ss Hn. destruct (seastate_facts u10 fetch m gr Hu Hgr Hz) as (F1 & F2 & F3 & F4 & F5 & F6 & F7). fold ss in F1, F2, F3, F4, F5, F6, F7.
  destruct (jonswap_errors g quad (sHm0 ss) (sTp ss) (sgamma ss) (ssigmaA ss) (ssigmaB ss) (sAg ss) 5 4 Integration 6 ltac:(lra)) as (_ & _ & _ & _ & _ & E & _).
  specialize (E ltac:(lra) F2 F6). eexists. split; [exact E|]. cbn [jHm0]. split; [easy|]. intros W HW.
  destruct (jons_area_bound g (sHm0 ss) (sTp ss) (sgamma ss) (ssigmaA ss) (ssigmaB ss) (sAg ss) W Hg F1 F2 F3 F4 F5 F6 HW) as (e & He & Hb). exists e. split; [easy|].
  pose proof (pow2_ge_0 (sHm0 ss / 4)). nra.
Qed.
