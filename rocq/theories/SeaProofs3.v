From Coq Require Import Reals Lra Lia.
From Coquelicot Require Import Coquelicot.
From Verif Require Import Base PolyModel WaveModel SeaModel SeaSpec SeaProofs SeaProofs2.
Local Open Scope R_scope.

Lemma arg_below N M d W : 0 < N -> 0 < M -> 0 < d -> exp (- (ln (d * M / N) / M)) < W -> arg_of N M W < d.
Proof.
  intros HN HM Hd HW. assert (Hp : 0 < d * M / N) by (apply Rdiv_lt_0_compat; [now apply Rmult_lt_0_compat|easy]). unfold arg_of.
  assert (H1 : - (ln (d * M / N) / M) < ln W). { rewrite <- (ln_exp (- (ln (d * M / N) / M))). apply ln_increasing; [apply exp_pos|easy]. }
  assert (H2 : - M * ln W < ln (d * M / N)). { replace (ln (d * M / N)) with (- M * - (ln (d * M / N) / M)) by (field; lra). apply Rmult_lt_gt_compat_neg_l; lra. }
  apply exp_increasing in H2. rewrite exp_ln in H2 by easy.
  replace d with (N / M * (d * M / N)) by (field; lra). apply Rmult_lt_compat_l; [now apply Rdiv_lt_0_compat|easy].
Qed.
Lemma arg_above N M K a : 0 < N -> 0 < M -> 0 < K -> 0 < a < exp (- (ln (K * M / N) / M)) -> K < arg_of N M a.
Proof.
  intros HN HM Hd Ha. assert (Hp : 0 < K * M / N) by (apply Rdiv_lt_0_compat; [now apply Rmult_lt_0_compat|easy]). unfold arg_of.
  assert (H1 : ln a < - (ln (K * M / N) / M)). { rewrite <- (ln_exp (- (ln (K * M / N) / M))). apply ln_increasing; easy. }
  assert (H2 : ln (K * M / N) < - M * ln a). { replace (ln (K * M / N)) with (- M * - (ln (K * M / N) / M)) by (field; lra). apply Rmult_lt_gt_compat_neg_l; lra. }
  apply exp_increasing in H2. rewrite exp_ln in H2 by easy.
  replace K with (N / M * (K * M / N)) by (field; lra). apply Rmult_lt_compat_l; [now apply Rdiv_lt_0_compat|easy].
Qed.
Lemma euler_limits g c eps : log_gamma g -> 0 < c -> 0 < eps -> exists d K, 0 < d /\ 0 < K /\
  forall x y, 0 < x < d -> K < y -> Rabs (RInt (euler c) x y - exp (g c)) < eps.
Proof.
  intros Hg Hc He. specialize (Hg c Hc (ball (exp (g c)) (mkposreal eps He)) (locally_ball _ _)). destruct Hg as [P Q [d HP] [K HQ] H].
  exists d, (Rmax K 1). split; [apply cond_pos|split; [pose proof (Rmax_r K 1); lra|]]. intros x y Hx Hy.
  destruct (H x y) as (l & Hl & Hb).
  - apply HP; [|lra]. change (Rabs (x - 0) < d). rewrite Rminus_0_r, Rabs_pos_eq; lra.
  - apply HQ. pose proof (Rmax_l K 1). lra.
  - cbn [fst snd] in Hl. change (fun t => Rpower t (c - 1) * exp (- t)) with (euler c) in Hl. rewrite (is_RInt_unique _ _ _ _ Hl). exact Hb.
Qed.
Lemma gengam_total g N M : log_gamma g -> 1 < N -> 0 < M -> is_lim (fun W => RInt (gengamspec g N M) 0 W) p_infty 1.
Proof.
  intros Hg HN HM. set (c := (N - 1) / M). assert (Hc : 0 < c) by (apply Rdiv_lt_0_compat; lra). set (f := gengamspec g N M).
  assert (C : forall x, continuous f x) by (intros x; apply gengam_continuous; lra).
  apply is_lim_spec. intros eps. pose proof (exp_pos (g c)) as HG.
  destruct (euler_limits g c (exp (g c) * (eps / 2)) Hg Hc) as (d & K & Hd & HK & HE). { apply Rmult_lt_0_compat; [easy|]. pose proof (cond_pos eps). lra. }
  exists (Rmax 1 (exp (- (ln (d * M / N) / M)))). intros W HW.
  assert (HW1 : 1 < W) by (eapply Rle_lt_trans; [apply Rmax_l|exact HW]). assert (HW2 : exp (- (ln (d * M / N) / M)) < W) by (eapply Rle_lt_trans; [apply Rmax_r|exact HW]).
  assert (L : exists a, 0 < a < W /\ a < exp (- (ln (K * M / N) / M)) /\ Rabs (RInt f 0 a) < eps / 2).
  { assert (He : 0 < eps / 2) by (pose proof (cond_pos eps); lra). destruct (RInt_at0 f C _ (locally_ball 0 (mkposreal _ He))) as [r Hr].
    set (b := exp (- (ln (K * M / N) / M))). assert (Hb : 0 < b) by apply exp_pos. pose proof (cond_pos r) as Hr0.
    set (a := Rmin (W / 2) (Rmin (b / 2) (r / 2))). assert (A1 : a <= W / 2) by apply Rmin_l.
    assert (A2 : a <= b / 2) by (eapply Rle_trans; [apply Rmin_r|apply Rmin_l]). assert (A3 : a <= r / 2) by (eapply Rle_trans; [apply Rmin_r|apply Rmin_r]).
    assert (A4 : 0 < a) by (unfold a; repeat apply Rmin_pos; lra).
    exists a. split; [lra|split; [lra|]]. specialize (Hr a). rewrite <- (Rminus_0_r (RInt f 0 a)). apply Hr; [|exact A4].
    change (Rabs (a - 0) < r). rewrite Rminus_0_r, Rabs_pos_eq; lra. }
  destruct L as (a & Ha & Ha1 & Ha2).
  assert (E : RInt f 0 W = RInt f 0 a + RInt f a W).
  { symmetry. apply (RInt_Chasles f 0 a W); eexists; now apply cont_area. }
  rewrite E. unfold f at 2. rewrite gengam_incomplete by easy. fold c.
  specialize (HE (arg_of N M W) (arg_of N M a)). assert (HE1 : Rabs (RInt (euler c) (arg_of N M W) (arg_of N M a) - exp (g c)) < exp (g c) * (eps / 2)).
  { apply HE; [split; [apply arg_pos; lra|apply arg_below; lra]|apply arg_above; lra]. }
  set (I := RInt (euler c) _ _) in *.
  replace (RInt f 0 a + / exp (g c) * I - 1) with (RInt f 0 a + / exp (g c) * (I - exp (g c))) by (field; lra).
  eapply Rle_lt_trans; [apply Rabs_triang|]. rewrite Rabs_mult. rewrite (Rabs_pos_eq (/ exp (g c))) by (left; now apply Rinv_0_lt_compat).
  assert (H2 : / exp (g c) * Rabs (I - exp (g c)) < eps / 2).
  { replace (eps / 2) with (/ exp (g c) * (exp (g c) * (eps / 2))) by (field; lra). apply Rmult_lt_compat_l; [now apply Rinv_0_lt_compat|easy]. }
  lra.
Qed.

(* ---- Bretschneider ---- *)
Definition peak_of (Tp : R) : R := 2 * PI / Tp.
Lemma peak_pos Tp : 0 < Tp -> 0 < 2 * PI / Tp.
Proof. intros H. apply Rdiv_lt_0_compat; [pose proof PI_RGT_0; lra|easy]. Qed.
Lemma bret_val g H T N M w : 0 < H -> bret_call g (Bret H T N M) w = (H / 4) ^ 2 / (2 * PI / T) * gengamspec g N M (w / (2 * PI / T)).
Proof. intros HH. unfold bret_call. cbn [bHm0 bTp bN bM]. destruct (Rlt_dec 0 H); [easy|lra]. Qed.
Lemma bret_zero g H T N M w : H <= 0 -> bret_call g (Bret H T N M) w = 0.
Proof. intros HH. unfold bret_call. cbn [bHm0]. destruct (Rlt_dec 0 H); [lra|easy]. Qed.
Lemma scale_pos H T : 0 < H -> 0 < T -> 0 < (H / 4) ^ 2 / (2 * PI / T).
Proof. intros HH HT. apply Rdiv_lt_0_compat; [nra|now apply peak_pos]. Qed.
Lemma bret_sign g H T N M w : 0 < H -> 0 < T -> (0 < w -> 0 < bret_call g (Bret H T N M) w) /\ (w <= 0 -> bret_call g (Bret H T N M) w = 0).
Proof.
  intros HH HT. pose proof (scale_pos H T HH HT). pose proof (peak_pos T HT). rewrite bret_val by easy. split; intros Hw.
  - apply Rmult_lt_0_compat; [easy|]. apply gengam_pos. now apply Rdiv_lt_0_compat.
  - rewrite gengam_neg; [ring|]. unfold Rdiv at 1. pose proof (Rinv_0_lt_compat _ H1). nra.
Qed.
Lemma single_peak_scale f p k : 0 < p -> 0 < k -> single_peak f 1 -> single_peak (fun w => k * f (w / p)) p.
Proof.
  intros Hp Hk [H1 H2]. assert (D : forall x y, x < y -> x / p < y / p). { intros x y H. apply Rmult_lt_compat_r; [now apply Rinv_0_lt_compat|easy]. }
  split; intros x y A B.
  - intros Hy. apply Rmult_lt_compat_l; [easy|]. apply H1; [now apply Rdiv_lt_0_compat|now apply D|]. apply (Rmult_le_reg_r p); [easy|]. unfold Rdiv. rewrite Rmult_assoc, Rinv_l; lra.
  - apply Rmult_lt_compat_l; [easy|]. apply H2; [|now apply D]. apply (Rmult_le_reg_r p); [easy|]. unfold Rdiv. rewrite Rmult_assoc, Rinv_l; lra.
Qed.
Lemma single_peak_ext f h p : (forall x, f x = h x) -> single_peak f p -> single_peak h p.
Proof. intros E [H1 H2]. split; intros; rewrite <- !E; auto. Qed.
Lemma bret_peak g H T N M : 0 < H -> 0 < T -> 0 < N -> 0 < M -> single_peak (bret_call g (Bret H T N M)) (2 * PI / T).
Proof.
  intros. apply (single_peak_ext (fun w => (H / 4) ^ 2 / (2 * PI / T) * gengamspec g N M (w / (2 * PI / T)))); [intros x; now rewrite bret_val|].
  apply single_peak_scale; [now apply peak_pos|now apply scale_pos|now apply gengam_peak].
Qed.
Lemma bret_band g H T M W : 0 < H -> 0 < T -> 0 < M -> 0 < W -> g 1 = 0 ->
  area (bret_call g (Bret H T (M + 1) M)) 0 W ((H / 4) ^ 2 * exp (- ((M + 1) / M * Rpower (2 * PI / T / W) M))).
Proof.
  intros HH HT HM HW Hg. pose proof (peak_pos T HT) as Hp. set (p := 2 * PI / T) in *.
  apply (is_RInt_ext (fun w => (H / 4) ^ 2 / p * gengamspec g (M + 1) M (w / p))). { intros x _. symmetry. now apply bret_val. }
  replace (exp _) with (cumulative (M + 1) M (W / p)).
  - apply area_scale; [easy|]. apply gengam_area; [easy|now apply Rdiv_lt_0_compat|easy].
  - unfold cumulative. do 3 f_equal. unfold Rpower. f_equal. rewrite !ln_div by easy. ring.
Qed.
Lemma bret_continuous g H T N M x : 0 < T -> 0 < N -> 0 < M -> continuous (bret_call g (Bret H T N M)) x.
Proof.
  intros HT HN HM. destruct (Rlt_dec 0 H) as [HH|HH].
  - apply (continuous_ext (fun w => (H / 4) ^ 2 / (2 * PI / T) * gengamspec g N M (w / (2 * PI / T)))). { intros y. symmetry. now apply bret_val. }
    apply (continuous_mult (fun _ => _) (fun w => gengamspec g N M (w / (2 * PI / T)))); [apply continuous_const|].
    apply (continuous_comp (fun w => w / (2 * PI / T)) (gengamspec g N M)); [|now apply gengam_continuous].
    apply (ex_derive_continuous (V := R_NormedModule)). auto_derive. pose proof PI_RGT_0. lra.
  - apply (continuous_ext (fun _ => 0)); [|apply continuous_const]. intros y. symmetry. apply bret_zero. lra.
Qed.
Lemma scaled_total f k p : 0 < p -> (forall x, continuous f x) -> is_lim (fun W => RInt f 0 W) p_infty 1 -> total_energy (fun w => k / p * f (w / p)) k.
Proof.
  intros Hp C L. split; [intros W _; eexists; apply area_scale; [easy|now apply cont_area]|].
  apply (is_lim_ext (fun W => k * RInt f 0 (W / p))). { intros W. symmetry. apply is_RInt_unique. apply area_scale; [easy|now apply cont_area]. }
  replace (Finite k) with (Rbar_mult k 1) by (cbn; f_equal; ring). apply is_lim_scal_l.
  apply (is_lim_comp (fun W => RInt f 0 W) (fun W => W / p) p_infty 1 p_infty); [exact L| |exists 0; now intros].
  apply is_lim_spec. intros K. exists (K * p). intros x Hx. apply (Rmult_lt_reg_r p); [easy|]. unfold Rdiv. rewrite Rmult_assoc, Rinv_l; lra.
Qed.
Lemma total_ext f h e : (forall x, f x = h x) -> total_energy f e -> total_energy h e.
Proof.
  intros E [H1 H2]. split.
  - intros W HW. destruct (H1 W HW) as [l Hl]. exists l. apply (is_RInt_ext f); [intros; apply E|exact Hl].
  - apply (is_lim_ext (fun W => RInt f 0 W)); [|exact H2]. intros W. apply RInt_ext. intros; apply E.
Qed.
Lemma zero_total : total_energy (fun _ => 0) 0.
Proof.
  assert (Z : forall W, area (fun _ => 0) 0 W 0). { intros W. unfold area. pose proof (@is_RInt_const R_NormedModule 0 W 0) as G. change (scal (W - 0) 0) with ((W - 0) * 0) in G. rewrite Rmult_0_r in G. exact G. }
  split; [intros W _; exists 0; apply Z|]. apply (is_lim_ext (fun _ => 0)); [|apply is_lim_const]. intros W. symmetry. apply is_RInt_unique, Z.
Qed.
Lemma bret_energy g H T N M : log_gamma g -> 0 <= H -> 0 < T -> 1 < N -> 0 < M -> total_energy (bret_call g (Bret H T N M)) ((H / 4) ^ 2).
Proof.
  intros Hg HH HT HN HM. destruct HH as [HH| <-].
  - apply (total_ext (fun w => (H / 4) ^ 2 / (2 * PI / T) * gengamspec g N M (w / (2 * PI / T)))). { intros y. symmetry. now apply bret_val. }
    apply scaled_total; [now apply peak_pos|intros x; apply gengam_continuous; lra|now apply gengam_total].
  - replace ((0 / 4) ^ 2) with 0 by field. apply (total_ext (fun _ => 0)); [|apply zero_total]. intros x. symmetry. apply bret_zero. lra.
Qed.
Lemma bret_ok H T N M s : bretschneider H T N M true = Ok s -> 0 <= H /\ 0 < T /\ s = Bret H T N M.
Proof. unfold bretschneider, chk_seastate. destruct (Rlt_dec H 0); [easy|]. destruct (Rle_dec T 0); [easy|]. cbn. intros E. injection E as <-. split; [lra|split; [lra|easy]]. Qed.
Lemma bret_rejects H T N M : (H < 0 \/ T <= 0) <-> bretschneider H T N M true = Err ValueError.
Proof. unfold bretschneider, chk_seastate. destruct (Rlt_dec H 0); [split; [easy|now left]|]. destruct (Rle_dec T 0); [split; [easy|now right]|]. cbn. split; [intros [?|?]; lra|easy]. Qed.
