From Coq Require Import Reals Lra Lia.
From Coquelicot Require Import Coquelicot.
From Verif Require Import Base PolyModel WaveModel WaveProofs2 SeaModel SeaSpec SeaProofs SeaProofs2 SeaProofs3 SeaProofs4 SeaProofs5 SeaCases.
Local Open Scope R_scope.

(* ---- Torsethaugen ---- *)
Lemma ratio_bounds a b e : 0 < b < 1 -> a = 1 - b -> 0 <= e -> b <= Rmin (a * exp (- e) + b) 1 <= 1.
Proof.
  intros Hb -> He. split; [|apply Rmin_r]. apply Rmin_glb; [|lra]. pose proof (exp_pos (- e)). nra.
Qed.
Lemma split_energy r H : 0 <= r <= 1 -> (sqrt (1 - r ^ 2) * H) ^ 2 + (r * H) ^ 2 = H ^ 2.
Proof. intros Hr. rewrite !Rpow_mult_distr. rewrite <- (Rsqr_pow2 (sqrt _)), Rsqr_sqrt by nra. ring. Qed.
Definition good_sea (p : sea) : Prop := 0 <= seaH p /\ (0 < seaH p -> 0 < seaT p) /\ 1 <= seaG p /\ 1 < seaN p /\ 0 < seaM p.
Lemma parts_facts g H T gr : 0 < H -> 0 < T -> 0 < gr -> let (w, s) := torsethaugen_parts g H T gr in
  good_sea w /\ good_sea s /\ seaH w ^ 2 + seaH s ^ 2 = H ^ 2 /\ (seaT w = T /\ seaG s = 1 \/ seaT s = T /\ seaG w = 1).
Proof.
  intros HH HT Hg. unfold torsethaugen_parts. cbv zeta. set (Tf := 66 / 10 * Rpower H (1 / 3)). set (El := Rmin (Rmax ((Tf - T) / _) 0) 1). set (Eu := Rmin (Rmax ((T - Tf) / _) 0) 1). pose proof (sqrt_lt_R0 H HH) as HS.
  assert (HTf : 0 < Tf) by (pose proof (Rpower_pos H (1 / 3)); unfold Tf; lra).
  destruct (Rlt_dec T Tf) as [HL|HL].
  - pose proof (ratio_bounds (1 - 7 / 10) (7 / 10) ((El / (1 / 2)) ^ 2) ltac:(lra) eq_refl (pow2_ge_0 _)) as Rb. set (r := Rmin (_ * exp _ + _) 1) in *.
    unfold good_sea. cbn [seaH seaT seaG seaN seaM].
    pose proof (sqrt_pos (1 - r ^ 2)) as Hs. split; [|split; [|split]].
    + split; [apply Rmult_le_pos; lra|]. split; [easy|]. split; [apply Rmax_r|]. split; lra.
    + split; [apply Rmult_le_pos; lra|]. split; [lra|]. split; [lra|]. split; lra.
    + rewrite Rplus_comm. apply split_energy. lra.
    + now left.
  - pose proof (ratio_bounds (1 - 6 / 10) (6 / 10) ((Eu / (3 / 10)) ^ 2) ltac:(lra) eq_refl (pow2_ge_0 _)) as Rb. set (r := Rmin (_ * exp _ + _) 1) in *.
    unfold good_sea. cbn [seaH seaT seaG seaN seaM]. pose proof (sqrt_pos (1 - r ^ 2)) as Hs.
    assert (He : exp (- H / 3) < 1). { pose proof (exp_increasing (- H / 3) 0 ltac:(lra)) as Q. rewrite exp_0 in Q. exact Q. }
    split; [|split; [|split]].
    + split; [apply Rmult_le_pos; lra|]. split.
      * intros Hp. destruct (Rlt_dec 0 _); [apply Rpower_pos|easy].
      * split; [lra|]. split; lra.
    + split; [apply Rmult_le_pos; lra|]. split; [easy|]. split; [apply Rmax_r|]. split; lra.
    + apply split_energy. lra.
    + now right.
Qed.
Lemma make_ok g quad H T gam N M : 1 <= gam -> exists s, jonswap g quad H T (Some gam) (7 / 100) (9 / 100) None N M Integration 6 false = Ok s /\ jHm0 s = H /\ jTp s = T /\ jgamma s = gam /\ jsigmaA s = 7 / 100 /\ jsigmaB s = 9 / 100 /\ jN s = N /\ jM s = M.
Proof.
  intros Hg. unfold jonswap. destruct (Rlt_dec gam 1); [lra|]. destruct (Req_EM_T gam 1).
  - cbn. eexists. split; [reflexivity|]. cbn. easy.
  - unfold integrate_ag. destruct (Rlt_dec 6 1); [lra|]. cbn. eexists. split; [reflexivity|]. cbn. easy.
Qed.
Lemma torse_accept g quad H T wnc gr : 0 < H -> 0 < T -> 0 < gr -> exists p, torsethaugen g quad H T Integration wnc gr true = Ok p.
Proof.
  intros HH HT Hg. pose proof (parts_facts g H T gr HH HT Hg) as F. unfold torsethaugen, chk_seastate. destruct (Rlt_dec H 0); [lra|]. destruct (Rle_dec T 0); [lra|]. cbn [bind].
  destruct (torsethaugen_parts g H T gr) as [w s]. destruct F as (F1 & F2 & _). unfold good_sea in F1, F2.
  destruct (make_ok g quad (seaH w) (seaT w) (seaG w) (seaN w) (seaM w) ltac:(lra)) as (a & Ea & _). destruct (make_ok g quad (seaH s) (seaT s) (seaG s) (seaN s) (seaM s) ltac:(lra)) as (b & Eb & _).
  rewrite Ea. cbn [bind]. rewrite Eb. cbn. now eexists.
Qed.
(* what a part of the spectrum carries *)
Lemma part_energy g quad H T gam N M s : log_gamma g -> exact_quad quad -> 0 <= H -> (0 < H -> 0 < T) -> 1 <= gam -> 1 < N -> 0 < M ->
  jonswap g quad H T (Some gam) (7 / 100) (9 / 100) None N M Integration 6 false = Ok s ->
  (gam = 1 -> total_energy (jons_call g s) ((H / 4) ^ 2)) /\ (gam <> 1 -> area (jons_call g s) 0 (6 * (2 * PI / T)) ((H / 4) ^ 2)).
Proof.
  intros Hg Hq HH HT Hgam HN HM E. pose proof E as E'. apply jonswap_inv in E'. destruct E' as (E1 & E2 & E3 & E4 & E5 & E6 & E7 & _ & A1 & _).
  assert (EG : gamma_of H T (Some gam) = gam) by (unfold gamma_of; destruct (Rlt_dec gam 1); [lra|easy]). rewrite EG in *. split.
  - intros ->. destruct s as [H' T' g' sa' sb' A' N' M']. cbn [jHm0 jTp jgamma jsigmaA jsigmaB jAg jN jM] in *. subst. rewrite (A1 eq_refl). apply (total_ext (bret_call g (Bret H T N M))).
    + intros w. destruct (Rlt_dec 0 H); [rewrite jons_val, bret_val by easy|rewrite jons_zero, bret_zero by lra; easy]. unfold localspec. rewrite factor_one. unfold Rdiv. ring.
    + destruct HH as [HH| <-]; [apply bret_energy; try easy; [lra|auto]|]. assert (Z : (0 / 4) ^ 2 = 0) by field. rewrite Z. apply (total_ext (fun _ => 0)); [|apply zero_total]. intros w. symmetry. apply bret_zero. lra.
  - intros Hn. destruct HH as [HH|HH].
    + apply (jonswap_energy g quad H T (Some gam) (7 / 100) (9 / 100) N M 6 false s); try easy; try lra; auto. 
    + subst H. destruct s as [H' T' g' sa' sb' A' N' M']. cbn [jHm0 jTp jgamma jsigmaA jsigmaB jAg jN jM] in *. subst. replace ((0 / 4) ^ 2) with 0 by field.
      apply (is_RInt_ext (fun _ => 0)). { intros x _. symmetry. apply jons_zero. lra. }
      pose proof (@is_RInt_const R_NormedModule 0 (6 * (2 * PI / T)) 0) as G. change (scal (6 * (2 * PI / T) - 0) 0) with ((6 * (2 * PI / T) - 0) * 0) in G. rewrite Rmult_0_r in G. exact G.
Qed.
Lemma torse_split g quad H T wnc gr wind swell : 0 < H -> 0 < gr -> torsethaugen g quad H T Integration wnc gr true = Ok (wind, swell) ->
  0 <= jHm0 wind /\ 0 <= jHm0 swell /\ jHm0 wind ^ 2 + jHm0 swell ^ 2 = H ^ 2 /\ 1 <= jgamma wind /\ 1 <= jgamma swell
  /\ (jTp wind = T /\ jgamma swell = 1 \/ jTp swell = T /\ jgamma wind = 1).
Proof.
  intros HH Hg E. unfold torsethaugen, chk_seastate in E. destruct (Rlt_dec H 0); [lra|]. destruct (Rle_dec T 0) as [|HT]; [discriminate E|]. apply Rnot_le_lt in HT. cbn [bind] in E.
  pose proof (parts_facts g H T gr HH HT Hg) as F. destruct (torsethaugen_parts g H T gr) as [w s]. destruct F as (F1 & F2 & F3 & F4). unfold good_sea in F1, F2.
  destruct (make_ok g quad (seaH w) (seaT w) (seaG w) (seaN w) (seaM w) ltac:(lra)) as (a & Ea & A1 & A2 & A3 & _). destruct (make_ok g quad (seaH s) (seaT s) (seaG s) (seaN s) (seaM s) ltac:(lra)) as (b & Eb & B1 & B2 & B3 & _).
  rewrite Ea in E. cbn [bind] in E. rewrite Eb in E. cbn in E. injection E as <- <-. rewrite A1, A2, A3, B1, B2, B3. repeat (split; [lra|]).
  destruct F4 as [[-> ->]|[-> ->]]; [now left|now right].
Qed.
Lemma torse_energy g quad H T wnc gr wind swell : log_gamma g -> exact_quad quad -> 0 < H -> 0 < gr -> torsethaugen g quad H T Integration wnc gr true = Ok (wind, swell) ->
  forall p, p = wind \/ p = swell ->
  (jgamma p = 1 -> total_energy (jons_call g p) ((jHm0 p / 4) ^ 2)) /\ (jgamma p <> 1 -> area (jons_call g p) 0 (6 * (2 * PI / jTp p)) ((jHm0 p / 4) ^ 2)).
Proof.
  intros Hlg Hq HH Hg E. unfold torsethaugen, chk_seastate in E. destruct (Rlt_dec H 0); [lra|]. destruct (Rle_dec T 0) as [|HT]; [discriminate E|]. apply Rnot_le_lt in HT. cbn [bind] in E.
  pose proof (parts_facts g H T gr HH HT Hg) as F. destruct (torsethaugen_parts g H T gr) as [w s]. destruct F as (F1 & F2 & F3 & F4). unfold good_sea in F1, F2.
  destruct (make_ok g quad (seaH w) (seaT w) (seaG w) (seaN w) (seaM w) ltac:(lra)) as (a & Ea & A1 & A2 & A3 & _). destruct (make_ok g quad (seaH s) (seaT s) (seaG s) (seaN s) (seaM s) ltac:(lra)) as (b & Eb & B1 & B2 & B3 & _).
  rewrite Ea in E. cbn [bind] in E. rewrite Eb in E. cbn in E. injection E as <- <-. intros p [->| ->].
  - rewrite A1, A2, A3. apply (part_energy g quad (seaH w) (seaT w) (seaG w) (seaN w) (seaM w) a); easy.
  - rewrite B1, B2, B3. apply (part_energy g quad (seaH s) (seaT s) (seaG s) (seaN s) (seaM s) b); easy.
Qed.
Lemma torse_wnc g quad H T m gr chk wnc wnc' : torsethaugen g quad H T m wnc gr chk = torsethaugen g quad H T m wnc' gr chk.
Proof. reflexivity. Qed.

(* ---- Ochi and Hubble ---- *)
Lemma total_plus f h a b : total_energy f a -> total_energy h b -> total_energy (fun w => f w + h w) (a + b).
Proof.
  intros [F1 F2] [H1 H2]. split.
  - intros W HW. destruct (F1 W HW) as [l Hl]. destruct (H1 W HW) as [k Hk]. exists (l + k). exact (@is_RInt_plus R_NormedModule _ _ _ _ _ _ Hl Hk).
  - apply (is_lim_ext_loc (fun W => RInt f 0 W + RInt h 0 W)).
    + exists 0. intros W HW. destruct (F1 W HW) as [l Hl]. destruct (H1 W HW) as [k Hk]. symmetry. rewrite (is_RInt_unique _ _ _ _ Hl), (is_RInt_unique _ _ _ _ Hk). apply is_RInt_unique. exact (@is_RInt_plus R_NormedModule _ _ _ _ _ _ Hl Hk).
    + apply (is_lim_plus' _ _ _ _ _ F2 H2).
Qed.
Lemma total_unique f a b : total_energy f a -> total_energy f b -> a = b.
Proof. intros [_ H1] [_ H2]. apply is_lim_unique in H1, H2. rewrite H1 in H2. now injection H2. Qed.
Lemma Tp_pos b H a : 0 < a -> 0 < 2 * PI * exp (b * H) / a.
Proof. intros Ha. pose proof PI_RGT_0. pose proof (exp_pos (b * H)). apply Rdiv_lt_0_compat; [|easy]. apply Rmult_lt_0_compat; lra. Qed.
Lemma ochi_gen g H h0 h1 T0 T1 N0 N1 : log_gamma g -> 0 <= H -> 0 < h0 -> 0 < h1 -> 0 < T0 -> 0 < T1 -> 1 < N0 -> 1 < N1 ->
  bretschneider (h0 * H) T0 N0 4 true = Ok (Bret (h0 * H) T0 N0 4) /\ bretschneider (h1 * H) T1 N1 4 true = Ok (Bret (h1 * H) T1 N1 4)
  /\ total_energy (ochihubble_call g (Bret (h1 * H) T1 N1 4, Bret (h0 * H) T0 N0 4)) ((h0 ^ 2 + h1 ^ 2) * (H / 4) ^ 2).
Proof.
  intros Hg HH P0 P1 Q0 Q1 R0 R1. assert (K0 : 0 <= h0 * H) by nra. assert (K1 : 0 <= h1 * H) by nra.
  unfold bretschneider, chk_seastate. destruct (Rlt_dec (h0 * H) 0); [lra|]. destruct (Rlt_dec (h1 * H) 0); [lra|]. destruct (Rle_dec T0 0); [lra|]. destruct (Rle_dec T1 0); [lra|].
  split; [easy|split; [easy|]]. unfold ochihubble_call. cbn [fst snd].
  replace ((h0 ^ 2 + h1 ^ 2) * (H / 4) ^ 2) with ((h1 * H / 4) ^ 2 + (h0 * H / 4) ^ 2) by field. apply total_plus; apply bret_energy; try easy; lra.
Qed.
Lemma ochi_table : forall par, (0 <= par <= 10)%Z -> exists l0 l1 l2 h0 h1 b0 b1 a0 a1,
  pick Lpar par = Ok (l0, l1, l2) /\ pick hp par = Ok (h0, h1) /\ pick wb par = Ok (b0, b1) /\ pick wa par = Ok (a0, a1)
  /\ 0 < l0 /\ 0 < l1 /\ 0 < h0 /\ 0 < h1 /\ 0 < a0 /\ 0 < a1 /\ h0 ^ 2 + h1 ^ 2 <> 1 /\ 995 / 1000 <= h0 ^ 2 + h1 ^ 2 <= 1005 / 1000.
Proof.
  intros par Hp. assert (C : (par = 0 \/ par = 1 \/ par = 2 \/ par = 3 \/ par = 4 \/ par = 5 \/ par = 6 \/ par = 7 \/ par = 8 \/ par = 9 \/ par = 10)%Z) by lia.
  repeat (destruct C as [->|C]; [do 9 eexists; repeat (split; [reflexivity|]); repeat split; try lra; (let K := fresh in intros K; lra)|]). subst. do 9 eexists; repeat (split; [reflexivity|]); repeat split; try lra; (let K := fresh in intros K; lra).
Qed.
Lemma ochi_energy g H par p : log_gamma g -> ochihubble H par true = Ok p ->
  exists e, total_energy (ochihubble_call g p) e /\ Rabs (e - (H / 4) ^ 2) <= 5 / 1000 * (H / 4) ^ 2 /\ (0 < H -> e <> (H / 4) ^ 2).
Proof.
  intros Hg E. unfold ochihubble in E. destruct (chk_seastate H 1) as [[]|] eqn:Ec; [|discriminate E]. cbn [bind] in E.
  assert (HH : 0 <= H) by (unfold chk_seastate in Ec; destruct (Rlt_dec H 0); [discriminate Ec|lra]).
  destruct ((par <? 0) || (10 <? par))%Z%bool eqn:Ep; [discriminate E|]. apply Bool.orb_false_iff in Ep. destruct Ep as [Ep1 Ep2]. apply Z.ltb_ge in Ep1, Ep2. cbn [bind] in E.
  destruct (ochi_table par ltac:(lia)) as (l0 & l1 & l2 & h0 & h1 & b0 & b1 & a0 & a1 & T1 & T2 & T3 & T4 & P1 & P2 & P3 & P4 & P5 & P6 & P7 & P8).
  rewrite T1, T2, T3, T4 in E. cbn [bind fst snd] in E. pose proof (exp_pos (l2 * H)) as He.
  destruct (ochi_gen g H h0 h1 (2 * PI * exp (b0 * H) / a0) (2 * PI * exp (b1 * H) / a1) (4 * l0 + 1) (4 * (l1 * exp (l2 * H)) + 1)) as (G1 & G2 & G3); try easy; try (now apply Tp_pos); try lra; [nra|].
  rewrite G1 in E. cbn [bind] in E. rewrite G2 in E. cbn [bind] in E. injection E as <-.
  eexists. split; [exact G3|]. pose proof (pow2_ge_0 (H / 4)) as HQ. set (q := (H / 4) ^ 2) in *. set (k := h0 ^ 2 + h1 ^ 2) in *. split.
  - apply Rabs_le. nra.
  - intros HP E. assert (0 < q) by (unfold q; nra). apply P7. apply (Rmult_eq_reg_r q); lra.
Qed.
Lemma ochi_accepts H par : (0 <= H /\ (0 <= par <= 10)%Z) <-> exists p, ochihubble H par true = Ok p.
Proof.
  unfold ochihubble, chk_seastate. destruct (Rlt_dec H 0) as [N|N]; [split; [lra|intros [p E]; discriminate E]|]. destruct (Rle_dec 1 0); [lra|]. cbn [bind].
  destruct ((par <? 0) || (10 <? par))%Z%bool eqn:Ep.
  - apply Bool.orb_true_iff in Ep. rewrite !Z.ltb_lt in Ep. split; [lia|intros [p E]; discriminate E].
  - apply Bool.orb_false_iff in Ep. destruct Ep as [Ep1 Ep2]. apply Z.ltb_ge in Ep1, Ep2. split; [intros _|split; [lra|lia]]. cbn [bind].
    destruct (ochi_table par ltac:(lia)) as (l0 & l1 & l2 & h0 & h1 & b0 & b1 & a0 & a1 & T1 & T2 & T3 & T4 & P1 & P2 & P3 & P4 & P5 & P6 & P7 & P8).
    rewrite T1, T2, T3, T4. cbn [bind fst snd]. pose proof (exp_pos (l2 * H)) as He.
    destruct (ochi_gen gammaln_real H h0 h1 (2 * PI * exp (b0 * H) / a0) (2 * PI * exp (b1 * H) / a1) (4 * l0 + 1) (4 * (l1 * exp (l2 * H)) + 1)) as (G1 & G2 & _); try apply gammaln_real_ok; try easy; try (now apply Tp_pos); try lra; [nra|].
    rewrite G1. cbn [bind]. rewrite G2. cbn. now eexists.
Qed.
(* without the check a negative number selects a row from the end of the tables *)
Lemma ochi_unchecked H i : (1 <= i <= 11)%Z -> ochihubble H (- i) false = ochihubble H (11 - i) false.
Proof.
  intros Hi. assert (C : (i = 1 \/ i = 2 \/ i = 3 \/ i = 4 \/ i = 5 \/ i = 6 \/ i = 7 \/ i = 8 \/ i = 9 \/ i = 10 \/ i = 11)%Z) by lia.
  repeat (destruct C as [->|C]; [reflexivity|]). now subst.
Qed.

(* ---- McCormick and Wallop ---- *)
Lemma mccormick_band g fmin gam H T Tz M s W : g 1 = 0 -> 0 < H -> mccormick fmin gam H T Tz M true = Ok s -> 0 < bM s -> 0 < W ->
  bN s = bM s + 1 /\ area (bret_call g s) 0 W ((H / 4) ^ 2 * exp (- ((bM s + 1) / bM s * Rpower (2 * PI / T / W) (bM s)))).
Proof.
  intros Hg HH E HM HW. unfold mccormick in E. destruct (match M with Some m => Ok m | None => _ end) as [m|]; [|discriminate E]. cbn [bind] in E.
  apply bret_ok in E. destruct E as (_ & HT & ->). cbn [bM bN] in *. split; [easy|]. now apply bret_band.
Qed.
Lemma mccormick_zero fmin gam H T Tz chk : H <= 0 -> mccormick fmin gam H T Tz None chk = Err TypeError.
Proof. intros HH. unfold mccormick. destruct (Rlt_dec 0 H); [lra|easy]. Qed.
Lemma wallop_exponent H T s : 0 < H -> wallop H T None true = Ok s -> let Lp := 981 / 100 * T ^ 2 / (2 * PI) in
  bM s = 4 /\ bN s = Rabs (ln (2 * (PI * H / 4 / Lp) ^ 2) / ln 2).
Proof.
  intros HH E Lp. unfold wallop in E. apply bret_ok in E. destruct E as (_ & HT & ->). cbn [bM bN]. split; [easy|]. pose proof PI_RGT_0 as HP. pose proof (peak_pos T HT) as Hp.
  assert (EL : 2 * PI / deep_k (981 / 100) (2 * PI / T) = Lp).
  { unfold deep_k, sgn. destruct (Rlt_dec (2 * PI / T) 0); [lra|]. destruct (Rlt_dec 0 (2 * PI / T)); [|lra]. unfold Lp. field. lra. }
  rewrite EL. assert (HT2 : 0 < T ^ 2) by (apply pow_lt; lra). assert (HL : 0 < Lp) by (unfold Lp; apply Rdiv_lt_0_compat; lra). do 2 f_equal.
  assert (S2 : forall x, 0 < x -> 2 * ln x = ln (x ^ 2)). { intros x Hx. replace (x ^ 2) with (x * x) by ring. rewrite ln_mult by easy. ring. }
  assert (P2 : 0 < 2 * PI ^ 2) by (pose proof (pow_lt PI 2 HP); lra). assert (H2 : 0 < (H / 4) ^ 2) by (apply pow_lt; lra). assert (L2 : 0 < Lp ^ 2) by (now apply pow_lt).
  rewrite !S2 by lra. rewrite <- ln_mult by easy. rewrite <- ln_div; [|now apply Rmult_lt_0_compat|easy]. f_equal. field. lra.
Qed.

(* ---- the depth factor ---- *)
Lemma deep_val gr w : 0 < w -> deep_k gr w = w ^ 2 / gr.
Proof. intros Hw. unfold deep_k, sgn. destruct (Rlt_dec w 0); [lra|]. destruct (Rlt_dec 0 w); [|lra]. unfold Rdiv. ring. Qed.
Lemma phi1_val gr h w k : 0 < gr -> 0 < h -> 0 < w -> 0 < k -> dispersion gr h w k ->
  phi1 k w (Some h) gr = tanh (k * h) ^ 3 / (tanh (k * h) + k * h / cosh (k * h) ^ 2).
Proof.
  intros Hg Hh Hw Hk D. unfold phi1. rewrite deep_val by easy. unfold dispersion in D. rewrite D.
  assert (Hx : 0 < k * h) by now apply Rmult_lt_0_compat. pose proof (tanh_pos _ Hx) as Ht. assert (Hc : 0 < cosh (k * h)) by (unfold cosh; pose proof (exp_pos (k * h)); pose proof (exp_pos (- (k * h))); lra).
  set (t := tanh (k * h)) in *. assert (P : 0 < k * h / cosh (k * h) ^ 2) by (apply Rdiv_lt_0_compat; [easy|nra]). set (q := k * h / cosh (k * h) ^ 2) in *.
  destruct (Req_EM_T (gr * k * t / gr) 0) as [E|_].
  - exfalso. replace (gr * k * t / gr) with (k * t) in E by (field; lra). nra.
  - field. lra.
Qed.
Lemma phi1_bounds gr h w k : 0 < gr -> 0 < h -> 0 < w -> 0 < k -> dispersion gr h w k -> 0 < phi1 k w (Some h) gr < 1.
Proof.
  intros Hg Hh Hw Hk D. rewrite phi1_val by easy. assert (Hx : 0 < k * h) by now apply Rmult_lt_0_compat. pose proof (tanh_pos _ Hx) as Ht. pose proof (tanh_abs_lt (k * h)) as Ha. apply Rabs_def2 in Ha.
  assert (Hc : 0 < cosh (k * h)) by (unfold cosh; pose proof (exp_pos (k * h)); pose proof (exp_pos (- (k * h))); lra).
  set (t := tanh (k * h)) in *. assert (P : 0 < k * h / cosh (k * h) ^ 2) by (apply Rdiv_lt_0_compat; [easy|nra]). set (q := k * h / cosh (k * h) ^ 2) in *.
  assert (T3 : 0 < t ^ 3) by now apply pow_lt. split; [apply Rdiv_lt_0_compat; lra|]. apply (Rmult_lt_reg_r (t + q)); [lra|]. unfold Rdiv. rewrite Rmult_assoc, Rinv_l by lra. nra.
Qed.
Lemma phi1_ratio gr h w (k : R -> R) dk : 0 < gr -> 0 < h -> 0 < w -> locally w (fun v => 0 < k v /\ dispersion gr h v (k v)) -> is_derive k w dk ->
  phi1 (k w) w (Some h) gr = (dk / k w ^ 3) / (Derive (fun v => v ^ 2 / gr) w / (w ^ 2 / gr) ^ 3).
Proof.
  intros Hg Hh Hw HL Hd. destruct (locally_singleton _ _ HL) as [Hk D].
  rewrite phi1_val by easy. assert (Hx : 0 < k w * h) by now apply Rmult_lt_0_compat. pose proof (tanh_pos _ Hx) as Ht.
  assert (Hc : 0 < cosh (k w * h)) by (unfold cosh; pose proof (exp_pos (k w * h)); pose proof (exp_pos (- (k w * h))); lra).
  assert (DD : Derive (fun v : R => v ^ 2 / gr) w = 2 * w / gr) by (apply is_derive_unique; auto_derive; [lra|field; lra]). rewrite DD.
  assert (EQ : 2 * w = gr * (dk * (tanh (k w * h) + k w * h / cosh (k w * h) ^ 2))).
  { assert (D1 : is_derive (fun v : R => v ^ 2) w (2 * w)) by (auto_derive; [easy|ring]).
    assert (D2 : is_derive (fun v : R => v ^ 2) w (gr * (dk * (tanh (k w * h) + k w * h / cosh (k w * h) ^ 2)))).
    { apply (is_derive_ext_loc (fun v => gr * disp h (k v))).
      - apply (filter_imp (fun v => 0 < k v /\ dispersion gr h v (k v))); [|exact HL]. intros v [_ Dv]. unfold dispersion in Dv. rewrite Dv. unfold disp. change (@eq R (gr * (k v * tanh (k v * h))) (gr * k v * tanh (k v * h))). ring.
      - apply (is_derive_scal (fun v => disp h (k v)) w gr). apply (is_derive_comp (disp h) k w _ dk); [apply disp_derive|exact Hd]. }
    transitivity (Derive (fun v : R => v ^ 2) w); [symmetry; exact (is_derive_unique _ _ _ D1)|exact (is_derive_unique _ _ _ D2)]. }
  unfold dispersion in D. set (t := tanh (k w * h)) in *. assert (P : 0 < k w * h / cosh (k w * h) ^ 2) by (apply Rdiv_lt_0_compat; [easy|nra]). set (q := k w * h / cosh (k w * h) ^ 2) in *.
  rewrite D, EQ. assert (Hdk : dk = 2 * w / (gr * (t + q))). { apply (Rmult_eq_reg_r (gr * (t + q))); [|nra]. unfold Rdiv. rewrite Rmult_assoc, Rinv_l by nra. lra. }
  assert (0 < dk). { rewrite Hdk. apply Rdiv_lt_0_compat; nra. }
  field. repeat split; lra.
Qed.
