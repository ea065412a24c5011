From Coq Require Import Reals Lra Lia.
From Verif Require Import Base PolyModel PolySpec PolyProofs PolyProofs2 OrthoModel OrthoProofs ChebModel ChebSpec.
Local Open Scope R_scope.

(* ---- recurrences ------------------------------------------------------------------ *)
Lemma cheb_pair_snd kind x k : snd (cheb_pair kind x k) = fst (cheb_pair kind x (S k)).
Proof. cbn [cheb_pair]. destruct (cheb_pair kind x k). reflexivity. Qed.
Lemma V_0 kind x : chebV kind 0 x = 1. Proof. reflexivity. Qed.
Lemma V_1 kind x : chebV kind 1 x = kind * x. Proof. reflexivity. Qed.
Lemma V_SS kind k x : chebV kind (S (S k)) x = 2 * x * chebV kind (S k) x - chebV kind k x.
Proof.
  unfold chebV. cbn [cheb_pair]. destruct (cheb_pair kind x k) as [u v]. reflexivity.
Qed.
Lemma two_step (P : nat -> Prop) : P 0%nat -> P 1%nat -> (forall k, P k -> P (S k) -> P (S (S k))) -> forall k, P k.
Proof. intros H0 H1 H k. assert (P k /\ P (S k)) as [? _]; [|assumption]. induction k as [|k [A B]]; auto. Qed.

(* ---- Clenshaw ---------------------------------------------------------------------- *)
Lemma clenshaw_spec kind x ck : ck <> [] -> forall b b1,
  clenshaw kind x b b1 ck = Ok (series kind ck x + b * chebV kind (List.length ck) x - b1 * chebV kind (List.length ck - 1) x).
Proof.
  induction ck as [|c ck IH]; intros H b b1; [congruence|]. destruct ck as [|d ck].
  - cbn [clenshaw]. f_equal. cbn [series List.length]. rewrite V_1. change (1 - 1)%nat with 0%nat. rewrite V_0. ring.
  - change (clenshaw kind x b b1 (c :: d :: ck)) with (clenshaw kind x (2 * x * b - b1 + c) b (d :: ck)).
    rewrite IH by discriminate. f_equal.
    change (series kind (c :: d :: ck) x) with (c * chebV kind (List.length (d :: ck)) x + series kind (d :: ck) x).
    cbn [List.length]. replace (S (S (List.length ck)) - 1)%nat with (S (List.length ck)) by lia.
    replace (S (List.length ck) - 1)%nat with (List.length ck) by lia.
    rewrite (V_SS kind (List.length ck)). ring.
Qed.
Lemma chebval0_spec kind x ck : ck <> [] -> chebval0 x ck kind = Ok (series kind ck x).
Proof. intros H. unfold chebval0. rewrite clenshaw_spec by exact H. f_equal. ring. Qed.
Lemma chebval_spec x ck a b kind : ck <> [] -> chebval x ck a b kind = Ok (series kind ck (map_from_interval x a b)).
Proof. intros. unfold chebval. now apply chebval0_spec. Qed.
Lemma chebval_empty x a b kind : chebval x [] a b kind = Err IndexError.
Proof. reflexivity. Qed.
Lemma chebval_fill_spec x ck a b kind fill : ck <> [] -> a < b ->
  chebval_fill x ck a b kind fill = Ok (if Rle_dec a x then if Rle_dec x b then series kind ck (map_from_interval x a b) else fill else fill).
Proof.
  intros H Hab. unfold chebval_fill, chebval_fill_as. cbv zeta.
  assert (E : Rabs (map_from_interval x a b) <= 1 <-> a <= x <= b).
  { assert (E : map_from_interval x a b = (2 * x - (a + b)) / (b - a)) by (unfold map_from_interval; field; lra).
    rewrite E. set (u := (2 * x - (a + b)) / (b - a)).
    assert (Eu : u * (b - a) = 2 * x - (a + b)) by (unfold u; field; lra).
    split.
    - intros G. assert (-1 <= u <= 1) by (unfold Rabs in G; destruct (Rcase_abs u); lra). split; nra.
    - intros [G1 G2]. apply Rabs_le. split; nra. }
  rewrite chebval0_spec by exact H. cbn [bind].
  destruct (Rle_dec (Rabs (map_from_interval x a b)) 1) as [G|G]; destruct (Rle_dec a x), (Rle_dec x b); try reflexivity; exfalso; tauto.
Qed.
Lemma trunc_of_half : trunc (1/2) = 0.
Proof.
  unfold trunc. destruct (Rle_dec 0 (1/2)); [|lra].
  assert (Int_part (1 / 2) = 0)%Z as ->; [|reflexivity].
  unfold Int_part. assert (1 = up (1 / 2))%Z; [|lia]. apply tech_up; lra.
Qed.
Lemma chebval_fill_int_wrong : chebval_fill_int (1/2) [1; 0] (-1) 1 1 0 = Ok 0 /\
  chebval (1/2) [1; 0] (-1) 1 1 = Ok (1/2).
Proof.
  split.
  - unfold chebval_fill_int, chebval_fill_as. cbv zeta.
    replace (map_from_interval (1/2) (-1) 1) with (1/2) by (unfold map_from_interval; field).
    destruct (Rle_dec (Rabs (1 / 2)) 1) as [_|G].
    + rewrite chebval0_spec by discriminate. cbn [bind series List.length]. rewrite V_1, V_0. f_equal.
      replace (1 * (1 * (1 / 2)) + (0 * 1 + 0)) with (1/2) by ring. apply trunc_of_half.
    + exfalso. apply G. rewrite Rabs_right; lra.
  - rewrite chebval_spec by discriminate. f_equal. cbn [series List.length]. rewrite V_1, V_0.
    unfold map_from_interval. field.
Qed.

(* ---- trigonometric form -------------------------------------------------------------- *)
Lemma T_cos k t : chebT k (cos t) = cos (INR k * t).
Proof.
  unfold chebT. revert k. apply two_step.
  - rewrite V_0. cbn [INR]. rewrite Rmult_0_l, cos_0. reflexivity.
  - rewrite V_1. cbn [INR]. rewrite !Rmult_1_l. reflexivity.
  - intros k H1 H2. rewrite V_SS, H1, H2. rewrite !S_INR.
    replace ((INR k + 1 + 1) * t) with ((INR k + 1) * t + t) by ring.
    replace (INR k * t) with ((INR k + 1) * t - t) by ring.
    rewrite cos_plus, cos_minus. ring.
Qed.
Lemma U_sin k t : chebU k (cos t) * sin t = sin (INR (S k) * t).
Proof.
  unfold chebU. revert k. apply two_step.
  - rewrite V_0. cbn [INR]. rewrite !Rmult_1_l. reflexivity.
  - rewrite V_1. cbn [INR]. replace ((1 + 1) * t) with (2 * t) by ring. rewrite sin_2a. ring.
  - intros k H1 H2. rewrite V_SS, Rmult_minus_distr_r, H1.
    replace (2 * cos t * chebV 2 (S k) (cos t) * sin t) with (2 * cos t * (chebV 2 (S k) (cos t) * sin t)) by ring.
    rewrite H2. rewrite !S_INR.
    replace ((INR k + 1 + 1 + 1) * t) with ((INR k + 1 + 1) * t + t) by ring.
    replace ((INR k + 1) * t) with ((INR k + 1 + 1) * t - t) by ring.
    rewrite sin_plus, sin_minus. ring.
Qed.
Lemma chebpoly_at_spec n x kind : chebpoly_at n x kind = Ok (chebV kind n x).
Proof.
  unfold chebpoly_at. rewrite chebval0_spec by discriminate. f_equal. cbn [series]. rewrite repeat_length.
  assert (E : forall m, series kind (repeat 0 m) x = 0).
  { induction m as [|m IH]; cbn [repeat series]; [reflexivity|]. rewrite IH. ring. }
  rewrite E. ring.
Qed.

(* ---- derivative ------------------------------------------------------------------------ *)
(* W k = U_(k-1), W 0 = 0 *)
Definition W (k : nat) (x : R) : R := match k with O => 0 | S k' => chebU k' x end.
Lemma W_SS k x : W (S (S k)) x = 2 * x * W (S k) x - W k x.
Proof.
  destruct k as [|k]; cbn [W]; unfold chebU; [rewrite V_1, V_0; ring|]. apply V_SS.
Qed.
Lemma T_W k x : chebT (S k) x = x * W (S k) x - W k x.
Proof.
  unfold chebT. revert k. apply two_step.
  - rewrite V_1. cbn [W]. unfold chebU. rewrite V_0. ring.
  - rewrite V_SS, V_1, V_0. cbn [W]. unfold chebU. rewrite V_1, V_0. ring.
  - intros k H1 H2. rewrite V_SS, H1, H2. rewrite !(W_SS (S k)), !(W_SS k). ring.
Qed.
Lemma W_T k x : W (S (S k)) x = 2 * chebT (S k) x + W k x.
Proof. rewrite W_SS, T_W. ring. Qed.
Lemma T_derivative k x : derivable_pt_lim (chebT k) x (INR k * W k x).
Proof.
  revert k. apply (two_step (fun k => derivable_pt_lim (chebT k) x (INR k * W k x))).
  - cbn [INR]. rewrite Rmult_0_l. apply (derivable_pt_lim_ext (fun _ => 1)); [reflexivity|]. apply derivable_pt_lim_const.
  - cbn [INR W]. unfold chebU. rewrite V_0, Rmult_1_r.
    apply (derivable_pt_lim_ext id); [intros; unfold chebT, id; rewrite V_1; ring|]. apply derivable_pt_lim_id.
  - intros k H1 H2.
    apply (derivable_pt_lim_ext (fun y => 2 * (y * chebT (S k) y) - chebT k y)).
    { intros y. unfold chebT. rewrite V_SS. ring. }
    replace (INR (S (S k)) * W (S (S k)) x) with (2 * (1 * chebT (S k) x + x * (INR (S k) * W (S k) x)) - INR k * W k x).
    2:{ rewrite T_W, W_SS, !S_INR. ring. }
    apply (derivable_pt_lim_minus (fun y => 2 * (y * chebT (S k) y)) (chebT k)); [|exact H1].
    apply (derivable_pt_lim_scal (fun y => y * chebT (S k) y)).
    apply (derivable_pt_lim_mult id (chebT (S k))); [apply derivable_pt_lim_id|exact H2].
Qed.
Fixpoint dseries (ck : list R) (x : R) : R :=
  match ck with [] => 0 | c :: ck' => c * (INR (List.length ck') * W (List.length ck') x) + dseries ck' x end.
Lemma series_derivative ck x : derivable_pt_lim (series 1 ck) x (dseries ck x).
Proof.
  induction ck as [|c ck IH].
  - apply (derivable_pt_lim_ext (fun _ => 0)); [reflexivity|]. apply derivable_pt_lim_const.
  - cbn [dseries]. apply (derivable_pt_lim_ext (fun y => c * chebT (List.length ck) y + series 1 ck y)); [reflexivity|].
    apply (derivable_pt_lim_plus (fun y => c * chebT (List.length ck) y) (series 1 ck)); [|exact IH].
    apply (derivable_pt_lim_scal (chebT (List.length ck))). apply T_derivative.
Qed.
(* the loop of chebder as a list recursion *)
Fixpoint cder_list (p2 p1 : R) (ck : list R) : list R :=
  match ck with
  | [] => []
  | [c] => []
  | c :: ck' => let v := p2 + 2 * INR (List.length ck') * c in v :: cder_list p1 v ck'
  end.
Lemma cder_list_length ck : forall p2 p1, List.length (cder_list p2 p1 ck) = (List.length ck - 1)%nat.
Proof.
  induction ck as [|c ck IH]; intros p2 p1; [reflexivity|]. destruct ck as [|d ck]; [reflexivity|].
  change (cder_list p2 p1 (c :: d :: ck)) with (let v := p2 + 2 * INR (List.length (d :: ck)) * c in v :: cder_list p1 v (d :: ck)).
  cbv zeta. cbn [List.length]. rewrite IH. cbn [List.length]. lia.
Qed.
Lemma cder_list_series x ck : forall p2 p1, (2 <= List.length ck)%nat ->
  series 1 (cder_list p2 p1 ck) x - last (cder_list p2 p1 ck) 0 / 2
  = dseries ck x + (p2 * W (List.length ck - 1) x + p1 * W (List.length ck - 2) x) / 2.
Proof.
  induction ck as [|c ck IH]; intros p2 p1 H; [cbn in H; lia|].
  destruct ck as [|d ck]; [cbn in H; lia|].
  destruct ck as [|e ck].
  - cbn [cder_list List.length last series dseries]. change (2 - 1)%nat with 1%nat. change (2 - 2)%nat with 0%nat.
    cbn [W INR]. rewrite V_0. unfold chebU. rewrite V_0. field.
  - change (cder_list p2 p1 (c :: d :: e :: ck)) with
      (let v := p2 + 2 * INR (List.length (d :: e :: ck)) * c in v :: cder_list p1 v (d :: e :: ck)).
    set (m := List.length ck). cbv zeta. cbn [List.length] in IH |- *. fold m in IH |- *.
    set (v := p2 + 2 * INR (S (S m)) * c).
    specialize (IH p1 v ltac:(lia)).
    set (L := cder_list p1 v (d :: e :: ck)) in *.
    assert (LL : List.length L = S m).
    { unfold L. rewrite cder_list_length. cbn. unfold m. lia. }
    assert (El : last (v :: L) 0 = last L 0) by (destruct L; [cbn in LL; lia|reflexivity]).
    rewrite El. cbn [series]. rewrite LL.
    change (dseries (c :: d :: e :: ck) x) with (c * (INR (S (S m)) * W (S (S m)) x) + dseries (d :: e :: ck) x).
    replace (S (S m) - 1)%nat with (S m) in IH by lia. replace (S (S m) - 2)%nat with m in IH by lia.
    replace (S (S (S m)) - 1)%nat with (S (S m)) by lia. replace (S (S (S m)) - 2)%nat with (S m) by lia.
    change (chebV 1 (S m) x) with (chebT (S m) x).
    pose proof (W_T m x) as E. unfold v in *. nra.
Qed.
Lemma cder_at_list ck n : (List.length ck = S n)%nat -> map (cder_at ck n) (seq 0 n) = cder_list 0 0 ck.
Proof.
  intros Hn.
  assert (G : forall l pre p2 p1, ck = pre ++ l ->
     (match List.length pre with O => p1 = 0 | S j => p1 = cder_at ck n j end) ->
     (match List.length pre with O => p2 = 0 | S O => p2 = 0 | S (S j) => p2 = cder_at ck n j end) ->
     map (cder_at ck n) (seq (List.length pre) (List.length l - 1)) = cder_list p2 p1 l).
  { induction l as [|c l IH]; intros pre p2 p1 E H1 H2; [reflexivity|]. destruct l as [|d l]; [reflexivity|].
    change (cder_list p2 p1 (c :: d :: l)) with (let v := p2 + 2 * INR (List.length (d :: l)) * c in v :: cder_list p1 v (d :: l)).
    cbv zeta. set (v := p2 + 2 * INR (List.length (d :: l)) * c).
    assert (Ev : cder_at ck n (List.length pre) = v).
    { assert (Hl : n = (List.length pre + List.length (d :: l))%nat).
      { rewrite E, app_length in Hn. cbn in *. lia. }
      assert (Hc : at_R ck (List.length pre) = c) by (unfold at_R; rewrite E; apply nth_app_len).
      destruct (List.length pre) as [|[|j]] eqn:Ep.
      - cbn [cder_at]. unfold v. rewrite H2, Hc, Hl. cbn [Nat.add]. ring.
      - cbn [cder_at]. unfold v. rewrite H2, Hc, Hl. rewrite plus_INR. cbn [INR]. ring.
      - change (cder_at ck n (S (S j))) with (cder_at ck n j + 2 * (INR n - INR (S (S j))) * at_R ck (S (S j))).
        unfold v. rewrite H2, Hc, Hl, plus_INR. ring. }
    cbn [List.length]. replace (S (S (List.length l)) - 1)%nat with (S (S (List.length l) - 1)) by lia.
    cbn [seq map]. rewrite Ev. f_equal.
    specialize (IH (pre ++ [c]) p1 v). rewrite app_length in IH. cbn [List.length] in IH. rewrite Nat.add_1_r in IH.
    apply IH; [rewrite E, <- app_assoc; reflexivity|congruence|].
    destruct (List.length pre) as [|j]; [exact H1|exact H1]. }
  specialize (G ck [] 0 0 eq_refl eq_refl eq_refl). cbn [List.length] in G. rewrite <- G, Hn.
  replace (S n - 1)%nat with n by lia. reflexivity.
Qed.
Lemma series_scale kind s ck x : series kind (map (Rmult s) ck) x = s * series kind ck x.
Proof. induction ck as [|c ck IH]; cbn [map series]; [ring|]. rewrite IH, map_length. ring. Qed.
Lemma last_map (s : R) l : last (map (Rmult s) l) 0 = s * last l 0.
Proof.
  induction l as [|a l IH]; [cbn; ring|]. destruct l as [|b l]; [reflexivity|]. cbn [map]. cbn [map] in IH.
  change (last (s * a :: s * b :: map (Rmult s) l) 0) with (last (s * b :: map (Rmult s) l) 0). rewrite IH. reflexivity.
Qed.
Lemma chebder_value ck a b : (3 <= List.length ck)%nat -> a <> b ->
  exists cder, chebder ck a b = Ok cder /\ List.length cder = (List.length ck - 1)%nat /\
  forall x, derivable_pt_lim (fun y => series 1 ck (map_from_interval y a b)) x
     (series 1 cder (map_from_interval x a b) - last cder 0 / 2).
Proof.
  intros H Hab. unfold chebder. destruct (List.length ck) as [|n] eqn:En; [lia|].
  replace (n <? 2)%nat with false by (symmetry; apply Nat.ltb_ge; lia).
  eexists; split; [reflexivity|]. cbv beta.
  split; [rewrite map_length, seq_length; lia|]. intros x.
  replace (map (fun j => cder_at ck n j * 2 / (b - a)) (seq 0 n)) with (map (Rmult (2 / (b - a))) (map (cder_at ck n) (seq 0 n))).
  2:{ rewrite map_map. apply map_ext. intros j. field. lra. }
  rewrite series_scale, last_map, cder_at_list by exact En.
  set (y := map_from_interval x a b). set (L := cder_list 0 0 ck).
  replace (2 / (b - a) * series 1 L y - 2 / (b - a) * last L 0 / 2) with (dseries ck y * (2 / (b - a))).
  2:{ pose proof (cder_list_series y ck 0 0 ltac:(lia)) as G. fold L in G.
      replace (2 / (b - a) * series 1 L y - 2 / (b - a) * last L 0 / 2) with ((series 1 L y - last L 0 / 2) * (2 / (b - a))) by (field; lra).
      rewrite G. field. lra. }
  apply (derivable_pt_lim_comp (fun z => map_from_interval z a b) (series 1 ck)); [|apply series_derivative].
  set (c := 2 / (b - a)). apply (derivable_pt_lim_ext (fun z => c * (z - (b + a) / 2))).
  { intros z. unfold map_from_interval, c. ring. }
  cut (derivable_pt_lim (fun z => c * (z - (b + a) / 2)) x (c * (1 - 0))); [now replace (c * (1 - 0)) with c by ring|].
  apply (derivable_pt_lim_scal (fun z => z - (b + a) / 2)).
  apply (derivable_pt_lim_minus id (fun _ => (b + a) / 2)); [apply derivable_pt_lim_id|apply derivable_pt_lim_const].
Qed.
Lemma chebder_error_term ck a b : (3 <= List.length ck)%nat -> a <> b ->
  exists cder, chebder ck a b = Ok cder /\ List.length cder = (List.length ck - 1)%nat /\
  forall x d v, derivable_pt_lim (fun y => series 1 ck (map_from_interval y a b)) x d ->
    chebval x cder a b 1 = Ok v -> v = d + last cder 0 / 2.
Proof.
  intros H Hab. destruct (chebder_value ck a b H Hab) as [cder [E [L D]]]. exists cder. split; [exact E|]. split; [exact L|].
  intros x d v Hd Hv. specialize (D x). pose proof (uniqueness_limite _ _ _ _ Hd D) as ->.
  assert (cder <> []) by (intros ->; cbn in L; lia).
  rewrite chebval_spec in Hv by assumption. injection Hv as <-. field.
Qed.
Lemma chebder_wrong : exists ck cder, chebder ck (-1) 1 = Ok cder /\
  derivable_pt_lim (fun y => series 1 ck (map_from_interval y (-1) 1)) 0 1 /\ chebval 0 cder (-1) 1 1 = Ok 2.
Proof.
  exists [0; 1; 0]. unfold chebder. cbn [List.length]. eexists; split; [reflexivity|]. split.
  - apply (derivable_pt_lim_ext id).
    + intros y. unfold id, map_from_interval. cbn [series List.length]. rewrite V_1, V_0. field.
    + apply derivable_pt_lim_id.
  - rewrite chebval_spec by discriminate. f_equal. cbn [seq map series List.length cder_at]. rewrite V_1, V_0. unfold at_R. cbn [nth].
    unfold map_from_interval. cbn [INR]. field.
Qed.
Lemma chebder_short ck a b : (1 <= List.length ck <= 2)%nat -> chebder ck a b = Err IndexError.
Proof.
  intros H. unfold chebder. destruct (List.length ck) as [|n]; [lia|].
  replace (n <? 2)%nat with true by (symmetry; apply Nat.ltb_lt; lia). reflexivity.
Qed.

(* ---- chebint ------------------------------------------------------------------------------ *)
Lemma chebint_two c1 c0 a b : chebint [c1; c0] a b = Ok [2 * (0 + 1 * 0); 1/4 * (b - a) * c1 / (1 + 1 - 1)].
Proof. reflexivity. Qed.
Lemma chebint_never c1 c0 a b : a <> b -> (c1 <> 0 \/ c0 <> 0) -> exists ci, chebint [c1; c0] a b = Ok ci /\
  ~ forall x, derivable_pt_lim (fun y => series 1 ci (map_from_interval y a b)) x (series 1 [c1; c0] (map_from_interval x a b)).
Proof.
  intros Hab Hc. rewrite chebint_two. eexists; split; [reflexivity|]. intros D.
  assert (Z : forall x, series 1 [c1; c0] (map_from_interval x a b) = 0).
  { intros x. apply (uniqueness_limite _ x _ _ (D x)).
    apply (derivable_pt_lim_ext (fun _ => 1/4 * (b - a) * c1 / (1 + 1 - 1))); [|apply derivable_pt_lim_const].
    intros y. cbn [series List.length]. rewrite V_1, V_0. ring. }
  pose proof (Z ((a + b) / 2)) as Z0. pose proof (Z b) as Z1.
  cbn [series List.length] in Z0, Z1. rewrite V_1, V_0 in Z0, Z1.
  replace (map_from_interval ((a + b) / 2) a b) with 0 in Z0 by (unfold map_from_interval; field; lra).
  replace (map_from_interval b a b) with 1 in Z1 by (unfold map_from_interval; field; lra).
  lra.
Qed.

(* ---- Cheb1d ---------------------------------------------------------------------------------- *)
Lemma cheb1d_trim_wrong : forall x, cheb1d_call (cheb1d_init [1; 0] (-1) 1 1) x = Ok 1 /\ chebval x [1; 0] (-1) 1 1 = Ok x.
Proof.
  intros x. split.
  - unfold cheb1d_call, cheb1d_init, trim_back. cbn [rev app drop_zeros]. unfold nonzero.
    destruct (Req_EM_T 0 0); [|congruence]. destruct (Req_EM_T 1 0) as [G|_]; [lra|]. cbn [rev app coeffs lo hi knd].
    rewrite chebval_spec by discriminate. f_equal. cbn [series List.length]. rewrite V_0. ring.
  - rewrite chebval_spec by discriminate. f_equal. cbn [series List.length]. rewrite V_1, V_0. unfold map_from_interval. field.
Qed.
Lemma drop_zeros_nonzero p c : c <> 0 -> drop_zeros (c :: p) = c :: p.
Proof. intros H. cbn. apply nonzero_true in H. now rewrite H. Qed.
Lemma cheb1d_call_ok ck a b kind x : last ck 0 <> 0 -> cheb1d_call (cheb1d_init ck a b kind) x = chebval x ck a b kind.
Proof.
  intros H. unfold cheb1d_call, cheb1d_init, trim_back. cbn [coeffs lo hi knd].
  assert (ck <> []) by (intros ->; apply H; reflexivity).
  rewrite (removelast_last_app ck 0 H0) at 1. rewrite rev_app_distr. cbn [rev app].
  rewrite drop_zeros_nonzero by exact H. cbn [rev]. rewrite rev_involutive.
  rewrite <- (removelast_last_app ck 0 H0). reflexivity.
Qed.
Lemma cheb1d_arithmetic_raises c d : cheb1d_neg c = Err ValueError /\ cheb1d_add c d = Err ValueError /\
  cheb1d_sub c d = Err ValueError /\ (exists e, cheb1d_integ c = Err e) /\ (exists e, cheb1d_deriv c = Err e).
Proof.
  split; [reflexivity|]. split; [reflexivity|]. split; [reflexivity|]. split.
  - unfold cheb1d_integ, cheb1d_setcoeffs. destruct (chebint _ _ _); cbn; eauto.
  - unfold cheb1d_deriv, cheb1d_setcoeffs. destruct (chebder _ _ _); cbn; eauto.
Qed.
