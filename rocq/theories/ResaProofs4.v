From Coq Require Import Reals List ZArith Lra Lia Bool String Sorting.
From Verif Require Import Base PolyModel SplineModel KdeModel ProcModel ProcSpec ProcProofs DiscModel DiscSpec DiscProofs SlopesModel SlopesProofs SlopesProofs2 SlopesProofs4 SlopesProofs5 ResaModel ResaSpec ResaProofs ResaProofs2 ResaProofs3.
Import ListNotations.
Local Open Scope R_scope.
Set Bullet Behavior "Strict Subproofs".

Definition curve (cubic : list R -> list R -> R -> R) (m : kind) (w s : list R) : R -> R :=
  match m with Stine => stineman_interp w s (map (stineman_at w s) (seq 0 (List.length w))) | Linear => interp w s | Cubic => cubic w s | Unknown => fun _ => 0 end.
Lemma interpolated_ok cubic m w s t : m <> Unknown -> increasing w -> List.length s = List.length w -> (4 <= List.length w)%nat -> (forall v, In v t -> nth 0 w 0 <= v <= last w 0) ->
  interpolated cubic m w s t = Ok (map (curve cubic m w s) t).
Proof.
  intros M I L N B. assert (Ch : forall k, (k <= 4)%nat -> checked k w s = Ok tt).
  { intros k Hk. unfold checked. rewrite L, Nat.eqb_refl. destruct (Nat.ltb_spec (List.length w) k); [lia|reflexivity]. }
  assert (Ev : forall f, evaluated f w t = Ok (map f t)).
  { intros f. unfold evaluated. replace (forallb (within w) t) with true; [reflexivity|]. symmetry. apply forallb_forall. intros v Hv. specialize (B v Hv).
    unfold within. replace (hd 0 w) with (nth 0 w 0) by now destruct w. now rewrite !leb_true by lra. }
  destruct m; cbn [interpolated curve].
  - unfold StinemanInterp. rewrite (slopes_ok Stineman w s false (increasing_sorted w I) ltac:(lia) Logic.I). reflexivity.
  - rewrite Ch by lia. cbn [bind]. apply Ev.
  - rewrite Ch by lia. cbn [bind]. apply Ev.
  - contradiction.
Qed.
Lemma curve_knots cubic m w s i : m <> Unknown -> (m = Cubic -> passes cubic) -> increasing w -> List.length s = List.length w -> (4 <= List.length w)%nat -> (i < List.length w)%nat ->
  curve cubic m w s (nth i w 0) = nth i s 0.
Proof.
  intros M P I L N Hi. destruct m; cbn [curve].
  - apply stineman_knots; auto; try lia. now apply increasing_sorted.
  - apply interp_knot; auto; lia.
  - now apply (P eq_refl).
  - contradiction.
Qed.
Lemma curve_low cubic m w s t : m = Stine \/ m = Linear -> increasing w -> List.length s = List.length w -> (4 <= List.length w)%nat -> nth 0 s 0 = 0 -> nth 1 s 0 = 0 -> 0 <= nth 2 s 0 -> nth 0 w 0 <= t <= nth 1 w 0 ->
  curve cubic m w s t <= 0.
Proof.
  intros [-> | ->] I L N Y0 Y1 Y2 T; cbn [curve].
  - apply stineman_low; auto; lia.
  - rewrite (interp_zero w s 0) by (auto; lia). lra.
Qed.
Lemma curve_high cubic m w s t N : m = Stine \/ m = Linear -> increasing w -> List.length s = List.length w -> List.length w = (N + 3)%nat -> nth (N + 2) s 0 = 0 -> nth (N + 1) s 0 = 0 -> 0 <= nth N s 0 -> nth (N + 1) w 0 <= t <= nth (N + 2) w 0 ->
  curve cubic m w s t <= 0.
Proof.
  intros [-> | ->] I L Ln Y2 Y1 Y0 T; cbn [curve].
  - eapply stineman_high; eauto.
  - assert (E : S (N + 1) = (N + 2)%nat) by lia. rewrite (interp_zero w s (N + 1)); auto; try rewrite E; auto; try lia. lra.
Qed.
Lemma repeat_nth n i : nth i (repeat 0 n) 0 = 0.
Proof. revert i. induction n as [|n IH]; intros [|i]; cbn; auto. Qed.

Lemma resample_spec cubic tiny sp dt nmin nmax m dw : proper sp -> 0 < tiny -> 0 < wanted sp dt -> smallest_gap (args sp) dw -> m <> Unknown ->
  let new := nyquist_of sp (wanted sp dt) in let n := List.length (args sp) in (4 <= n + zeros_added sp new dw)%nat ->
  exists k F, let g := grid 0 new (2 ^ k) in
   resample cubic tiny sp dt nmin nmax m = (Spectrum g (map (fun t => Rmax (F t) 0) g) (hertz sp), Ok tt) /\
   (8 <= 2 ^ k)%nat /\ (n <= 2 ^ k + 1)%nat /\ (nmin <= Z.of_nat (2 ^ k + 1))%Z /\
   (new / INR (2 ^ k) <= nyquist sp / INR (n - 1) \/ (nmax <= Z.of_nat (2 ^ k + 1))%Z) /\
   ((m = Cubic -> passes cubic) -> (forall i, (i < n)%nat -> F (nth i (args sp) 0) = nth i (data sp) 0) /\ (0 < nth 0 (args sp) 0 -> F 0 = 0) /\ (nyquist sp < new -> F new = 0)) /\
   (m <> Cubic -> Forall (Rle 0) (data sp) -> forall t, 0 <= t <= nth 0 (args sp) 0 - dw \/ nyquist sp + dw <= t <= new -> F t <= 0).
Proof.
  intros Pr T Dt G M new n N4. destruct (plan_ok cubic tiny sp dt nmin nmax dw Pr T Dt G N4) as [w' [s' [k [K3 [N1 [N2 [D [Np [PO [Ew [Es E]]]]]]]]]]].
  fold new n in N1, D, Np, PO, Ew, Es, E. destruct PO as [PL PS PI PF PLa [off [PO1 PO2]]]. destruct Pr as [Hn [Hl [I Z0]]]. fold n in Hn, Hl, PL, PO1.
  assert (Zk : Z.of_nat (2 ^ k) = (2 ^ Z.of_nat k)%Z) by (rewrite Nat2Z.inj_pow; reflexivity).
  assert (K8 : (8 <= 2 ^ k)%nat) by (change 8%nat with (2 ^ 3)%nat; apply Nat.pow_le_mono_r; lia).
  assert (L4 : (4 <= List.length w')%nat) by lia.
  assert (Dp : 0 < dw) by exact (ResaProofs.gap_pos (args sp) dw I G).
  assert (KN : (m = Cubic -> passes cubic) -> forall i, (i < List.length w')%nat -> curve cubic m w' s' (nth i w' 0) = nth i s' 0) by (intros; now apply curve_knots).
  exists k, (curve cubic m w' s'). split.
  { unfold resample. rewrite E. rewrite linspace_pow. rewrite interpolated_ok; auto.
    - now rewrite map_map.
    - intros v Hv. apply grid_in in Hv; [|lra|lia]. rewrite PF, PLa. pose proof (Rmax_r (last (args sp) 0) new). lra. }
  split; [exact K8|]. split; [exact N1|]. split; [lia|]. split; [destruct D as [D|D]; [now left|right; lia]|].
  assert (S0 : 0 < nth 0 (args sp) 0 -> nth 0 s' 0 = 0).
  { intros A. rewrite Es. unfold zeros_for. destruct (Rlt_dec 0 (nth 0 (args sp) 0)); [|contradiction]. destruct (Rlt_dec dw (nth 0 (args sp) 0)); reflexivity. }
  assert (Sn : nyquist sp < new -> nth (List.length w' - 1) s' 0 = 0).
  { intros A. rewrite <- PS. rewrite <- last_nth. rewrite Es. unfold zeros_for at 2. destruct (Rlt_dec 0 (new - nyquist sp)); [|lra].
    destruct (Rlt_dec dw (new - nyquist sp)); cbn [repeat]; [change [0; 0] with ([0] ++ [0])|]; rewrite !app_assoc; apply last_last. }
  assert (Wn : nyquist sp < new -> nth (List.length w' - 1) w' 0 = new). { intros A. rewrite <- last_nth, PLa. unfold nyquist in A. rewrite Rmax_right by lra. reflexivity. }
  assert (KL : m <> Cubic -> m = Cubic -> passes cubic) by (intros; contradiction).
  split.
  - intros P. split; [|split].
    + intros i Hi. destruct (PO2 i Hi) as [A B]. rewrite <- A, <- B. apply KN; auto. lia.
    + intros A. rewrite <- PF at 1. rewrite KN by (auto; lia). now apply S0.
    + intros A. rewrite <- (Wn A). rewrite KN by (auto; lia). now apply Sn.
  - intros MC Ps t Ht. assert (M2 : m = Stine \/ m = Linear) by (destruct m; auto; contradiction).
    destruct Ht as [Ht|Ht].
    + destruct (Rlt_dec 0 (nth 0 (args sp) 0)) as [A|A]; [|lra].
      destruct (Rlt_dec dw (nth 0 (args sp) 0)) as [B|B].
      * apply curve_low; auto.
        -- rewrite Es. unfold zeros_for at 1. destruct (Rlt_dec 0 (nth 0 (args sp) 0)); [|contradiction]. destruct (Rlt_dec dw (nth 0 (args sp) 0)); [reflexivity|contradiction].
        -- rewrite Es. unfold zeros_for at 1. destruct (Rlt_dec 0 (nth 0 (args sp) 0)); [|contradiction]. destruct (Rlt_dec dw (nth 0 (args sp) 0)); [|contradiction].
           cbn [repeat app nth]. rewrite app_nth1 by lia. apply (proj1 (Forall_forall _ _) Ps). apply nth_In. lia.
        -- rewrite PF. rewrite Ew. cbn [app nth]. exact Ht.
      * assert (t = 0) by lra. subst t. rewrite <- PF at 1. rewrite KN by (auto; lia). rewrite S0 by exact A. lra.
    + destruct (Rlt_dec 0 (new - nyquist sp)) as [A|A]; [|lra].
      destruct (Rlt_dec dw (new - nyquist sp)) as [B|B].
      * set (pre := if Rlt_dec 0 (nth 0 (args sp) 0) then if Rlt_dec dw (nth 0 (args sp) 0) then [0; nth 0 (args sp) 0 - dw] else [0] else []) in Ew.
        assert (Lp : List.length pre = zeros_for (nth 0 (args sp) 0) dw) by (unfold pre, zeros_for; destruct (Rlt_dec 0 (nth 0 (args sp) 0)); [destruct (Rlt_dec dw (nth 0 (args sp) 0))|]; reflexivity).
        assert (Z2 : zeros_for (new - nyquist sp) dw = 2%nat) by (unfold zeros_for; destruct (Rlt_dec 0 (new - nyquist sp)); [destruct (Rlt_dec dw (new - nyquist sp)); [reflexivity|contradiction]|contradiction]).
        rewrite Z2 in Es. cbn [repeat] in Es. set (z := zeros_for (nth 0 (args sp) 0) dw) in *.
        set (N := (z + n - 1)%nat). assert (LN : List.length w' = (N + 3)%nat). { rewrite Ew, !app_length, Lp. cbn [List.length]. fold n. unfold N. lia. }
        apply (curve_high cubic m w' s' t N); auto.
        -- rewrite Es. rewrite app_nth2; rewrite repeat_length; [|unfold N; lia]. rewrite app_nth2 by (unfold N; lia). replace (N + 2 - z - List.length (data sp))%nat with 1%nat by (unfold N; lia). reflexivity.
        -- rewrite Es. rewrite app_nth2; rewrite repeat_length; [|unfold N; lia]. rewrite app_nth2 by (unfold N; lia). replace (N + 1 - z - List.length (data sp))%nat with 0%nat by (unfold N; lia). reflexivity.
        -- rewrite Es. rewrite app_nth2; rewrite repeat_length; [|unfold N; lia]. rewrite app_nth1 by (unfold N; lia). apply (proj1 (Forall_forall _ _) Ps). apply nth_In. unfold N. lia.
        -- assert (Q1 : nth (N + 1) w' 0 = nyquist sp + dw). { rewrite Ew. rewrite app_nth2 by (rewrite Lp; unfold N; lia). rewrite app_nth2 by (rewrite Lp; fold n; unfold N; lia). rewrite Lp. fold n. replace (N + 1 - z - n)%nat with 0%nat by (unfold N; lia). reflexivity. }
           assert (Q2 : nth (N + 2) w' 0 = new). { replace (N + 2)%nat with (List.length w' - 1)%nat by lia. apply Wn. lra. }
           rewrite Q1, Q2. exact Ht.
      * assert (Et : t = new) by lra. rewrite Et. assert (Ln : nyquist sp < new) by lra. rewrite <- (Wn Ln). rewrite KN by (auto; lia). rewrite Sn by exact Ln. lra.
Qed.
Lemma resample_few cubic tiny sp dt nmin nmax m dw : proper sp -> 0 < wanted sp dt -> smallest_gap (args sp) dw ->
  (List.length (args sp) + zeros_added sp (nyquist_of sp (wanted sp dt)) dw < 4)%nat -> resample cubic tiny sp dt nmin nmax m = (sp, Err ValueError).
Proof. intros. unfold resample. rewrite (plan_few cubic tiny sp dt nmin nmax dw) by assumption. reflexivity. Qed.
Lemma resample_unknown cubic tiny sp dt nmin nmax dw : proper sp -> 0 < tiny -> 0 < wanted sp dt -> smallest_gap (args sp) dw ->
  (4 <= List.length (args sp) + zeros_added sp (nyquist_of sp (wanted sp dt)) dw)%nat ->
  exists g, resample cubic tiny sp dt nmin nmax Unknown = (Spectrum g (data sp) (hertz sp), Err NotImplementedError) /\ (9 <= List.length g)%nat.
Proof.
  intros Pr T Dt G N4. destruct (plan_ok cubic tiny sp dt nmin nmax dw Pr T Dt G N4) as [w' [s' [k [K3 [_ [_ [_ [_ [_ [_ [_ E]]]]]]]]]]].
  unfold resample. rewrite E. eexists. split; [reflexivity|]. rewrite linspace_pow, grid_length. assert (2 ^ 3 <= 2 ^ k)%nat by (apply Nat.pow_le_mono_r; lia). cbn in *. lia.
Qed.
Lemma wanted_default sp : nyquist_of sp (wanted sp None) = nyquist sp \/ nyquist sp = 0.
Proof.
  destruct (Req_dec (nyquist sp) 0) as [E|E]; [now right|left]. unfold nyquist_of, wanted, sampling_interval. pose proof (const_pos (hertz sp)). field. lra.
Qed.
Lemma default_pos sp : proper sp -> 0 < wanted sp None /\ nyquist_of sp (wanted sp None) = nyquist sp.
Proof.
  intros P. pose proof (nyquist_pos sp P) as N. split.
  - unfold wanted, sampling_interval. apply Rdiv_lt_0_compat; [apply const_pos|exact N].
  - destruct (wanted_default sp) as [E|E]; [exact E|lra].
Qed.
(* the default sampling interval of a spectrum with 2^j + 1 equally spaced frequencies from zero: the grid is refined and the old values stay *)
Lemma resample_keeps cubic tiny sp nmin nmax m j : proper sp -> 0 < tiny -> m <> Unknown -> (m = Cubic -> passes cubic) -> (2 <= j)%nat -> args sp = grid 0 (nyquist sp) (2 ^ j) -> Forall (Rle 0) (data sp) ->
  exists sp' r, resample cubic tiny sp None nmin nmax m = (sp', Ok tt) /\ (1 <= r)%nat /\ List.length (args sp') = (r * 2 ^ j + 1)%nat /\
   forall i, (i <= 2 ^ j)%nat -> nth (i * r) (args sp') 0 = nth i (args sp) 0 /\ nth (i * r) (data sp') 0 = nth i (data sp) 0.
Proof.
  intros Pr T M P J Ea Ps. destruct (default_pos sp Pr) as [W1 W2]. assert (J4 : (4 <= 2 ^ j)%nat) by (change 4%nat with (2 ^ 2)%nat; apply Nat.pow_le_mono_r; lia).
  assert (Ln : List.length (args sp) = (2 ^ j + 1)%nat) by (rewrite Ea; apply grid_length).
  destruct (min_diff_spec (args sp) ltac:(lia)) as [dw [_ G]].
  destruct (resample_spec cubic tiny sp None nmin nmax m dw Pr T W1 G M) as [k [F [E [K8 [N1 [_ [_ [KP _]]]]]]]]; [lia|]. rewrite W2 in E. destruct (KP P) as [K _].
  assert (JK : (j <= k)%nat). { rewrite Ln in N1. apply (Nat.pow_le_mono_r_iff 2); lia. }
  exists (Spectrum (grid 0 (nyquist sp) (2 ^ k)) (map (fun t => Rmax (F t) 0) (grid 0 (nyquist sp) (2 ^ k))) (hertz sp)), (2 ^ (k - j))%nat.
  split; [exact E|]. cbn [args data]. assert (P1 : (1 <= 2 ^ (k - j))%nat) by (pose proof (Nat.pow_nonzero 2 (k - j) ltac:(lia)); lia).
  assert (Pk : (2 ^ (k - j) * 2 ^ j = 2 ^ k)%nat) by (rewrite <- Nat.pow_add_r; f_equal; lia).
  split; [exact P1|]. split; [rewrite grid_length; lia|]. intros i Hi.
  assert (Hk : (i * 2 ^ (k - j) <= 2 ^ k)%nat) by (rewrite <- Pk; nia).
  assert (A : nth (i * 2 ^ (k - j)) (grid 0 (nyquist sp) (2 ^ k)) 0 = nth i (args sp) 0).
  { rewrite Ea. rewrite !grid_nth by assumption. rewrite <- Pk, !mult_INR. assert (0 < INR (2 ^ (k - j))) by (apply lt_0_INR; lia). assert (0 < INR (2 ^ j)) by (apply lt_0_INR; lia). field. split; lra. }
  split; [exact A|]. rewrite (nth_indep _ 0 (Rmax (F 0) 0)) by (rewrite map_length, grid_length; lia). rewrite (map_nth (fun t => Rmax (F t) 0)). rewrite A. rewrite K by lia.
  apply Rmax_left. apply (proj1 (Forall_forall _ _) Ps). apply nth_In. destruct Pr as [_ [Hl _]]. lia.
Qed.
Lemma resample_empty cubic tiny d h dt nmin nmax m : resample cubic tiny (Spectrum [] d h) dt nmin nmax m = (Spectrum [] d h, Err IndexError).
Proof. reflexivity. Qed.
Lemma resample_one cubic tiny w d h nmin nmax m : 0 < w -> resample cubic tiny (Spectrum [w] d h) None nmin nmax m = (Spectrum [w] d h, Err IndexError).
Proof.
  intros W. unfold resample, plan. cbn [args hertz]. rewrite from_end_nth by (cbn; lia). cbn [bind List.length]. unfold at_. cbn [Nat.sub nth].
  set (c := if h then 0.5 else PI). assert (Cp : 0 < c) by (unfold c; destruct h; [lra|apply PI_RGT_0]).
  destruct (pow2_up_spec (Z.max (Z.of_nat 1 - 1) (nmin - 1)) ltac:(lia)) as [P1 P2].
  assert (P0 : (1 <= pow2_up (Z.max (Z.of_nat 1 - 1) (nmin - 1)))%Z) by (destruct P2 as [k [K ->]]; pose proof (Z.pow_pos_nonneg 2 k ltac:(lia) K); lia).
  destruct (doublings_spec (c / w * IZR (Z.of_nat 1 - 1)) (c / w) nmax (S (Z.to_nat nmax)) (pow2_up (Z.max (Z.of_nat 1 - 1) (nmin - 1)))) as [r [Er _]]; try lia; [exact P2|].
  rewrite Er. cbn [bind]. replace (c / (c / w)) with w by (field; split; lra). replace (w - w) with 0 by ring. rewrite gtb_false by lra. reflexivity.
Qed.
(* counterexamples *)
Definition five : spectrum := Spectrum [0; 1; 2; 3; 4] [0; 1; 2; 1; 0] true.
Lemma five_proper : proper five /\ smallest_gap (args five) 1 /\ args five = grid 0 (nyquist five) (2 ^ 2).
Proof.
  split; [|split].
  - split; [cbn; lia|]. split; [reflexivity|]. split; [|cbn; lra]. intros [|[|[|[|i]]]] Hi; cbn in Hi |- *; try lra; lia.
  - split; [|exists 0%nat; cbn; split; [lia|lra]]. intros [|[|[|[|i]]]] Hi; cbn in Hi |- *; try lra; lia.
  - unfold grid, nyquist. cbn [five args last]. cbn [seq Nat.add Nat.pow Nat.mul map]. repeat (apply f_equal2; [cbn; field|]). reflexivity.
Qed.
Lemma refuted_unchanged cubic tiny m nmin nmax : 0 < tiny -> m <> Unknown -> exists sp', resample cubic tiny five None nmin nmax m = (sp', Ok tt) /\ List.length (args five) = 5%nat /\ (9 <= List.length (args sp'))%nat.
Proof.
  intros T M. destruct five_proper as [Pr [G _]]. destruct (default_pos five Pr) as [W1 W2].
  destruct (resample_spec cubic tiny five None nmin nmax m 1 Pr T W1 G M) as [k [F [E [K8 _]]]]; [cbn; lia|].
  eexists. split; [exact E|]. split; [reflexivity|]. cbn [args]. rewrite grid_length. lia.
Qed.
Lemma refuted_nmax cubic tiny m dt nmin : 0 < tiny -> m <> Unknown -> 0 < dt -> exists sp', resample cubic tiny five (Some dt) nmin 8 m = (sp', Ok tt) /\ (8 < List.length (args sp'))%nat.
Proof.
  intros T M D. destruct five_proper as [Pr [G _]].
  destruct (resample_spec cubic tiny five (Some dt) nmin 8 m 1 Pr T D G M) as [k [F [E [K8 _]]]]; [cbn [five args List.length]; lia|].
  eexists. split; [exact E|]. cbn [args]. rewrite grid_length. lia.
Qed.
Lemma refuted_failure cubic tiny nmin nmax : 0 < tiny -> exists g, resample cubic tiny five None nmin nmax Unknown = (Spectrum g (data five) true, Err NotImplementedError) /\ (List.length g > List.length (data five))%nat.
Proof.
  intros T. destruct five_proper as [Pr [G _]]. destruct (default_pos five Pr) as [W1 _].
  destruct (resample_unknown cubic tiny five None nmin nmax 1 Pr T W1 G) as [g [E L]]; [cbn [five args List.length]; lia|]. exists g. split; [exact E|]. cbn. lia.
Qed.
