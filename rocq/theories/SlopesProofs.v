From Coq Require Import Reals Lra Lia Sorted.
From Verif Require Import Base PolyModel PolySpec PolyProofs PolyProofs2 PPModel PPSpec PPProofs PPProofs2
  SplineModel SplineProofs SlopesModel SlopesSpec.
Local Open Scope R_scope.

(* ---- choosing the interval --------------------------------------------------------------- *)
Lemma count_upto_spec l t : StronglySorted Rlt l -> let k := count_upto l t in
  (k <= List.length l)%nat /\ (forall j, (j < k)%nat -> nth j l 0 <= t) /\
  (forall j, (k <= j)%nat -> (j < List.length l)%nat -> t < nth j l 0).
Proof.
  cbv zeta. unfold count_upto. induction 1 as [|a l H IH F]; cbn [filter].
  - cbn. repeat split; lia.
  - assert (EL : (a <= t /\ rle a t = true) \/ (t < a /\ rle a t = false)) by (unfold rle; destruct (Rle_dec a t); [left|right]; split; auto; lra).
    destruct EL as [[L ->]|[L ->]]; cbn [List.length].
    + destruct IH as [I1 [I2 I3]]. split; [lia|]. split.
      * intros [|j] Hj; cbn [nth]; [exact L|]. apply I2. lia.
      * intros [|j] Hj Hl; [lia|]. cbn [nth]. apply I3; lia.
    + assert (Z : filter (fun b => rle b t) l = []).
      { clear - F L. induction F as [|b l Hb F IH]; [reflexivity|]. cbn [filter]. unfold rle at 1. destruct (Rle_dec b t); [lra|exact IH]. }
      rewrite Z. cbn [List.length]. split; [lia|]. split; [lia|]. intros [|j] _ Hl; cbn [nth]; [lra|].
      rewrite Forall_forall in F. cbn in Hl. assert (In (nth j l 0) l) by (apply nth_In; lia). specialize (F _ H0). lra.
Qed.
Lemma count_below_spec l t : StronglySorted Rlt l -> let k := count_below l t in
  (k <= List.length l)%nat /\ (forall j, (j < k)%nat -> nth j l 0 < t) /\
  (forall j, (k <= j)%nat -> (j < List.length l)%nat -> t <= nth j l 0).
Proof.
  cbv zeta. induction 1 as [|a l H IH F]; cbn [count_below].
  - cbn. repeat split; lia.
  - destruct (Rlt_dec a t) as [L|L]; cbn [Nat.add List.length].
    + destruct IH as [I1 [I2 I3]]. split; [lia|]. split.
      * intros [|j] Hj; cbn [nth]; [exact L|]. apply I2. lia.
      * intros [|j] Hj Hl; [lia|]. cbn [nth]. apply I3; lia.
    + rewrite count_below_0 by (eapply Forall_impl; [|exact F]; cbv beta; intros; lra).
      split; [lia|]. split; [lia|]. intros [|j] _ Hl; cbn [nth]; [lra|].
      rewrite Forall_forall in F. assert (In (nth j l 0) l) by (apply nth_In; lia). specialize (F _ H0). lra.
Qed.
Lemma nth_removelast {A} (l : list A) d i : (S i < List.length l)%nat -> nth i (removelast l) d = nth i l d.
Proof.
  revert i. induction l as [|a l IH]; intros i Hi; [cbn in Hi; lia|]. destruct l as [|b l]; [cbn in Hi; lia|].
  change (removelast (a :: b :: l)) with (a :: removelast (b :: l)). destruct i; [reflexivity|]. cbn [nth].
  apply IH. cbn in *; lia.
Qed.
Lemma inner_nth (x : list R) j : (S (S j) < List.length x)%nat -> nth j (removelast (tl x)) 0 = nth (S j) x 0.
Proof. intros H. destruct x as [|a x]; [cbn in H; lia|]. cbn [tl nth]. apply nth_removelast. cbn in H. lia. Qed.
Lemma inner_length (x : list R) : List.length (removelast (tl x)) = (List.length x - 2)%nat.
Proof. destruct x as [|a [|b x]]; try reflexivity. cbn [tl]. rewrite removelast_firstn_len, firstn_length. cbn [List.length]. lia. Qed.
Lemma removelast_sorted l : StronglySorted Rlt l -> StronglySorted Rlt (removelast l).
Proof.
  induction 1 as [|a l H IH F]; [constructor|]. destruct l; [constructor|].
  change (removelast (a :: r :: l)) with (a :: removelast (r :: l)). constructor; [exact IH|]. now apply Forall_removelast.
Qed.
Lemma inner_sorted x : StronglySorted Rlt x -> StronglySorted Rlt (removelast (tl x)).
Proof. intros H. apply removelast_sorted. destruct H; [constructor|assumption]. Qed.
Lemma interval_upto x t : StronglySorted Rlt x -> (2 <= List.length x)%nat ->
  let k := count_upto (removelast (tl x)) t in
  (k <= List.length x - 2)%nat /\ (k = 0%nat \/ nth k x 0 <= t) /\ (k = (List.length x - 2)%nat \/ t < nth (S k) x 0).
Proof.
  intros H Hn k. destruct (count_upto_spec _ t (inner_sorted x H)) as [A [B C]]. fold k in A, B, C. rewrite inner_length in *.
  split; [lia|]. split.
  - destruct k as [|k']; [now left|right]. specialize (B k' ltac:(lia)). now rewrite inner_nth in B by lia.
  - destruct (Nat.eq_dec k (List.length x - 2)); [now left|right]. specialize (C k ltac:(lia) ltac:(lia)). now rewrite inner_nth in C by lia.
Qed.
Lemma interval_below x t : StronglySorted Rlt x -> (2 <= List.length x)%nat ->
  let k := count_below (removelast (tl x)) t in
  (k <= List.length x - 2)%nat /\ (k = 0%nat \/ nth k x 0 < t) /\ (k = (List.length x - 2)%nat \/ t <= nth (S k) x 0).
Proof.
  intros H Hn k. destruct (count_below_spec _ t (inner_sorted x H)) as [A [B C]]. fold k in A, B, C. rewrite inner_length in *.
  split; [lia|]. split.
  - destruct k as [|k']; [now left|right]. specialize (B k' ltac:(lia)). now rewrite inner_nth in B by lia.
  - destruct (Nat.eq_dec k (List.length x - 2)); [now left|right]. specialize (C k ltac:(lia) ltac:(lia)). now rewrite inner_nth in C by lia.
Qed.

(* ---- Hermite pieces in powers of t - x_i ---------------------------------------------------- *)
Definition hcol (x y yp : list R) (i : nat) : list R :=
  let h := gap x i in let m := secant x y i in let d0 := at_R yp i in let d1 := at_R yp (S i) in
  [(d0 + d1 - 2 * m) / h ^ 2; (3 * m - 2 * d0 - d1) / h; d0; at_R y i].
Definition hcols (x y yp : list R) : list (list R) := map (hcol x y yp) (seq 0 (List.length x - 1)).
Lemma hpiece_poly x y yp i t : gap x i <> 0 -> hermite_piece x y yp i t = peval (hcol x y yp i) (t - at_R x i).
Proof.
  intros H. unfold hermite_piece, bernstein, hcol, secant. cbn [peval List.length]. field. exact H.
Qed.
Lemma hcol_der x y yp i t : peval (polyder1 (hcol x y yp i)) t
  = 3 * ((at_R yp i + at_R yp (S i) - 2 * secant x y i) / gap x i ^ 2) * t ^ 2
    + 2 * ((3 * secant x y i - 2 * at_R yp i - at_R yp (S i)) / gap x i) * t + at_R yp i.
Proof. unfold hcol, polyder1. cbn [peval List.length Nat.sub countdown removelast map2 INR]. ring. Qed.
Lemma hcols_wf x y yp : StronglySorted Rlt x -> (2 <= List.length x)%nat -> well_formed (hcols x y yp) x.
Proof.
  intros H Hn. unfold hcols. split; [exact H|]. split; [rewrite map_length, seq_length; lia|]. split.
  - intros E. apply (f_equal (@List.length _)) in E. rewrite map_length, seq_length in E. cbn in E. lia.
  - apply Forall_forall. intros c Hc. apply in_map_iff in Hc as [i [<- _]]. discriminate.
Qed.
Lemma hcols_joins x y yp : StronglySorted Rlt x -> (2 <= List.length x)%nat -> joins x (hcols x y yp).
Proof.
  intros H Hn. apply joins_seq; [lia|]. intros i Hi. cbn [Nat.add]. change (nth (S i) x 0 - nth i x 0) with (gap x i).
  pose proof (gap_pos x i H ltac:(lia)). pose proof (gap_pos x (S i) H ltac:(lia)). unfold hcol, secant. cbn [peval List.length]. field. lra.
Qed.
Lemma hcols_joins1 x y yp : StronglySorted Rlt x -> (2 <= List.length x)%nat -> joins x (map polyder1 (hcols x y yp)).
Proof.
  intros H Hn. unfold hcols. rewrite map_map. apply joins_seq; [lia|]. intros i Hi. cbn [Nat.add]. change (nth (S i) x 0 - nth i x 0) with (gap x i).
  pose proof (gap_pos x i H ltac:(lia)). rewrite !hcol_der. field. split; [|lra]. pose proof (gap_pos x (S i) H ltac:(lia)). lra.
Qed.
Lemma joins_nth cs : forall bs i, joins bs cs -> List.length bs = S (List.length cs) -> (S i < List.length cs)%nat ->
  peval (nth i cs []) (nth (S i) bs 0 - nth i bs 0) = peval (nth (S i) cs []) 0.
Proof.
  induction cs as [|c cs IH]; intros bs i J Hl Hi; [cbn in Hi; lia|]. destruct bs as [|b0 [|b1 bs]]; try (cbn in Hl; lia).
  destruct cs as [|c' cs]; [cbn in Hi; lia|]. destruct J as [J0 J]. destruct i as [|i]; [exact J0|].
  apply (IH (b1 :: bs) i J); cbn in *; lia.
Qed.
(* the piece that counts, also at and beyond the ends *)
Lemma pfun_at cs : forall bs i x, well_formed cs bs -> joins bs cs -> (i < List.length cs)%nat ->
  (i = 0%nat \/ nth i bs 0 <= x) -> (S i = List.length cs \/ x <= nth (S i) bs 0) ->
  pfun bs cs x = peval (nth i cs []) (x - nth i bs 0).
Proof.
  induction cs as [|c cs IH]; intros bs i x W J Hi L R; [cbn in Hi; lia|].
  destruct W as [Hs [Hl [Hc Hf]]]. destruct bs as [|b0 [|b1 bs]]; try (cbn in Hl; lia).
  destruct cs as [|c' cs].
  - destruct i; [|cbn in Hi; lia]. reflexivity.
  - rewrite pfun_cons. destruct J as [J0 J]. destruct i as [|i].
    + destruct (Rle_dec x b1); [reflexivity|]. destruct R as [R|R]; [cbn in R; lia|]. cbn in R. lra.
    + assert (W' : well_formed (c' :: cs) (b1 :: bs)).
      { split; [now apply sorted_tail in Hs|]. split; [cbn in *; lia|]. split; [discriminate|]. now inversion Hf. }
      destruct L as [L|L]; [discriminate|]. change (nth (S i) (b0 :: b1 :: bs) 0) with (nth i (b1 :: bs) 0) in *.
      destruct (Rle_dec x b1) as [G|G].
      * assert (i = 0%nat) as ->.
        { destruct i as [|i]; [reflexivity|]. exfalso. assert (b1 < nth (S i) (b1 :: bs) 0); [|lra].
          apply (sorted_nth (b1 :: bs) (sorted_tail Hs) 0 (S i)); cbn in *; lia. }
        cbn [nth] in *. assert (x = b1) as -> by lra. rewrite J0. f_equal. ring.
      * apply (IH (b1 :: bs) i x W' J); [cbn in *; lia|right; exact L|]. destruct R as [R|R]; [left; cbn in *; lia|right; exact R].
Qed.
Lemma hcols_nth x y yp i : (S i < List.length x)%nat -> nth i (hcols x y yp) [] = hcol x y yp i.
Proof.
  intros H. unfold hcols. rewrite (nth_indep _ [] (hcol x y yp 0%nat)) by (rewrite map_length, seq_length; lia).
  rewrite map_nth, seq_nth by lia. reflexivity.
Qed.
Lemma hcols_length x y yp : List.length (hcols x y yp) = (List.length x - 1)%nat.
Proof. unfold hcols. now rewrite map_length, seq_length. Qed.
Lemma hermite_pfun x y yp t : StronglySorted Rlt x -> (2 <= List.length x)%nat -> hermite x y yp t = pfun x (hcols x y yp) t.
Proof.
  intros H Hn. unfold hermite. destruct (interval_upto x t H Hn) as [A [B C]].
  set (k := count_upto (removelast (tl x)) t) in *.
  rewrite hpiece_poly by (pose proof (gap_pos x k H ltac:(lia)); lra).
  rewrite (pfun_at (hcols x y yp) x k t).
  - now rewrite hcols_nth by lia.
  - now apply hcols_wf.
  - now apply hcols_joins.
  - rewrite hcols_length. lia.
  - exact B.
  - rewrite hcols_length. destruct C as [C|C]; [left; lia|right; lra].
Qed.
Definition hder (x y yp : list R) : R -> R := pfun x (map polyder1 (hcols x y yp)).
Lemma hermite_smooth x y yp : StronglySorted Rlt x -> (2 <= List.length x)%nat ->
  continuously_differentiable (hermite x y yp) (hder x y yp).
Proof.
  intros H Hn. split.
  - intros t. apply (derivable_pt_lim_ext (pfun x (hcols x y yp))); [intros; symmetry; now apply hermite_pfun|].
    apply pfun_derivable; [exact H|rewrite hcols_length; lia|now apply hcols_joins|now apply hcols_joins1].
  - apply pfun_continuous; [exact H|rewrite map_length, hcols_length; lia|now apply hcols_joins1].
Qed.
Lemma hder_piece x y yp i t : StronglySorted Rlt x -> (S i < List.length x)%nat -> nth i x 0 <= t <= nth (S i) x 0 ->
  hder x y yp t = peval (polyder1 (hcol x y yp i)) (t - nth i x 0).
Proof.
  intros H Hi Ht. unfold hder. assert (Hn : (2 <= List.length x)%nat) by lia.
  rewrite (pfun_at (map polyder1 (hcols x y yp)) x i t).
  - rewrite nth_map_polyder by (rewrite hcols_length; lia). now rewrite hcols_nth.
  - apply (wf_pieces (hcols x y yp)); [now apply hcols_wf|apply map_length|].
    apply Forall_forall. intros c Hc. apply in_map_iff in Hc as [c0 [<- Hc]]. apply in_map_iff in Hc as [j [<- _]]. discriminate.
  - now apply hcols_joins1.
  - rewrite map_length, hcols_length. lia.
  - right. lra.
  - right. lra.
Qed.
Lemma hermite_piece_eq x y yp i t : StronglySorted Rlt x -> (S i < List.length x)%nat -> nth i x 0 <= t <= nth (S i) x 0 ->
  hermite x y yp t = hermite_piece x y yp i t.
Proof.
  intros H Hi Ht. assert (Hn : (2 <= List.length x)%nat) by lia. rewrite hermite_pfun by assumption.
  rewrite (pfun_at (hcols x y yp) x i t).
  - rewrite hcols_nth by lia. rewrite hpiece_poly; [reflexivity|]. pose proof (gap_pos x i H ltac:(lia)). lra.
  - now apply hcols_wf.
  - now apply hcols_joins.
  - rewrite hcols_length. lia.
  - right; lra.
  - right; lra.
Qed.
Lemma knot_in_piece x i : StronglySorted Rlt x -> (2 <= List.length x)%nat -> (i < List.length x)%nat ->
  (i = 0%nat /\ nth 0 x 0 <= nth i x 0 <= nth 1 x 0) \/ (exists k, i = S k /\ nth k x 0 <= nth i x 0 <= nth (S k) x 0).
Proof.
  intros H Hn Hi. destruct i as [|i].
  - left. split; [reflexivity|]. pose proof (sorted_nth x H 0%nat 1%nat ltac:(lia) ltac:(lia)). lra.
  - right. exists i. split; [reflexivity|]. pose proof (sorted_nth x H i (S i) ltac:(lia) ltac:(lia)). lra.
Qed.
Lemma hermite_knots x y yp i : StronglySorted Rlt x -> (2 <= List.length x)%nat -> (i < List.length x)%nat ->
  hermite x y yp (nth i x 0) = nth i y 0 /\ hder x y yp (nth i x 0) = nth i yp 0.
Proof.
  intros H Hn Hi. destruct (knot_in_piece x i H Hn Hi) as [[-> K]|[k [-> K]]].
  - pose proof (gap_pos x 0%nat H ltac:(lia)) as G. rewrite (hermite_piece_eq x y yp 0%nat) by (auto; lia).
    rewrite (hder_piece x y yp 0%nat) by (auto; lia). rewrite hcol_der. unfold hermite_piece, bernstein, at_R in *. split; field; lra.
  - pose proof (gap_pos x k H ltac:(lia)) as G. rewrite (hermite_piece_eq x y yp k) by (auto; lia).
    rewrite (hder_piece x y yp k) by (auto; lia). rewrite hcol_der.
    change (nth (S k) x 0 - nth k x 0) with (gap x k). unfold hermite_piece, bernstein. change (nth (S k) x 0 - at_R x k) with (gap x k).
    unfold at_R in *. split; field; lra.
Qed.

(* ---- slopes in the box of the secant ------------------------------------------------------------ *)
Definition in_box (d m : R) : Prop := (0 <= m -> 0 <= d <= 3 * m) /\ (m <= 0 -> 3 * m <= d <= 0).
Lemma box_quadratic a b m t : 0 <= a <= 3 * m -> 0 <= b <= 3 * m -> 0 <= t <= 1 ->
  0 <= 3 * (a + b - 2 * m) * t ^ 2 + 2 * (3 * m - 2 * a - b) * t + a.
Proof.
  intros Ha Hb Ht.
  replace (3 * (a + b - 2 * m) * t ^ 2 + 2 * (3 * m - 2 * a - b) * t + a)
    with (a * (1 - t) ^ 2 + 2 * (3 * m - a - b) * (t * (1 - t)) + b * t ^ 2) by ring.
  assert (P : 0 <= t * (1 - t)) by nra.
  destruct (Rle_dec (a + b) (3 * m)) as [L|L].
  - pose proof (pow2_ge_0 t). pose proof (pow2_ge_0 (1 - t)).
    assert (0 <= a * (1 - t) ^ 2) by (apply Rmult_le_pos; lra). assert (0 <= b * t ^ 2) by (apply Rmult_le_pos; lra).
    assert (0 <= (3 * m - a - b) * (t * (1 - t))) by (apply Rmult_le_pos; lra). lra.
  - (* (1-t)^2 a + t^2 b - 2 c t(1-t) with c = a + b - 3m <= a, b *)
    set (c := a + b - 3 * m). assert (Hc : 0 < c) by (unfold c; lra). assert (c <= a) by (unfold c; lra). assert (c <= b) by (unfold c; lra).
    replace (2 * (3 * m - a - b) * (t * (1 - t))) with (- 2 * c * (t * (1 - t))) by (unfold c; ring).
    pose proof (pow2_ge_0 t). pose proof (pow2_ge_0 (1 - t)).
    assert (0 <= (a - c) * (1 - t) ^ 2) by (apply Rmult_le_pos; lra). assert (0 <= (b - c) * t ^ 2) by (apply Rmult_le_pos; lra).
    assert (0 <= c * (1 - t - t) ^ 2) by (apply Rmult_le_pos; [lra|apply pow2_ge_0]). nra.
Qed.
Lemma hder_scaled x y yp i t : 0 < gap x i -> peval (polyder1 (hcol x y yp i)) t
  = 3 * (at_R yp i + at_R yp (S i) - 2 * secant x y i) * (t / gap x i) ^ 2
    + 2 * (3 * secant x y i - 2 * at_R yp i - at_R yp (S i)) * (t / gap x i) + at_R yp i.
Proof. intros H. rewrite hcol_der. field. lra. Qed.
Lemma box_shape x y yp i : StronglySorted Rlt x -> (S i < List.length x)%nat ->
  in_box (nth i yp 0) (secant x y i) -> in_box (nth (S i) yp 0) (secant x y i) -> shape_preserving x y i (hermite x y yp).
Proof.
  intros H Hi B0 B1 s t Hs Hst Ht. assert (Hn : (2 <= List.length x)%nat) by lia.
  pose proof (gap_pos x i H Hi) as G. destruct (hermite_smooth x y yp H Hn) as [D _].
  assert (sec : secant x y i * gap x i = nth (S i) y 0 - nth i y 0) by (unfold secant, at_R in *; field; lra).
  destruct (Req_dec s t) as [->|N]; [split; intros; lra|].
  destruct (MVT_cor2 (hermite x y yp) (hder x y yp) s t ltac:(lra)) as [c [E Hc]]; [intros; apply D|].
  assert (T : 0 <= (c - nth i x 0) / gap x i <= 1).
  { change (nth i x 0) with (at_R x i) in *. change (nth (S i) x 0) with (at_R x (S i)) in *. unfold gap in *.
    assert (0 <= c - at_R x i <= at_R x (S i) - at_R x i) by lra. split.
    - apply Rmult_le_pos; [lra|]. left. now apply Rinv_0_lt_compat.
    - apply (Rmult_le_reg_r (at_R x (S i) - at_R x i)); [exact G|]. unfold Rdiv. rewrite Rmult_assoc, Rinv_l by lra. lra. }
  rewrite (hder_piece x y yp i) in E by (auto; lra). rewrite hder_scaled in E by exact G. unfold at_R in E.
  split; intros O.
  - assert (M : 0 <= secant x y i). { destruct (Rle_dec 0 (secant x y i)); [assumption|]. assert (secant x y i * gap x i < 0) by nra. lra. }
    pose proof (box_quadratic _ _ _ _ (proj1 B0 M) (proj1 B1 M) T) as Q.
    assert (0 <= (t - s)) by lra. pose proof (Rmult_le_pos _ _ Q H0). lra.
  - assert (M : secant x y i <= 0). { destruct (Rle_dec (secant x y i) 0); [assumption|]. assert (0 < secant x y i * gap x i) by nra. lra. }
    assert (Q0 : 0 <= - nth i yp 0 <= 3 * - secant x y i) by (destruct (proj2 B0 M); lra).
    assert (Q1 : 0 <= - nth (S i) yp 0 <= 3 * - secant x y i) by (destruct (proj2 B1 M); lra).
    pose proof (box_quadratic _ _ _ _ Q0 Q1 T) as Q. assert (0 <= (t - s)) by lra. pose proof (Rmult_le_pos _ _ Q H0). nra.
Qed.
