From Coq Require Import Reals Lra Lia Sorted.
From Verif Require Import Base PolyModel PolySpec PolyProofs PolyProofs2 PPModel PPSpec PPProofs PPProofs2
  SplineModel SplineProofs SlopesModel SlopesSpec SlopesProofs SlopesProofs2.
Local Open Scope R_scope.

(* ---- data on a line or a parabola -------------------------------------------------------------- *)
Lemma line_secant a b x y i : StronglySorted Rlt x -> on_line a b x y -> (S i < List.length x)%nat -> secant x y i = b.
Proof.
  intros H [_ L] Hi. pose proof (gap_pos x i H Hi) as G. unfold secant, gap, at_R in *. rewrite !L by lia. field. lra.
Qed.
Lemma edge_line h0 h1 b : 0 < h0 -> 0 < h1 -> edge_case h0 h1 b b = b.
Proof.
  intros. unfold edge_case. replace (((2 * h0 + h1) * b - h0 * b) / (h0 + h1)) with b by (field; lra).
  rewrite !req_refl. reflexivity.
Qed.
Lemma pchip_inner_line h0 h1 b : 0 < h0 -> 0 < h1 -> pchip_inner h0 h1 b b = b.
Proof.
  intros. unfold pchip_inner. rewrite req_refl. cbn [negb orb]. destruct (req b 0) eqn:E; cbn [orb].
  - apply req_true in E. now symmetry.
  - apply req_false in E. field. split; [exact E|]. lra.
Qed.
Lemma pchip_line a b x y i : StronglySorted Rlt x -> on_line a b x y -> (2 <= List.length x)%nat -> (i < List.length x)%nat -> pchip_at x y i = b.
Proof.
  intros H L Hn Hi. assert (G : forall k, (S k < List.length x)%nat -> 0 < gap x k) by (intros; now apply gap_pos).
  assert (M : forall k, (S k < List.length x)%nat -> secant x y k = b) by (intros; now apply (line_secant a)).
  unfold pchip_at, npts. destruct (Nat.eqb_spec (List.length x) 2); [apply M; lia|].
  destruct (Nat.eqb_spec i 0); [rewrite !M by lia; apply edge_line; apply G; lia|].
  destruct (Nat.eqb_spec i (List.length x - 1)); [rewrite !M by lia; apply edge_line; apply G; lia|].
  rewrite !M by lia. apply pchip_inner_line; apply G; lia.
Qed.
Lemma reflected_line a b x y inner i : StronglySorted Rlt x -> on_line a b x y -> (3 <= List.length x)%nat -> (i < List.length x)%nat ->
  (forall k, (1 <= k)%nat -> (S k < List.length x)%nat -> inner k = b) -> reflected_ends x y inner i = b.
Proof.
  intros H L Hn Hi K. assert (M : forall k, (S k < List.length x)%nat -> secant x y k = b) by (intros; now apply (line_secant a)).
  unfold reflected_ends, npts. destruct (Nat.eqb_spec (List.length x) 2); [lia|].
  destruct (Nat.eqb_spec i 0); [rewrite M, K by lia; ring|].
  destruct (Nat.eqb_spec i (List.length x - 1)); [rewrite M, K by lia; ring|]. apply K; lia.
Qed.
Lemma parabola_line a b x y i : StronglySorted Rlt x -> on_line a b x y -> (3 <= List.length x)%nat -> (i < List.length x)%nat -> parabola_at x y i = b.
Proof.
  intros H L Hn Hi. apply (reflected_line a); auto. intros k K1 K2. unfold parabola_inner. rewrite !(line_secant a b) by (auto; lia).
  pose proof (gap_pos x k H ltac:(lia)). pose proof (gap_pos x (k - 1) H ltac:(lia)). field. lra.
Qed.
Lemma stineman_den h0 h1 m0 m1 : 0 < h0 -> 0 < h1 -> 0 < h0 * h1 ^ 2 * (1 + m1 ^ 2) /\ 0 < h1 * h0 ^ 2 * (1 + m0 ^ 2).
Proof.
  intros. pose proof (pow2_ge_0 m0). pose proof (pow2_ge_0 m1).
  split; repeat apply Rmult_lt_0_compat; try lra; apply pow_lt; lra.
Qed.
Lemma stineman_line a b x y i : StronglySorted Rlt x -> on_line a b x y -> (3 <= List.length x)%nat -> (i < List.length x)%nat -> stineman_at x y i = b.
Proof.
  intros H L Hn Hi. assert (M : forall k, (S k < List.length x)%nat -> secant x y k = b) by (intros; now apply (line_secant a)).
  assert (Y : forall k, (k < List.length x)%nat -> reflected_ends x y (stineman_inner x y) k = b).
  { intros k Hk. apply (reflected_line a); auto. intros j J1 J2. unfold stineman_inner. rewrite !M by lia.
    pose proof (gap_pos x j H ltac:(lia)) as G1. pose proof (gap_pos x (j - 1) H ltac:(lia)) as G0.
    destruct (stineman_den _ _ b b G0 G1). cbv zeta. field. lra. }
  unfold stineman_at, npts. rewrite !Y by lia. unfold stineman_end. rewrite !M by lia.
  replace (b - b) with 0 by ring. rewrite !Rmult_0_r. destruct (Rle_dec 0 0); [|lra].
  destruct (Nat.eqb_spec i 0); [reflexivity|]. destruct (Nat.eqb_spec i (List.length x - 1)); reflexivity.
Qed.
Lemma fritsch_line a b x y i : StronglySorted Rlt x -> on_line a b x y -> (2 <= List.length x)%nat -> (i < List.length x)%nat -> fritsch_at x y i = b.
Proof.
  intros H L Hn Hi. assert (M : forall k, (S k < List.length x)%nat -> secant x y k = b) by (intros; now apply (line_secant a)).
  unfold fritsch_at, npts. rewrite !M by lia. rewrite !(pchip_line a b) by (auto; lia).
  destruct (Nat.eqb_spec i 0); [ring|]. destruct (Nat.eqb_spec i (List.length x - 1)); [|reflexivity].
  destruct (Nat.eqb_spec (List.length x) 2); ring.
Qed.
Lemma secant_line a b x y i : StronglySorted Rlt x -> on_line a b x y -> (2 <= List.length x)%nat -> (i < List.length x)%nat -> secant_at x y i = b.
Proof.
  intros H L Hn Hi. unfold secant_at, npts. destruct (Nat.eqb_spec i 0); [apply (line_secant a); auto; lia|].
  destruct (Nat.eqb_spec i (List.length x - 1)); [apply (line_secant a); auto; lia|]. rewrite !(line_secant a b) by (auto; lia). field.
Qed.
Lemma catmull_line a b x y i : StronglySorted Rlt x -> on_line a b x y -> (2 <= List.length x)%nat -> (i < List.length x)%nat -> catmull_at x y i = b.
Proof.
  intros H L Hn Hi. unfold catmull_at, npts. destruct (Nat.eqb_spec i 0); [apply (line_secant a); auto; lia|].
  destruct (Nat.eqb_spec i (List.length x - 1)); [apply (line_secant a); auto; lia|]. unfold at_R. destruct L as [_ L]. rewrite !L by lia.
  pose proof (sorted_nth x H (i - 1)%nat (i + 1)%nat ltac:(lia) ltac:(lia)). field. lra.
Qed.
Lemma akima_line a b x y i : StronglySorted Rlt x -> on_line a b x y -> (3 <= List.length x)%nat -> (i < List.length x)%nat -> akima_at x y i = b.
Proof.
  intros H L Hn Hi. assert (M : forall k, (S k < List.length x)%nat -> secant x y k = b) by (intros; now apply (line_secant a)).
  assert (E : forall k, (k <= List.length x + 2)%nat -> akima_ext x y k = b).
  { intros k Hk. unfold akima_ext, npts. destruct (Nat.eqb_spec k 0); [rewrite !M by lia; ring|].
    destruct (Nat.eqb_spec k 1); [rewrite !M by lia; ring|].
    destruct (Nat.eqb_spec k (List.length x + 1)); [rewrite !M by lia; ring|].
    destruct (Nat.eqb_spec k (List.length x + 2)); [rewrite !M by lia; ring|]. apply M; lia. }
  assert (D : forall k, (k <= List.length x + 1)%nat -> akima_dm x y k = 0).
  { intros k Hk. unfold akima_dm. rewrite !E by lia. replace (b - b) with 0 by ring. apply Rabs_R0. }
  assert (F : forall k, (k < List.length x)%nat -> akima_f12 x y k = 0) by (intros; unfold akima_f12; rewrite !D by lia; ring).
  assert (X : akima_max x y = 0).
  { unfold akima_max, npts. assert (forall l, (forall k, In k l -> (k < List.length x)%nat) ->
      fold_right (fun i v => Rmax (akima_f12 x y i) v) (akima_f12 x y 0) l = 0) as Z.
    { induction l as [|k l IH]; intros Hl; cbn [fold_right]; [apply F; lia|]. rewrite IH by (intros; apply Hl; now right).
      rewrite F by (apply Hl; now left). apply Rmax_left. lra. }
    apply Z. intros k Hk. apply in_seq in Hk. lia. }
  unfold akima_at. rewrite X, F by lia. destruct (Rlt_dec (1 / 1000000000 * 0) 0); [lra|]. rewrite !E by lia. field.
Qed.
Lemma steffen_line a b x y i : StronglySorted Rlt x -> on_line a b x y -> (3 <= List.length x)%nat -> (i < List.length x)%nat -> 0 <= b -> steffen_at x y i = b.
Proof.
  intros H L Hn Hi Hb. assert (G : forall k, (S k < List.length x)%nat -> 0 < gap x k) by (intros; now apply gap_pos).
  assert (M : forall k, (S k < List.length x)%nat -> secant x y k = b) by (intros; now apply (line_secant a)).
  assert (SE : forall h0 h1, 0 < h0 -> 0 < h1 -> steffen_end h0 h1 b b = b).
  { intros. unfold steffen_end. cbv zeta. replace (b * (1 + h0 / (h0 + h1)) - b * (h0 / (h0 + h1))) with b by ring.
    rewrite Rabs_right by lra. destruct Hb as [Hb|<-].
    - rewrite sgn_pos by assumption. rewrite Rmin_right by lra. field.
    - rewrite sgn_zero. ring. }
  unfold steffen_at, npts. destruct (Nat.eqb_spec i 0); [rewrite !M by lia; apply SE; apply G; lia|].
  destruct (Nat.eqb_spec i (List.length x - 1)); [rewrite !M by lia; apply SE; apply G; lia|].
  rewrite !M by lia. unfold steffen_inner. pose proof (G i ltac:(lia)) as G1. pose proof (G (i - 1)%nat ltac:(lia)) as G0.
  replace (b * gap x i + b * gap x (i - 1)) with (b * (gap x i + gap x (i - 1))) by ring.
  rewrite !(Rabs_right (b * _)) by (apply Rle_ge, Rmult_le_pos; lra). rewrite (Rabs_right b) by lra.
  replace (1 / 2 * (b * (gap x i + gap x (i - 1))) / (gap x i + gap x (i - 1))) with (b / 2) by (field; lra).
  rewrite (Rmin_left b b) by lra. destruct Hb as [Hb|<-].
  - rewrite sgn_pos by assumption. rewrite Rmin_right by lra. field.
  - rewrite sgn_zero. ring.
Qed.
Lemma map_seq_const (f : nat -> R) n c : (forall i, (i < n)%nat -> f i = c) -> map f (seq 0 n) = repeat c n.
Proof.
  intros H. apply nth_ext with (d := 0) (d' := 0); [now rewrite map_length, seq_length, repeat_length|].
  rewrite map_length, seq_length. intros i Hi. rewrite map_seq_nth by exact Hi. rewrite H by exact Hi.
  rewrite (nth_indep _ 0 c) by (now rewrite repeat_length). now rewrite nth_repeat.
Qed.
Lemma slopes_line a b x y m : StronglySorted Rlt x -> on_line a b x y -> (3 <= List.length x)%nat ->
  match m with Steffen => 0 <= b | Cardinal t => t = 0 | _ => True end ->
  slopes m false x y = Ok (repeat b (List.length x)).
Proof.
  intros H L Hn Hm. rewrite slopes_ok by (auto; try lia; destruct m; auto; lia). cbv zeta. f_equal.
  apply map_seq_const. intros i Hi. destruct m; cbn [slope_at].
  - now apply (parabola_line a). - now apply (secant_line a); auto; lia.
  - subst tension. unfold cardinal_at. rewrite (catmull_line a b) by (auto; lia). ring.
  - now apply (catmull_line a); auto; lia. - now apply (akima_line a). - now apply (pchip_line a); auto; lia.
  - now apply (stineman_line a). - now apply (steffen_line a). - now apply (fritsch_line a); auto; lia.
Qed.
Lemma quad_secant a b c x y i : StronglySorted Rlt x -> on_parabola a b c x y -> (S i < List.length x)%nat ->
  secant x y i = b + c * (nth i x 0 + nth (S i) x 0).
Proof.
  intros H [_ L] Hi. pose proof (gap_pos x i H Hi) as G. unfold secant, gap, at_R in *. rewrite !L by lia. field. lra.
Qed.
Lemma parabola_quad a b c x y : StronglySorted Rlt x -> on_parabola a b c x y -> (3 <= List.length x)%nat ->
  slopes Parabola false x y = Ok (map (fun t => b + 2 * c * t) x).
Proof.
  intros H L Hn. rewrite slopes_ok by (auto; lia). cbv zeta. f_equal.
  assert (I : forall k, (1 <= k)%nat -> (S k < List.length x)%nat -> parabola_inner x y k = b + 2 * c * nth k x 0).
  { intros k K1 K2. unfold parabola_inner. rewrite !(quad_secant a b c) by (auto; lia).
    pose proof (gap_pos x k H ltac:(lia)) as G1. pose proof (gap_pos x (k - 1) H ltac:(lia)) as G0. unfold gap, at_R in *.
    replace (S (k - 1)) with k in * by lia. field. lra. }
  apply nth_ext with (d := 0) (d' := b + 2 * c * 0); [now rewrite !map_length, seq_length|].
  rewrite map_length, seq_length. intros i Hi. rewrite map_seq_nth by exact Hi. rewrite (map_nth (fun t => b + 2 * c * t)).
  cbn [slope_at]. unfold parabola_at, reflected_ends, npts. destruct (Nat.eqb_spec (List.length x) 2); [lia|].
  destruct (Nat.eqb_spec i 0) as [->|]; [rewrite I, (quad_secant a b c) by (auto; lia); ring|].
  destruct (Nat.eqb_spec i (List.length x - 1)) as [->|].
  - rewrite I, (quad_secant a b c) by (auto; lia). replace (S (List.length x - 2)) with (List.length x - 1)%nat by lia. ring.
  - apply I; lia.
Qed.

(* ---- monotone = True ----------------------------------------------------------------------------- *)
Lemma upd_length {A} (l : list A) i v : (i < List.length l)%nat -> List.length (upd l i v) = List.length l.
Proof. intros H. unfold upd. rewrite app_length, firstn_length. cbn [List.length]. rewrite skipn_length. lia. Qed.
Lemma upd_nth (l : list R) i v j : (i < List.length l)%nat -> nth j (upd l i v) 0 = if (j =? i)%nat then v else nth j l 0.
Proof.
  intros H. unfold upd. assert (F : List.length (firstn i l) = i) by (rewrite firstn_length; lia).
  destruct (Nat.eqb_spec j i) as [->|N].
  - rewrite app_nth2 by lia. rewrite F, Nat.sub_diag. reflexivity.
  - destruct (Nat.lt_ge_cases j i).
    + rewrite app_nth1 by lia. rewrite <- (firstn_skipn i l) at 2. rewrite app_nth1 by lia. reflexivity.
    + rewrite app_nth2 by lia. rewrite F. destruct (j - i)%nat as [|k] eqn:E; [lia|]. cbn [nth].
      rewrite <- (firstn_skipn (S i) l) at 2. rewrite app_nth2 by (rewrite firstn_length; lia). rewrite firstn_length. f_equal. lia.
Qed.
Lemma zero_flat_length x y yp : List.length (zero_flat x y yp) = List.length x.
Proof. unfold zero_flat, npts. now rewrite map_length, seq_length. Qed.
Lemma zero_flat_nth x y yp i : (i < List.length x)%nat ->
  nth i (zero_flat x y yp) 0 = if ((i <? List.length x - 1)%nat && req (secant x y i) 0) || ((1 <=? i)%nat && req (secant x y (i - 1)) 0)
                               then 0 else nth i yp 0.
Proof. intros H. unfold zero_flat, npts. now rewrite map_seq_nth. Qed.
Definition tau (x y yp0 : list R) (i : nat) : R := 3 / sqrt (circle_dist x y yp0 i).
Lemma tau_range x y yp0 i : to_fix x y yp0 i = true -> 0 < tau x y yp0 i < 1 /\ secant x y i <> 0 /\ 9 < circle_dist x y yp0 i.
Proof.
  intros H. unfold to_fix in H. apply andb_true_iff in H as [H1 H2]. apply negb_true_iff, req_false in H1.
  unfold rlt in H2. destruct (Rlt_dec 9 (circle_dist x y yp0 i)) as [L|]; [|discriminate].
  assert (S3 : 3 < sqrt (circle_dist x y yp0 i)). { rewrite <- (sqrt_square 3) by lra. apply sqrt_lt_1; lra. }
  split; [|auto]. unfold tau. split; [apply Rdiv_lt_0_compat; lra|]. apply (Rmult_lt_reg_r (sqrt (circle_dist x y yp0 i))); [lra|].
  unfold Rdiv. rewrite Rmult_assoc, Rinv_l by lra. lra.
Qed.
(* value of entry j after the fixes of the intervals in seq a k, starting from l *)
Definition fixed (x y yp0 : list R) (l : list R) (a k : nat) : list R := fold_left (fix_interval x y yp0) (seq a k) l.
Lemma fixed_spec x y yp0 k : forall l, List.length l = List.length x -> (k <= List.length x - 1)%nat ->
  List.length (fixed x y yp0 l 0 k) = List.length x /\
  forall j, nth j (fixed x y yp0 l 0 k) 0 =
    if (j <? k)%nat && to_fix x y yp0 j then tau x y yp0 j * nth j yp0 0
    else if (1 <=? j)%nat && (j <=? k)%nat && to_fix x y yp0 (j - 1) then tau x y yp0 (j - 1) * nth j yp0 0
    else nth j l 0.
Proof.
  induction k as [|k IH]; intros l Hl Hk.
  - split; [exact Hl|]. intros j. cbn [fixed seq fold_left]. destruct (Nat.ltb_spec j 0); [lia|]. cbn [andb].
    destruct (Nat.leb_spec 1 j), (Nat.leb_spec j 0); cbn [andb]; try reflexivity; lia.
  - destruct (IH l Hl ltac:(lia)) as [L N]. unfold fixed in *. rewrite seq_S, fold_left_app. cbn [fold_left Nat.add].
    set (p := fold_left (fix_interval x y yp0) (seq 0 k) l) in *. unfold fix_interval.
    destruct (to_fix x y yp0 k) eqn:T.
    + destruct (tau_range x y yp0 k T) as [_ [M _]]. split; [rewrite !upd_length by (rewrite ?upd_length; lia); exact L|].
      intros j. rewrite upd_nth by (rewrite upd_length; lia). rewrite upd_nth by lia.
      fold (tau x y yp0 k).
      destruct (Nat.eqb_spec j (S k)) as [->|N1].
      * destruct (Nat.ltb_spec (S k) (S k)); [lia|]. cbn [andb]. destruct (Nat.leb_spec 1 (S k)); [|lia]. destruct (Nat.leb_spec (S k) (S k)); [|lia].
        replace (S k - 1)%nat with k by lia. rewrite T. cbn [andb]. unfold at_R. field. exact M.
      * destruct (Nat.eqb_spec j k) as [->|N2].
        -- destruct (Nat.ltb_spec k (S k)); [|lia]. rewrite T. cbn [andb]. unfold at_R. field. exact M.
        -- rewrite N. destruct (Nat.ltb_spec j k), (Nat.ltb_spec j (S k)), (Nat.leb_spec j k), (Nat.leb_spec j (S k)); try lia; reflexivity.
    + split; [exact L|]. intros j. rewrite N. destruct (Nat.eq_dec j (S k)) as [->|N1].
      * destruct (Nat.ltb_spec (S k) k), (Nat.ltb_spec (S k) (S k)), (Nat.leb_spec (S k) k), (Nat.leb_spec (S k) (S k)); try lia.
        cbn [andb]. rewrite andb_false_r. cbn [andb]. replace (S k - 1)%nat with k by lia. rewrite T. rewrite andb_false_r. reflexivity.
      * destruct (Nat.eq_dec j k) as [->|N2].
        -- rewrite T, !andb_false_r. destruct (Nat.leb_spec k k), (Nat.leb_spec k (S k)); try lia; reflexivity.
        -- destruct (Nat.ltb_spec j k), (Nat.ltb_spec j (S k)), (Nat.leb_spec j k), (Nat.leb_spec j (S k)); try lia; reflexivity.
Qed.
Lemma monotone_nth x y yp i : (i < List.length x)%nat ->
  let yp0 := zero_flat x y yp in
  nth i (make_monotone x y yp) 0 =
    if (i <? List.length x - 1)%nat && to_fix x y yp0 i then tau x y yp0 i * nth i yp0 0
    else if (1 <=? i)%nat && to_fix x y yp0 (i - 1) then tau x y yp0 (i - 1) * nth i yp0 0
    else nth i yp0 0.
Proof.
  intros Hi yp0. unfold make_monotone. fold yp0. unfold npts.
  destruct (fixed_spec x y yp0 (List.length x - 1) yp0 (zero_flat_length x y yp) ltac:(lia)) as [_ N]. unfold fixed in N. rewrite N.
  destruct (Nat.leb_spec i (List.length x - 1)); [|lia]. rewrite andb_true_r. reflexivity.
Qed.
Lemma monotone_length x y yp : (1 <= List.length x)%nat -> List.length (make_monotone x y yp) = List.length x.
Proof.
  intros H. unfold make_monotone. apply (fixed_spec x y (zero_flat x y yp) (npts x - 1)); [apply zero_flat_length|unfold npts; lia].
Qed.
(* every slope is the original one multiplied by a number between 0 and 1 *)
Lemma monotone_scales x y yp i : (i < List.length x)%nat ->
  exists c, 0 <= c <= 1 /\ nth i (make_monotone x y yp) 0 = c * nth i yp 0.
Proof.
  intros Hi. assert (Z : exists c, 0 <= c <= 1 /\ nth i (zero_flat x y yp) 0 = c * nth i yp 0).
  { rewrite zero_flat_nth by exact Hi. destruct (_ || _); [exists 0|exists 1]; split; try lra; ring. }
  destruct Z as [c [C E]]. rewrite monotone_nth by exact Hi. cbv zeta. set (yp0 := zero_flat x y yp) in *.
  destruct ((i <? List.length x - 1)%nat && to_fix x y yp0 i) eqn:T.
  - apply andb_true_iff in T as [_ T]. destruct (tau_range _ _ _ _ T) as [T1 _]. rewrite E. exists (tau x y yp0 i * c).
    split; [|ring]. split; [apply Rmult_le_pos; lra|]. rewrite <- (Rmult_1_l 1). apply Rmult_le_compat; lra.
  - destruct ((1 <=? i)%nat && to_fix x y yp0 (i - 1)) eqn:T'.
    + apply andb_true_iff in T' as [_ T']. destruct (tau_range _ _ _ _ T') as [T1 _]. rewrite E. exists (tau x y yp0 (i - 1) * c).
      split; [|ring]. split; [apply Rmult_le_pos; lra|]. rewrite <- (Rmult_1_l 1). apply Rmult_le_compat; lra.
    + exists c. auto.
Qed.
Lemma box_scale c d m : 0 <= c <= 1 -> in_box d m -> in_box (c * d) m.
Proof. intros C [A B]. split; intros Hm; [specialize (A Hm)|specialize (B Hm)]; split; nra. Qed.
Lemma slopes_length m mono x y yp : slopes m mono x y = Ok yp -> (2 <= List.length x)%nat.
Proof.
  unfold slopes, npts. destruct (exists_below _ _); [discriminate|]. destruct (Nat.ltb_spec (List.length x) 2); [discriminate|]. intros; lia.
Qed.
Lemma slopes_monotone m x y yp : slopes m false x y = Ok yp -> slopes m true x y = Ok (make_monotone x y yp).
Proof.
  unfold slopes. destruct (exists_below _ _); [discriminate|]. destruct (_ <? 2)%nat; [discriminate|]. destruct (_ && _); [discriminate|].
  intros E. now inversion E.
Qed.
Lemma nth_slopes m x y yp : slopes m false x y = Ok yp -> List.length yp = List.length x.
Proof.
  unfold slopes, npts. destruct (exists_below _ _); [discriminate|]. destruct (_ <? 2)%nat; [discriminate|]. destruct (_ && _); [discriminate|].
  intros E. inversion E. now rewrite map_length, seq_length.
Qed.
(* the circle of radius 3 lies in the square *)
Lemma circle_box a b m : m <> 0 -> 0 <= a / m -> 0 <= b / m -> (a / m) ^ 2 + (b / m) ^ 2 <= 9 -> in_box a m /\ in_box b m.
Proof.
  intros Hm A B D. set (p := a / m) in *. set (q := b / m) in *.
  assert (Ea : a = p * m) by (unfold p; field; exact Hm). assert (Eb : b = q * m) by (unfold q; field; exact Hm).
  assert (p <= 3) by nra. assert (q <= 3) by nra. clearbody p q. subst a b.
  destruct (Rtotal_order m 0) as [?|[?|?]]; [|contradiction|]; split; split; intros; split; nra.
Qed.
Lemma monotone_shape x y yp :
  StronglySorted Rlt x -> (2 <= List.length x)%nat ->
  (forall i, (S i < List.length x)%nat -> 0 <= nth i yp 0 * secant x y i /\ 0 <= nth (S i) yp 0 * secant x y i) ->
  (forall i, (S (S i) < List.length x)%nat -> too_steep x y yp i -> ~ too_steep x y yp (S i)) ->
  forall i, (S i < List.length x)%nat -> shape_preserving x y i (hermite x y (make_monotone x y yp)).
Proof.
  intros H Hn Sg Iso i Hi. set (yp0 := zero_flat x y yp).
  assert (Z0 : forall j, (j < List.length x)%nat -> exists c, (c = 0 \/ c = 1) /\ nth j yp0 0 = c * nth j yp 0).
  { intros j Hj. unfold yp0. rewrite zero_flat_nth by exact Hj. destruct (_ || _); [exists 0|exists 1]; split; auto; ring. }
  assert (Zflat : forall j, (S j < List.length x)%nat -> secant x y j = 0 -> nth j yp0 0 = 0 /\ nth (S j) yp0 0 = 0).
  { intros j Hj E. unfold yp0. rewrite !zero_flat_nth by lia. rewrite E, req_refl. destruct (Nat.ltb_spec j (List.length x - 1)); [|lia]. cbn [andb orb].
    split; [reflexivity|]. replace (S j - 1)%nat with j by lia. rewrite E, req_refl. cbn [andb]. rewrite orb_true_r. reflexivity. }
  assert (P0 : forall j, (S j < List.length x)%nat -> secant x y j <> 0 -> 0 <= nth j yp0 0 / secant x y j /\ 0 <= nth (S j) yp0 0 / secant x y j).
  { assert (Q : forall a m, m <> 0 -> 0 <= a * m -> 0 <= a / m).
    { intros a m Hm Hp. replace (a / m) with (a * m * / (m * m)) by (field; exact Hm).
      apply Rmult_le_pos; [exact Hp|]. left. apply Rinv_0_lt_compat. nra. }
    intros j Hj Hm. destruct (Sg j Hj) as [S1 S2]. destruct (Z0 j ltac:(lia)) as [c [C E]]. destruct (Z0 (S j) ltac:(lia)) as [c' [C' E']].
    rewrite E, E'. split; apply Q; auto; destruct C, C'; subst; lra. }
  assert (Fx : forall j, (S j < List.length x)%nat -> to_fix x y yp0 j = true -> too_steep x y yp j).
  { intros j Hj T. destruct (tau_range _ _ _ _ T) as [_ [M D]]. split; [exact M|]. eapply Rlt_le_trans; [exact D|]. unfold circle_dist, at_R.
    destruct (Z0 j ltac:(lia)) as [c [C E]]. destruct (Z0 (S j) ltac:(lia)) as [c' [C' E']]. rewrite E, E'.
    assert (K : forall c a, c = 0 \/ c = 1 -> (c * a / secant x y j) ^ 2 <= (a / secant x y j) ^ 2).
    { intros d a [->| ->]; [|right; f_equal; lra]. replace ((0 * a / secant x y j) ^ 2) with 0 by (unfold Rdiv; ring). apply pow2_ge_0. }
    apply Rplus_le_compat; apply K; assumption. }
  assert (NF : forall j, (S j < List.length x)%nat -> to_fix x y yp0 j = false -> in_box (nth j yp0 0) (secant x y j) /\ in_box (nth (S j) yp0 0) (secant x y j)).
  { intros j Hj T. destruct (Req_dec (secant x y j) 0) as [E|N].
    - destruct (Zflat j Hj E) as [-> ->]. split; apply box_zero.
    - unfold to_fix in T. destruct (req (secant x y j) 0) eqn:R; [apply req_true in R; contradiction|]. cbn [negb andb] in T.
      unfold rlt in T. destruct (Rlt_dec 9 (circle_dist x y yp0 j)) as [|NL]; [discriminate|]. destruct (P0 j Hj N).
      apply circle_box; auto. unfold circle_dist, at_R in NL. lra. }
  assert (FX : forall j, (S j < List.length x)%nat -> to_fix x y yp0 j = true ->
     in_box (tau x y yp0 j * nth j yp0 0) (secant x y j) /\ in_box (tau x y yp0 j * nth (S j) yp0 0) (secant x y j)).
  { intros j Hj T. destruct (tau_range _ _ _ _ T) as [T1 [M D]]. destruct (P0 j Hj M) as [P1 P2].
    assert (forall a, tau x y yp0 j * a / secant x y j = tau x y yp0 j * (a / secant x y j)) as F by (intros; unfold Rdiv; ring).
    apply circle_box; [exact M|rewrite F; apply Rmult_le_pos; lra|rewrite F; apply Rmult_le_pos; lra|]. rewrite !F.
    replace ((tau x y yp0 j * (nth j yp0 0 / secant x y j)) ^ 2 + (tau x y yp0 j * (nth (S j) yp0 0 / secant x y j)) ^ 2)
      with (tau x y yp0 j ^ 2 * circle_dist x y yp0 j) by (unfold circle_dist, at_R; ring).
    unfold tau. assert (SQ : sqrt (circle_dist x y yp0 j) ^ 2 = circle_dist x y yp0 j) by (apply pow2_sqrt; lra).
    assert (0 < sqrt (circle_dist x y yp0 j)) by (apply sqrt_lt_R0; lra).
    rewrite <- SQ at 2. right. field. lra. }
  assert (Iso0 : forall j, (S (S j) < List.length x)%nat -> to_fix x y yp0 j = true -> to_fix x y yp0 (S j) = false).
  { intros j Hj T. destruct (to_fix x y yp0 (S j)) eqn:T'; [|reflexivity]. exfalso. apply (Iso j Hj); apply Fx; auto; lia. }
  assert (SC : forall k d m, to_fix x y yp0 k = true -> in_box d m -> in_box (tau x y yp0 k * d) m).
  { intros k d m T B. destruct (tau_range _ _ _ _ T) as [T1 _]. apply box_scale; [lra|exact B]. }
  apply box_shape; auto; rewrite monotone_nth by lia; cbv zeta; fold yp0.
  - destruct (Nat.ltb_spec i (List.length x - 1)); [|lia]. cbn [andb].
    destruct (to_fix x y yp0 i) eqn:T; [now apply FX|].
    destruct ((1 <=? i)%nat && to_fix x y yp0 (i - 1)) eqn:T'; [|now apply NF].
    apply andb_true_iff in T' as [_ T']. apply SC; [exact T'|now apply NF].
  - destruct ((S i <? List.length x - 1)%nat && to_fix x y yp0 (S i)) eqn:T.
    + apply andb_true_iff in T as [L T]. apply Nat.ltb_lt in L. apply SC; [exact T|]. apply NF; [exact Hi|].
      destruct (to_fix x y yp0 i) eqn:T'; [|reflexivity]. rewrite (Iso0 i ltac:(lia) T') in T. discriminate.
    + destruct (Nat.leb_spec 1 (S i)); [|lia]. cbn [andb]. replace (S i - 1)%nat with i by lia.
      destruct (to_fix x y yp0 i) eqn:T'; [now apply FX|now apply NF].
Qed.
