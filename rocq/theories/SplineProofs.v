From Coq Require Import Reals Lra Lia Sorted.
From Verif Require Import Base PolyModel PolySpec PolyProofs PolyProofs2 OrthoModel OrthoProofs
  PPModel PPSpec PPProofs PPProofs2 SplineModel SplineSpec.
Local Open Scope R_scope.

(* ---- banded sums ------------------------------------------------------------------------- *)
Lemma vsum_pick_at N i f : vsum N (fun j => if (i =? j)%nat then f j else 0) = if (i <? N)%nat then f i else 0.
Proof.
  induction N as [|N IH]; [reflexivity|]. cbn [vsum]. rewrite IH.
  destruct (Nat.eqb_spec i N) as [->|Hne].
  - replace (N <? N)%nat with false by (symmetry; apply Nat.ltb_ge; lia).
    replace (N <? S N)%nat with true by (symmetry; apply Nat.ltb_lt; lia). ring.
  - destruct (Nat.ltb_spec i N); destruct (Nat.ltb_spec i (S N)); try lia; ring.
Qed.
Lemma vsum_pick_down N i f : vsum N (fun j => if (i =? S j)%nat then f j else 0)
  = match i with O => 0 | S i' => if (i' <? N)%nat then f i' else 0 end.
Proof.
  destruct i as [|i]; [apply vsum_0; reflexivity|]. rewrite <- vsum_pick_at. apply vsum_ext. reflexivity.
Qed.
Lemma vsum_pick_down2 N i f : vsum N (fun j => if (i =? S (S j))%nat then f j else 0)
  = match i with S (S i') => if (i' <? N)%nat then f i' else 0 | _ => 0 end.
Proof.
  destruct i as [|[|i]]; [apply vsum_0; reflexivity|apply vsum_0; reflexivity|].
  rewrite <- vsum_pick_at. apply vsum_ext. reflexivity.
Qed.
Lemma eqb_sym_if (a b : nat) (u v : R) : (if (a =? b)%nat then u else v) = (if (b =? a)%nat then u else v).
Proof. now rewrite Nat.eqb_sym. Qed.

Lemma R_row x i N u : (i < N)%nat -> N = (List.length x - 2)%nat ->
  let U := padded (List.length x) u in
  vsum N (fun j => ss_R x i j * u j) = gap x i * U i + 2 * (gap x i + gap x (S i)) * U (S i) + gap x (S i) * U (S (S i)).
Proof.
  intros Hi HN U.
  rewrite (vsum_ext N _ (fun j => (if (i =? S j)%nat then gap x (1 + j) * u j else 0)
    + (if (i =? j)%nat then 2 * (gap x j + gap x (1 + j)) * u j else 0) + (if (S i =? j)%nat then gap x j * u j else 0))).
  2:{ intros j _. unfold ss_R. destruct (Nat.eqb_spec i (S j)); destruct (Nat.eqb_spec i j); destruct (Nat.eqb_spec (S i) j); try lia; ring. }
  rewrite !vsum_add, vsum_pick_down, !vsum_pick_at. unfold U, padded. rewrite <- HN.
  replace (i <? N)%nat with true by (symmetry; apply Nat.ltb_lt; lia). cbn [Nat.add].
  assert (E : match i with O => 0 | S i' => if (i' <? N)%nat then gap x (S i') * u i' else 0 end
    = gap x i * match i with O => 0 | S i' => if (i' <? N)%nat then u i' else 0 end).
  { destruct i as [|i]; [ring|]. destruct (Nat.ltb_spec i N); [ring|lia]. }
  rewrite E. destruct (S i <? N)%nat; ring.
Qed.
Lemma Q_row x k u : (3 <= List.length x)%nat -> (k < List.length x)%nat ->
  vsum (List.length x - 2) (fun j => ss_Q x k j * u j) = ss_Qu x u k.
Proof.
  intros Hn Hk. set (n := List.length x) in *. set (N := (n - 2)%nat).
  rewrite (vsum_ext N _ (fun j => (if (k =? j)%nat then / gap x j * u j else 0)
    + (if (k =? S j)%nat then - (/ gap x j + / gap x (1 + j)) * u j else 0) + (if (k =? S (S j))%nat then / gap x (1 + j) * u j else 0))).
  2:{ intros j _. unfold ss_Q. destruct (Nat.eqb_spec k j); destruct (Nat.eqb_spec k (S j)); destruct (Nat.eqb_spec k (S (S j))); try lia; ring. }
  rewrite !vsum_add, vsum_pick_at, vsum_pick_down, vsum_pick_down2. cbn [Nat.add].
  unfold ss_Qu, ss_g. fold n. unfold padded. fold N.
  destruct k as [|[|k]].
  - destruct (Nat.ltb_spec 0 N); destruct (Nat.ltb_spec 0 (n - 1)); try lia; ring.
  - destruct (Nat.ltb_spec 0 N); destruct (Nat.ltb_spec 1 (n - 1)); try lia; destruct (Nat.ltb_spec 1 N); try lia; ring.
  - destruct (Nat.ltb_spec k N); try lia. destruct (Nat.ltb_spec (S k) N), (Nat.ltb_spec (S (S k)) N), (Nat.ltb_spec (S (S k)) (n - 1)); try lia; ring.
Qed.
Lemma Q_col x i f : (S (S i) < List.length x)%nat ->
  vsum (List.length x) (fun k => ss_Q x k i * f k)
  = / gap x i * f i - (/ gap x i + / gap x (S i)) * f (S i) + / gap x (S i) * f (S (S i)).
Proof.
  intros H. rewrite (vsum_ext _ _ (fun k => (if (i =? k)%nat then / gap x i * f k else 0)
    + (if (S i =? k)%nat then - (/ gap x i + / gap x (S i)) * f k else 0) + (if (S (S i) =? k)%nat then / gap x (S i) * f k else 0))).
  2:{ intros k _. unfold ss_Q. destruct (Nat.eqb_spec i k), (Nat.eqb_spec (S i) k), (Nat.eqb_spec (S (S i)) k),
        (Nat.eqb_spec k i), (Nat.eqb_spec k (S i)), (Nat.eqb_spec k (S (S i))); try lia; cbn [Nat.add]; ring. }
  rewrite !vsum_add, !vsum_pick_at.
  destruct (Nat.ltb_spec i (List.length x)); [|lia]. destruct (Nat.ltb_spec (S i) (List.length x)); [|lia].
  destruct (Nat.ltb_spec (S (S i)) (List.length x)); [|lia]. ring.
Qed.
Lemma vsum_exchange N M f : vsum N (fun i => vsum M (fun j => f i j)) = vsum M (fun j => vsum N (fun i => f i j)).
Proof.
  induction N as [|N IH]; cbn [vsum]; [symmetry; apply vsum_0; reflexivity|].
  rewrite IH, <- vsum_add. reflexivity.
Qed.
Lemma QDQ_row x var i u : (3 <= List.length x)%nat -> (S (S i) < List.length x)%nat ->
  let q k := var k * ss_Qu x u k in
  vsum (List.length x - 2) (fun j => ss_QDQ x var i j * u j)
  = / gap x i * q i - (/ gap x i + / gap x (S i)) * q (S i) + / gap x (S i) * q (S (S i)).
Proof.
  intros Hn Hi q. rewrite <- (Q_col x i q Hi).
  rewrite (vsum_ext _ _ (fun j => vsum (List.length x) (fun k => ss_Q x k i * var k * (ss_Q x k j * u j)))).
  2:{ intros j _. unfold ss_QDQ. rewrite Rmult_comm, <- vsum_scal. apply vsum_ext. intros. ring. }
  rewrite vsum_exchange. apply vsum_ext. intros k Hk. rewrite vsum_scal, Q_row by assumption. unfold q. ring.
Qed.
Lemma R_sym x i j : ss_R x i j = ss_R x j i.
Proof.
  unfold ss_R. destruct (Nat.eqb_spec i (S j)), (Nat.eqb_spec i j), (Nat.eqb_spec (S i) j), (Nat.eqb_spec j (S i)), (Nat.eqb_spec j i), (Nat.eqb_spec (S j) i); try lia; subst; reflexivity.
Qed.
Lemma QDQ_sym x var i j : ss_QDQ x var i j = ss_QDQ x var j i.
Proof. unfold ss_QDQ. apply vsum_ext. intros. ring. Qed.
Lemma system_row x y var p s : (3 <= List.length x)%nat -> solves (List.length x - 2) (ss_matrix x var p) (ss_rhs x y) s ->
  forall i, (S (S i) < List.length x)%nat ->
  let u := ss_u s in let U := padded (List.length x) u in let q k := var k * ss_Qu x u k in
  6 * (1 - p) * (/ gap x i * q i - (/ gap x i + / gap x (S i)) * q (S i) + / gap x (S i) * q (S (S i)))
  + p * (gap x i * U i + 2 * (gap x i + gap x (S i)) * U (S i) + gap x (S i) * U (S (S i)))
  = secant x y (S i) - secant x y i.
Proof.
  intros Hn HS i Hi u U q. specialize (HS i ltac:(lia)). unfold ss_rhs in HS. rewrite <- HS. unfold q.
  rewrite <- (QDQ_row x var i u Hn Hi). unfold U. rewrite <- (R_row x i (List.length x - 2) u) by lia.
  rewrite <- !vsum_scal, <- vsum_add. apply vsum_ext. intros j _.
  unfold ss_matrix, ss_QQ. rewrite (QDQ_sym x var j i), (R_sym x j i). unfold u, ss_u. ring.
Qed.

(* ---- the pieces fit together ------------------------------------------------------------- *)
Lemma ss_c_U n p u i : ss_c n p u i = 3 * p * padded n u i.
Proof. destruct i as [|i]; cbn [ss_c padded]; [ring|]. destruct (i <? n - 2)%nat; ring. Qed.
Lemma col_value x y var p u i t : peval (ss_col x y var p u i) t
  = ss_d x p u i * t ^ 3 + ss_c (List.length x) p u i * t ^ 2 + ss_b x y var p u i * t + ss_a x y var p u i.
Proof. unfold ss_col. cbn [peval List.length]. ring. Qed.
Lemma col_der1 x y var p u i t : peval (polyder1 (ss_col x y var p u i)) t
  = 3 * ss_d x p u i * t ^ 2 + 2 * ss_c (List.length x) p u i * t + ss_b x y var p u i.
Proof. unfold ss_col, polyder1. cbn [peval List.length Nat.sub countdown removelast map2 INR]. ring. Qed.
Lemma col_der2 x y var p u i t : peval (polyder1 (polyder1 (ss_col x y var p u i))) t
  = 6 * ss_d x p u i * t + 2 * ss_c (List.length x) p u i.
Proof. unfold ss_col, polyder1. cbn [peval List.length Nat.sub countdown removelast map2 INR]. ring. Qed.
Lemma join_value x y var p u i : gap x i <> 0 ->
  peval (ss_col x y var p u i) (gap x i) = ss_a x y var p u (S i).
Proof. intros H. rewrite col_value. unfold ss_b. field. exact H. Qed.
Lemma join_second x y var p u i : gap x i <> 0 ->
  peval (polyder1 (polyder1 (ss_col x y var p u i))) (gap x i) = 2 * ss_c (List.length x) p u (S i).
Proof. intros H. rewrite col_der2. unfold ss_d. field. exact H. Qed.
Lemma join_first x y var p s i : (3 <= List.length x)%nat -> (S (S i) < List.length x)%nat -> p <= 1 ->
  gap x i <> 0 -> gap x (S i) <> 0 -> solves (List.length x - 2) (ss_matrix x var p) (ss_rhs x y) s ->
  peval (polyder1 (ss_col x y var p (ss_u s) i)) (gap x i) = ss_b x y var p (ss_u s) (S i).
Proof.
  intros Hn Hi Hp H1 H2 HS. pose proof (system_row x y var p s Hn HS i Hi) as E. cbv zeta in E.
  set (u := ss_u s) in *. rewrite col_der1. unfold ss_b, ss_d. rewrite !ss_c_U.
  set (U := padded (List.length x) u) in *. unfold secant in E.
  assert (A : (ss_a x y var p u (S (S i)) - ss_a x y var p u (S i)) / gap x (S i)
     - (ss_a x y var p u (S i) - ss_a x y var p u i) / gap x i
    = p * (gap x i * U i + 2 * (gap x i + gap x (S i)) * U (S i) + gap x (S i) * U (S (S i)))).
  { unfold ss_a. destruct (Rlt_dec p 1) as [L|L].
    - set (q0 := var i * ss_Qu x u i) in *. set (q1 := var (S i) * ss_Qu x u (S i)) in *. set (q2 := var (S (S i)) * ss_Qu x u (S (S i))) in *.
      apply Rplus_eq_reg_l with (6 * (1 - p) * (/ gap x i * q0 - (/ gap x i + / gap x (S i)) * q1 + / gap x (S i) * q2)).
      rewrite E. field. split; assumption.
    - replace (1 - p) with 0 in E by lra. rewrite Rmult_0_r, Rmult_0_l, Rplus_0_l in E. rewrite <- E. reflexivity. }
  apply Rminus_diag_uniq.
  match goal with |- ?L = 0 => replace L with
    (p * (gap x i * U i + 2 * (gap x i + gap x (S i)) * U (S i) + gap x (S i) * U (S (S i)))
     - ((ss_a x y var p u (S (S i)) - ss_a x y var p u (S i)) / gap x (S i) - (ss_a x y var p u (S i) - ss_a x y var p u i) / gap x i))
    by (field; split; assumption) end.
  rewrite A. ring.
Qed.
Lemma joins_seq (f : nat -> list R) m : forall k bs, List.length bs = S m ->
  (forall i, (S i < m)%nat -> peval (f (k + i)%nat) (nth (S i) bs 0 - nth i bs 0) = peval (f (k + S i)%nat) 0) ->
  joins bs (map f (seq k m)).
Proof.
  induction m as [|m IH]; intros k bs Hl H; destruct bs as [|b0 [|b1 bs]]; try (cbn in Hl; lia); [exact I|].
  destruct m as [|m]; [exact I|]. cbn [seq map joins]. split.
  - specialize (H 0%nat ltac:(lia)). cbn [nth] in H. rewrite Nat.add_0_r in H. rewrite H. f_equal. f_equal. lia.
  - apply (IH (S k) (b1 :: bs)); [cbn in *; lia|]. intros i Hi. specialize (H (S i) ltac:(lia)).
    replace (S k + i)%nat with (k + S i)%nat by lia. replace (S k + S i)%nat with (k + S (S i))%nat by lia. exact H.
Qed.
Lemma sorted_nth bs : StronglySorted Rlt bs -> forall i j, (i < j)%nat -> (j < List.length bs)%nat -> nth i bs 0 < nth j bs 0.
Proof.
  induction 1 as [|b bs H IH F]; intros i j H1 H2; [cbn in H2; lia|]. destruct j as [|j]; [lia|]. cbn [nth].
  destruct i as [|i]; [|apply IH; cbn in H2; lia]. rewrite Forall_forall in F. apply F, nth_In. cbn in H2. lia.
Qed.
Lemma gap_pos x i : StronglySorted Rlt x -> (S i < List.length x)%nat -> 0 < gap x i.
Proof. intros H Hi. unfold gap, at_R. pose proof (sorted_nth x H i (S i) ltac:(lia) Hi). lra. Qed.
Lemma exists_below_false f n : exists_below f n = false <-> forall i, (i < n)%nat -> f i = false.
Proof.
  induction n as [|n IH]; cbn; [split; [lia|reflexivity]|]. rewrite orb_false_iff, IH. split.
  - intros [A B] i Hi. destruct (Nat.eq_dec i n) as [->|]; [exact A|apply B; lia].
  - intros H. split; [apply H; lia|]. intros i Hi. apply H. lia.
Qed.
Lemma exists_below_true f n : exists_below f n = true <-> exists i, (i < n)%nat /\ f i = true.
Proof.
  induction n as [|n IH]; cbn; [split; [discriminate|intros [i [H _]]; lia]|]. rewrite orb_true_iff, IH. split.
  - intros [A|[i [A B]]]; [exists n; auto|exists i; auto].
  - intros [i [A B]]. destruct (Nat.eq_dec i n) as [->|]; [now left|right; exists i; split; [lia|exact B]].
Qed.
Lemma spacing_sorted x y : StronglySorted Rlt x -> ss_spacing x y = Ok (x, y).
Proof.
  intros H. unfold ss_spacing. replace (exists_below _ _) with false; [reflexivity|]. symmetry. apply exists_below_false.
  intros i Hi. unfold rlt. pose proof (gap_pos x i H ltac:(lia)). destruct (Rlt_dec (gap x i) 0); [lra|reflexivity].
Qed.
Lemma ss_p_range x var p : 0 <= ss_p x var p <= 1.
Proof.
  assert (E : 0 <= ss_estimate_p x var <= 1).
  { unfold ss_estimate_p, clip. cbv zeta. set (v := 1 / _). split.
    - apply Rmin_glb; [apply Rmax_r|lra].
    - apply Rmin_r. }
  destruct p as [p|]; [|exact E]. unfold ss_p. destruct (Rlt_dec p 0); [exact E|]. destruct (Rlt_dec 1 p); [exact E|lra].
Qed.
Lemma pfun_last cs bs : well_formed cs bs -> pfun bs cs (last bs 0) = peval (last cs []) (last bs 0 - nth (List.length bs - 2) bs 0).
Proof.
  intros W. pose proof W as [Hs [Hl [Hc Hf]]].
  assert (Hn : (0 < List.length cs)%nat) by (destruct cs; [congruence|cbn; lia]).
  assert (E : forall {A} (l : list A) d, l <> [] -> last l d = nth (List.length l - 1) l d).
  { clear. intros A l d. induction l as [|a l IH]; [congruence|]. intros _. destruct l as [|b l]; [reflexivity|].
    change (last (a :: b :: l) d) with (last (b :: l) d). rewrite IH by discriminate. cbn [List.length].
    replace (S (S (List.length l)) - 1)%nat with (S (S (List.length l) - 1))%nat by lia. reflexivity. }
  rewrite (E _ cs []) by exact Hc. rewrite (E _ bs 0) by (intros ->; cbn in Hl; lia).
  rewrite (pfun_piece cs bs (List.length cs - 1)).
  - replace (List.length bs - 2)%nat with (List.length cs - 1)%nat by lia. reflexivity.
  - exact W.
  - lia.
  - replace (S (List.length cs - 1)) with (List.length bs - 1)%nat by lia. split; [|lra]. apply sorted_nth; [exact Hs|lia|lia].
Qed.
(* a twice joined piecewise polynomial that is flat at both ends stays smooth when it is
   extended by its tangents *)
Lemma extrapolate_smooth cs bs fl k : well_formed cs bs -> Forall (fun c => List.length c = (k + 3)%nat) cs ->
  joins bs cs -> joins bs (map polyder1 cs) -> joins bs (map polyder1 (map polyder1 cs)) ->
  peval (polyder1 (polyder1 (hd [] cs))) 0 = 0 ->
  peval (polyder1 (polyder1 (last cs []))) (last bs 0 - nth (List.length bs - 2) bs 0) = 0 ->
  exists p q F F2, pp_new cs bs fl = Ok p /\ pp_linear_extrapolate p = Ok q /\
   (forall t, pp_call q t = Ok (F t)) /\ twice_differentiable F F2 /\
   (forall t, between_breaks bs t -> F t = pfun bs cs t) /\
   (forall t, F2 t = if Rle_dec t (hd 0 bs) then 0 else if Rle_dec t (last bs 0) then pfun bs (map polyder1 (map polyder1 cs)) t else 0).
Proof.
  intros W Hk J0 J1 J2 B0 BN. destruct (extrapolate_spec cs bs fl k W Hk) as [p [q [d0 [dN [E1 [E2 [D0 [DN V]]]]]]]].
  pose proof W as [Hs [Hl [Hc Hf]]].
  set (b0 := hd 0 bs) in *. set (bN := last bs 0) in *.
  assert (Wk : forall f, (forall c, List.length c = (k + 3)%nat -> f c <> []) -> well_formed (map f cs) bs).
  { intros f Hf'. apply (wf_pieces cs); [exact W|apply map_length|]. apply Forall_map. eapply Forall_impl; [|exact Hk]. exact Hf'. }
  assert (L1 : forall c, List.length (polyder1 c) = (List.length c - 1)%nat).
  { intros c. unfold polyder1. rewrite map2_length, countdown_length, removelast_length. lia. }
  assert (W1 : well_formed (map polyder1 cs) bs).
  { apply Wk. intros c Hc'. apply polyder1_nonempty. lia. }
  assert (W2 : well_formed (map polyder1 (map polyder1 cs)) bs).
  { rewrite map_map. apply Wk. intros c Hc' E. apply (f_equal (@List.length R)) in E. rewrite !L1 in E. cbn in E. lia. }
  set (f0 := pfun bs cs). set (f1 := pfun bs (map polyder1 cs)). set (f2 := pfun bs (map polyder1 (map polyder1 cs))).
  set (v0 := peval (hd [] cs) 0) in *. set (vN := peval (last cs []) (bN - nth (List.length bs - 2) bs 0)) in *.
  assert (Hmap : forall (f : list R -> list R) l, f [] = [] -> hd [] (map f l) = f (hd [] l) /\ last (map f l) [] = f (last l [])).
  { intros f l Hf0. split; [destruct l; [cbn; congruence|reflexivity]|]. induction l as [|a l IH]; [cbn; congruence|].
    destruct l as [|b l]; [reflexivity|]. change (last (a :: b :: l) []) with (last (b :: l) []). rewrite <- IH. reflexivity. }
  assert (Hd0 : d0 = f1 b0).
  { unfold f1. rewrite (pfun_left _ bs b0 W1) by (unfold b0; lra). fold b0. rewrite Rminus_diag_eq by reflexivity.
    rewrite (proj1 (Hmap polyder1 cs eq_refl)). apply (uniqueness_limite (peval (hd [] cs)) 0); [exact D0|apply derivable_peval]. }
  assert (HdN : dN = f1 bN).
  { unfold f1, bN. rewrite (pfun_last _ bs W1). rewrite (proj2 (Hmap polyder1 cs eq_refl)).
    apply (uniqueness_limite (peval (last cs [])) (bN - nth (List.length bs - 2) bs 0)); [exact DN|apply derivable_peval]. }
  assert (H20 : f2 b0 = 0).
  { unfold f2. rewrite (pfun_left _ bs b0 W2) by (unfold b0; lra). fold b0. rewrite Rminus_diag_eq by reflexivity.
    rewrite map_map, (proj1 (Hmap (fun c => polyder1 (polyder1 c)) cs eq_refl)). exact B0. }
  assert (H2N : f2 bN = 0).
  { unfold f2, bN. rewrite (pfun_last _ bs W2). rewrite map_map, (proj2 (Hmap (fun c => polyder1 (polyder1 c)) cs eq_refl)). exact BN. }
  assert (H00 : f0 b0 = v0).
  { unfold f0. rewrite (pfun_left _ bs b0 W) by (unfold b0; lra). fold b0. now rewrite Rminus_diag_eq. }
  assert (H0N : f0 bN = vN) by (unfold f0, bN; apply (pfun_last _ bs W)).
  assert (Hb : b0 < bN).
  { pose proof (sorted_nth bs Hs 0 (List.length bs - 1)) as G. destruct cs; [congruence|]. cbn [List.length] in Hl.
    destruct bs as [|b bs']; [cbn in Hl; lia|]. unfold b0, bN. cbn [hd].
    assert (In (hd 0 bs') (b :: bs')) by (destruct bs'; [cbn in Hl; lia|cbn; auto]).
    pose proof (sorted_le_last (b :: bs') Hs _ H). apply Rlt_le_trans with (2 := H0).
    destruct bs' as [|b1 bs']; [cbn in Hl; lia|]. now apply sorted_head_lt in Hs. }
  exists p, q.
  exists (glue b0 (fun t => v0 + d0 * (t - b0)) (glue bN f0 (fun t => vN + dN * (t - bN)))).
  exists (glue b0 (fun _ => 0) (glue bN f2 (fun _ => 0))).
  assert (Lin : forall v d b t, derivable_pt_lim (fun t => v + d * (t - b)) t d).
  { intros v d b t. apply (dlim_eq _ _ (0 + d * (1 - 0))); [ring|].
    apply (derivable_pt_lim_plus (fun _ => v) (fun t => d * (t - b))); [apply derivable_pt_lim_const|].
    apply (derivable_pt_lim_scal (fun t => t - b)).
    apply (derivable_pt_lim_minus (fun t => t) (fun _ => b)); [apply derivable_pt_lim_id|apply derivable_pt_lim_const]. }
  assert (Con : forall v t, derivable_pt_lim (fun _ => v) t 0) by (intros; apply derivable_pt_lim_const).
  split; [exact E1|]. split; [exact E2|]. split; [|split; [|split]].
  - intros t. rewrite V. unfold glue. destruct (Rle_dec t b0); [reflexivity|]. destruct (Rle_dec t bN); [|reflexivity].
    apply (call_pfun cs bs fl); [exact W|exact E1|]. split; unfold b0, bN in *; lra.
  - exists (glue b0 (fun _ => d0) (glue bN f1 (fun _ => dN))). split; [|split].
    + intros t. apply glue_derivable.
      * intros t'. apply Lin.
      * intros t'. apply (glue_derivable bN f0 (fun t => vN + dN * (t - bN)) f1 (fun _ => dN)).
        -- intros t''. apply pfun_derivable; assumption.
        -- intros t''. apply Lin.
        -- rewrite H0N. ring.
        -- intros _. now rewrite HdN.
      * unfold glue. destruct (Rle_dec b0 bN); [|lra]. rewrite H00. ring.
      * intros _. unfold glue. destruct (Rle_dec b0 bN); [|lra]. exact Hd0.
    + intros t. apply glue_derivable.
      * intros t'. apply Con.
      * intros t'. apply (glue_derivable bN f1 (fun t => dN) f2 (fun _ => 0)).
        -- intros t''. apply pfun_derivable; auto. now rewrite map_length.
        -- intros t''. apply Con.
        -- now rewrite HdN.
        -- intros _. exact H2N.
      * unfold glue. destruct (Rle_dec b0 bN); [|lra]. exact Hd0.
      * intros _. unfold glue. destruct (Rle_dec b0 bN); [|lra]. now rewrite H20.
    + apply glue_continuous.
      * intros t. apply continuity_const. intros ? ?. reflexivity.
      * apply glue_continuous; [apply pfun_continuous; auto; now rewrite !map_length|intros t; apply continuity_const; intros ? ?; reflexivity|exact H2N].
      * unfold glue. destruct (Rle_dec b0 bN); [|lra]. now rewrite H20.
  - intros t [T1 T2]. fold b0 in T1. fold bN in T2. unfold glue. destruct (Rle_dec t b0) as [G|G].
    + assert (t = b0) as -> by lra. fold f0. rewrite H00. ring.
    + destruct (Rle_dec t bN); [reflexivity|lra].
  - intros t. reflexivity.
Qed.
