(* evaluation on a grid with the Fourier transform *)
From Coq Require Import Reals Lra Lia Psatz.
From Coquelicot Require Import Complex.
From Verif Require Import Base PolyModel OrthoModel OrthoProofs FilterProofs3 GridSpec GridModel GridProofs GridProofs3 GridProofs4 GridProofs5 GridProofs6 DftModel DftProofs KdeModel KdeSpec KdeProofs2.
Local Open Scope R_scope.

Lemma firstn_map_seq {A} (f : nat -> A) m n : (m <= n)%nat -> firstn m (map f (seq 0 n)) = map f (seq 0 m).
Proof.
  intros H. rewrite firstn_map. f_equal. replace n with (m + (n - m))%nat by lia. rewrite seq_app, firstn_app, firstn_all2 by (rewrite seq_length; lia).
  rewrite seq_length, Nat.sub_diag. cbn. now rewrite app_nil_r.
Qed.
Lemma skipn_map_seq {A} (f : nat -> A) m n : (m <= n)%nat -> skipn m (map f (seq 0 n)) = map f (seq m (n - m)).
Proof.
  intros H. rewrite skipn_map. f_equal. replace n with (m + (n - m))%nat at 1 by lia. rewrite seq_app, skipn_app, skipn_all2 by (rewrite seq_length; lia).
  rewrite seq_length, Nat.sub_diag. cbn. reflexivity.
Qed.
Lemma map_seq_shift {A} (f : nat -> A) s n : map f (seq s n) = map (fun i => f (s + i)%nat) (seq 0 n).
Proof.
  revert s. induction n as [|n IH]; intros s; [reflexivity|]. cbn. rewrite Nat.add_0_r. f_equal. rewrite (IH (S s)), <- (seq_shift n 0), map_map. apply map_ext. intros i. f_equal. lia.
Qed.
Lemma flat_grid_spec dx n : (1 <= n)%nat -> flat_grid dx n = map (fun m => (INR m - INR n) * dx) (seq 0 (2 * n)).
Proof.
  intros Hn. unfold flat_grid, linspace. rewrite firstn_map_seq by lia. rewrite map_map. apply map_ext. intros m. f_equal.
  replace (2 * n + 1 - 1)%nat with (2 * n)%nat by lia. rewrite mult_INR. cbn [INR]. apply le_INR in Hn. cbn [INR] in Hn. field. lra.
Qed.
Lemma ifftshift_at (f : nat -> R) n m : (m < 2 * n)%nat -> at_R (ifftshift n (map f (seq 0 (2 * n)))) m = f (if (m <? n)%nat then (m + n)%nat else (m - n)%nat).
Proof.
  intros Hm. unfold ifftshift. rewrite firstn_map_seq, skipn_map_seq by lia. replace (2 * n - n)%nat with n by lia. rewrite (map_seq_shift f n n).
  unfold at_R. destruct (Nat.ltb_spec m n).
  - rewrite app_nth1 by (rewrite map_length, seq_length; lia). rewrite (at_map_nth (fun i => f (n + i)%nat)) by easy. f_equal. lia.
  - rewrite app_nth2; rewrite map_length, seq_length; [|lia]. now rewrite at_map_nth by lia.
Qed.
Lemma combine_map_same {A B C} (f : A -> B) (g : A -> C) l : combine (map f l) (map g l) = map (fun x => (f x, g x)) l.
Proof. apply combine_same. Qed.

(* the weights as a function of the offset *)
Definition kw_at (kern : R -> R) (h nf dx : R) (r : nat) (t : R) : R := t ^ r * kern (t / h) / nf.
Lemma weights_spec kern h nf N dx n r : h <> 0 -> (1 <= n)%nat ->
  (let Xnc := flat_grid dx n in
   let kw := kernel_weights kern nf N (map (fun v => / h * v) Xnc) dx in
   match r with O => kw | _ => map (fun p => fst p * moment_fun r [snd p]) (combine kw Xnc) end)
  = map (fun m => kw_at kern h (used_norm kern h nf dx n N) dx r ((INR m - INR n) * dx)) (seq 0 (2 * n)).
Proof.
  intros Hh Hn. cbv zeta. unfold kernel_weights. rewrite flat_grid_spec by easy. rewrite !map_map.
  assert (E : forall m, / h * ((INR m - INR n) * dx) = (INR m - INR n) * dx / h) by (intros; unfold Rdiv; ring).
  assert (Es : npsum (map (fun x => kern (/ h * ((INR x - INR n) * dx))) (seq 0 (2 * n))) * dx * INR N = sampled_norm kern h dx n N).
  { unfold sampled_norm. do 2 f_equal. apply sumR_ext. intros m _. now rewrite E. }
  rewrite Es. fold (used_norm kern h nf dx n N). destruct r as [|r].
  - apply map_ext. intros m. unfold kw_at. rewrite E. cbn [pow]. unfold Rdiv. ring.
  - rewrite combine_map_same, map_map. apply map_ext. intros m. cbn [fst snd]. rewrite moment_power, power_sum_one, E. unfold kw_at. unfold Rdiv. ring.
Qed.
Lemma sumR_map_seq_split (f : nat -> R) n m : sumR (map f (seq 0 (n + m))) = sumR (map f (seq 0 n)) + sumR (map (fun i => f (n + i)%nat) (seq 0 m)).
Proof. rewrite seq_app, map_app, sumR_app. f_equal. cbn [plus]. now rewrite map_seq_shift. Qed.
Lemma fast_conv (c : list R) (f : R -> R) dx n i : List.length c = n -> (i < n)%nat ->
  let kw := ifftshift n (map (fun m => f ((INR m - INR n) * dx)) (seq 0 (2 * n))) in
  fst (ifft (2 * n) (fun k => Cmult (fft (2 * n) (padded c) k) (fft (2 * n) (padded kw) k)) i) = sumR (map (fun j => at_R c j * f ((INR i - INR j) * dx)) (seq 0 n)).
Proof.
  intros Hc Hi kw. rewrite convolution by lia.
  rewrite (csum_real (2 * n) _ (fun m => at_R c m * at_R kw ((i + 2 * n - m) mod (2 * n))%nat)) by (intros m Hm; unfold padded; now rewrite <- RtoC_mult).
  cbn [fst]. fold (sumR (map (fun m => at_R c m * at_R kw ((i + 2 * n - m) mod (2 * n))%nat) (seq 0 (2 * n)))).
  change (Re (RtoC ?x)) with x. unfold RtoC; cbn [fst].
  replace (seq 0 (2 * n)) with (seq 0 (n + n)) by (f_equal; lia). rewrite sumR_map_seq_split.
  rewrite (sumR_map_0 (fun j => at_R c (n + j) * _)).
  2:{ intros j Hj. unfold at_R at 1. rewrite nth_overflow by lia. ring. }
  rewrite Rplus_0_r. apply sumR_ext. intros j Hj. apply in_seq in Hj. f_equal. unfold kw.
  rewrite (ifftshift_at (fun m => f ((INR m - INR n) * dx))) by (apply Nat.mod_upper_bound; lia).
  f_equal. f_equal. destruct (le_lt_dec j i) as [Hji|Hji].
  - replace (i + 2 * n - j)%nat with ((i - j) + 1 * (2 * n))%nat by lia. rewrite Nat.mod_add, Nat.mod_small by lia.
    destruct (Nat.ltb_spec (i - j) n); [|lia]. rewrite plus_INR, minus_INR by easy. ring.
  - rewrite Nat.mod_small by lia. destruct (Nat.ltb_spec (i + 2 * n - j) n); [lia|].
    replace (i + 2 * n - j - n)%nat with (i + n - j)%nat by lia. rewrite minus_INR, plus_INR by lia. ring.
Qed.
Lemma tent_sum q v n (F : nat -> R) : 0 < snd q -> (2 <= n)%nat -> node q 0 <= v < node q (n - 1) ->
  sumR (map (fun j => tent ((v - node q j) / snd q) * F j) (seq 0 n)) =
  let b := Z.to_nat (Int_part ((v - fst q) / snd q)) in let theta := (v - node q b) / snd q in (1 - theta) * F b + theta * F (S b).
Proof.
  intros Hq Hn Hv. destruct (bin_spec q v n Hq Hn Hv) as (Eb & Hb & Hvb). fold (bnat q v). cbv zeta. set (b := bnat q v) in *.
  rewrite (sumR_ext _ (fun j => (if (b =? j)%nat then 1 - (v - node q b) / snd q else 0) * F j + (if (S b =? j)%nat then (v - node q b) / snd q else 0) * F j)).
  - rewrite sumR_map_add, !sumR_pick by lia. reflexivity.
  - intros j _. rewrite <- Rmult_plus_distr_r. f_equal. apply Rmult_eq_reg_l with (snd q); [|lra]. rewrite (tent_split q v j b Hq Hvb). rewrite node_S.
    destruct (b =? j)%nat eqn:E1, (S b =? j)%nat eqn:E2; try (apply Nat.eqb_eq in E1; apply Nat.eqb_eq in E2; lia); field; lra.
Qed.
Lemma keep_pos v : (if Rlt_dec 0 v then v else 0) = positive_part v.
Proof. unfold positive_part, Rmax. destruct (Rlt_dec 0 v), (Rle_dec 0 v); lra. Qed.
Lemma combine_wrap (data y : list R) : combine (map (fun v => [v]) data) y = map (fun p => ([fst p], snd p)) (combine data y).
Proof. exact (combine_map_l (fun v : R => [v]) data y). Qed.
Lemma fast_spec kern h nf data q n y r : h <> 0 -> 0 < snd q -> (2 <= n)%nat -> data <> [] -> (forall v, In v data -> node q 0 <= v < node q (n - 1)) -> List.length y = List.length data ->
  eval_grid_fast kern h nf data (map (node q) (seq 0 n)) y r =
  Ok (map (fun i => kept r (weighted (interpolant q (smooth_at kern h (used_norm kern h nf (snd q) n (List.length data)) r (node q i))) data y)) (seq 0 n)).
Proof.
  intros Hh Hq Hn Hd Hv Hy. unfold eval_grid_fast. rewrite map_length, seq_length.
  replace (at_R (map (node q) (seq 0 n)) 1 - at_R (map (node q) (seq 0 n)) 0) with (snd q) by (rewrite !row_nth by lia; rewrite node_S; ring).
  pose proof (weights_spec kern h nf (List.length data) (snd q) n r Hh ltac:(lia)) as W. cbv zeta in W. cbv zeta. rewrite W. clear W.
  destruct (gridcount_ok n [q] (map (fun v => [v]) data) y) as (c & Ec & Lc & Hc); try assumption; try discriminate.
  { repeat constructor; easy. } { intros E. apply map_eq_nil in E. easy. } { intros p Hp. apply in_map_iff in Hp as (v & <- & Hin). constructor; [now apply Hv|constructor]. } { now rewrite map_length. }
  cbn [nodes map List.length Nat.pow] in Ec, Lc. rewrite Nat.mul_1_r in Lc. rewrite Ec. cbn [bind]. f_equal. apply map_ext_in. intros i Hi. apply in_seq in Hi.
  rewrite (fast_conv c (kw_at kern h (used_norm kern h nf (snd q) n (List.length data)) (snd q) r) (snd q) n i Lc) by lia.
  set (nf' := used_norm kern h nf (snd q) n (List.length data)).
  assert (Ev : sumR (map (fun j => at_R c j * kw_at kern h nf' (snd q) r ((INR i - INR j) * snd q)) (seq 0 n)) = weighted (interpolant q (smooth_at kern h nf' r (node q i))) data y).
  { unfold weighted. rewrite (sumR_ext _ (fun p => snd p * sumR (map (fun j => tent ((fst p - node q j) / snd q) * smooth_at kern h nf' r (node q i) (node q j)) (seq 0 n))) (combine data y)).
    - rewrite (sumR_ext (fun p => _ * sumR _) (fun p => sumR (map (fun j => snd p * (tent ((fst p - node q j) / snd q) * smooth_at kern h nf' r (node q i) (node q j))) (seq 0 n)))) by (intros; now rewrite sumR_map_scal).
      rewrite sumR_swap. apply sumR_ext. intros j Hj. apply in_seq in Hj.
      rewrite (sumR_ext _ (fun p => smooth_at kern h nf' r (node q i) (node q j) * (snd p * tent ((fst p - node q j) / snd q)))) by (intros; ring).
      rewrite sumR_map_scal, Rmult_comm. f_equal.
      + unfold smooth_at, kw_at. replace (node q i - node q j) with ((INR i - INR j) * snd q) by (unfold node; ring). reflexivity.
      + specialize (Hc [j] eq_refl ltac:(repeat constructor; lia)). unfold entry, meshgrid_order, forder in Hc. replace (j + n * 0)%nat with j in Hc by lia. rewrite Hc.
        rewrite combine_wrap, map_map. apply sumR_ext. intros p _. cbn [fst snd share]. ring.
    - intros p Hp. f_equal. unfold interpolant. symmetry. apply (tent_sum q (fst p) n (fun j => smooth_at kern h nf' r (node q i) (node q j))); try assumption. apply Hv. destruct p as [a b]. apply in_combine_l in Hp. exact Hp. }
  rewrite Ev. unfold kept. destruct r; [apply keep_pos|reflexivity].
Qed.
Lemma interpolant_node q F b : 0 < snd q -> interpolant q F (node q b) = F (node q b).
Proof.
  intros Hq. unfold interpolant. replace (Z.to_nat (Int_part ((node q b - fst q) / snd q))) with b.
  - cbv zeta. replace ((node q b - node q b) / snd q) with 0 by (field; lra). ring.
  - rewrite (Int_part_INR b) by (unfold node; field; lra). now rewrite Nat2Z.id.
Qed.
Lemma interpolant_error q F v L n : 0 < snd q -> (2 <= n)%nat -> node q 0 <= v < node q (n - 1) -> 0 <= L -> lipschitz L F -> Rabs (interpolant q F v - F v) <= L * snd q / 2.
Proof.
  intros Hq Hn Hv HL HF. destruct (bin_spec q v n Hq Hn Hv) as (_ & _ & [H1 H2]). unfold interpolant. fold (bnat q v). cbv zeta. set (b := bnat q v) in *.
  rewrite node_S in *. set (u := node q b) in *. set (th := (v - u) / snd q). assert (Ev : v = u + th * snd q) by (unfold th; field; lra).
  assert (Ht : 0 <= th < 1). { split; apply Rmult_lt_reg_r with (snd q) || apply Rmult_le_reg_r with (snd q); try lra; unfold th, Rdiv; rewrite Rmult_assoc, Rinv_l by lra; lra. }
  assert (A := HF u v). assert (B := HF (u + snd q) v).
  replace (u - v) with (- (th * snd q)) in A by lra. rewrite Rabs_Ropp, (Rabs_pos_eq (th * snd q)) in A by (apply Rmult_le_pos; lra).
  replace (u + snd q - v) with ((1 - th) * snd q) in B by lra. rewrite (Rabs_pos_eq ((1 - th) * snd q)) in B by (apply Rmult_le_pos; lra).
  replace ((1 - th) * F u + th * F (u + snd q) - F v) with ((1 - th) * (F u - F v) + th * (F (u + snd q) - F v)) by ring.
  eapply Rle_trans; [apply Rabs_triang|]. rewrite !Rabs_mult, (Rabs_pos_eq (1 - th)), (Rabs_pos_eq th) by lra.
  assert ((1 - th) * Rabs (F u - F v) <= (1 - th) * (L * (th * snd q))) by (apply Rmult_le_compat_l; lra).
  assert (th * Rabs (F (u + snd q) - F v) <= th * (L * ((1 - th) * snd q))) by (apply Rmult_le_compat_l; lra).
  assert (th * (1 - th) <= 1 / 4) by (pose proof (Rle_0_sqr (th - 1 / 2)) as Q; unfold Rsqr in Q; lra).
  assert (HLq : 0 <= L * snd q) by nra. assert ((L * snd q) * (th * (1 - th)) <= (L * snd q) * (1 / 4)) by (apply Rmult_le_compat_l; lra). lra.
Qed.
Lemma sumR_abs_le {A} (f g : A -> R) l : (forall x, In x l -> Rabs (f x) <= g x) -> Rabs (sumR (map f l)) <= sumR (map g l).
Proof.
  intros H. induction l as [|a l IH]; unfold sumR in *; cbn [map fold_right]; [rewrite Rabs_R0; lra|].
  eapply Rle_trans; [apply Rabs_triang|]. apply Rplus_le_compat; [apply H; now left|apply IH; intros; apply H; now right].
Qed.
Lemma sumR_map_sub {A} (f g : A -> R) l : sumR (map f l) - sumR (map g l) = sumR (map (fun x => f x - g x) l).
Proof. induction l as [|a l IH]; unfold sumR in *; cbn [map fold_right]; lra. Qed.
Lemma pospart_lip a b : Rabs (positive_part a - positive_part b) <= Rabs (a - b).
Proof. unfold positive_part, Rmax. destruct (Rle_dec 0 a), (Rle_dec 0 b); unfold Rabs; repeat destruct Rcase_abs; lra. Qed.
Lemma used_well kern h nf dx n N : well_sampled kern h nf dx n N -> used_norm kern h nf dx n N = nf.
Proof. unfold well_sampled, used_norm. intros H. cbv zeta. destruct (Rlt_dec _ _); [lra|reflexivity]. Qed.
Lemma estimate_ones kern c h X y r x : h <> 0 -> c <> 0 -> X <> [] -> List.length y = List.length X ->
  estimate_1d kern c h X (repeat 1 (List.length X)) y r x = weighted (smooth_at kern h (h * INR (List.length X) * c) r x) X y.
Proof.
  intros Hh Hc HX Hy. unfold estimate_1d, weighted. assert (HN : INR (List.length X) <> 0) by (destruct X; [easy|apply not_0_INR; discriminate]).
  set (N := INR (List.length X)) in *. clearbody N. unfold Rdiv. rewrite Rmult_comm, <- sumR_map_scal.
  revert y Hy. clear HX. induction X as [|a X IH]; intros [|b y] Hy; try discriminate; [reflexivity|]. cbn [List.length repeat combine map fst snd]. unfold sumR in *. cbn [fold_right].
  rewrite IH by (cbn in Hy; lia). f_equal. unfold smooth_at, Rdiv. rewrite !Rmult_1_r. field. auto.
Qed.
Lemma fast_exact_on_nodes kern c h q n idx y r : h <> 0 -> c <> 0 -> 0 < snd q -> (2 <= n)%nat -> idx <> [] -> (forall b, In b idx -> (S b < n)%nat) -> List.length y = List.length idx ->
  let data := map (node q) idx in let nf := h * INR (List.length idx) * c in
  well_sampled kern h nf (snd q) n (List.length idx) ->
  eval_grid_fast kern h nf data (map (node q) (seq 0 n)) y r =
  Ok (map (fun i => kept r (estimate_1d kern c h data (repeat 1 (List.length data)) y r (node q i))) (seq 0 n)).
Proof.
  intros Hh Hc Hq Hn Hi Hb Hy data nf W. unfold data. rewrite fast_spec; try assumption.
  - rewrite map_length. rewrite used_well by exact W. f_equal. apply map_ext. intros i. f_equal.
    rewrite <- (map_length (node q) idx) at 1. rewrite estimate_ones; try assumption; [|intros E; apply map_eq_nil in E; easy|now rewrite map_length]. rewrite map_length. fold nf.
    unfold weighted. apply sumR_ext. intros p Hp. f_equal. destruct p as [a b]. apply in_combine_l in Hp. apply in_map_iff in Hp as (k & <- & _). cbn [fst]. now apply interpolant_node.
  - intros E. apply map_eq_nil in E. easy.
  - intros v Hin. apply in_map_iff in Hin as (b & <- & Hin). apply Hb in Hin. unfold node. split.
    + cbn [INR]. pose proof (pos_INR b). nra.
    + assert (INR b < INR (n - 1)) by (apply lt_INR; lia). nra.
  - now rewrite map_length.
Qed.
Lemma fast_error kern c h q n data y L out : 0 < h -> 0 < c -> 0 < snd q -> (2 <= n)%nat -> data <> [] -> (forall v, In v data -> node q 0 <= v < node q (n - 1)) -> List.length y = List.length data ->
  0 <= L -> lipschitz L kern -> let nf := h * INR (List.length data) * c in well_sampled kern h nf (snd q) n (List.length data) ->
  eval_grid_fast kern h nf data (map (node q) (seq 0 n)) y 0 = Ok out ->
  forall i, (i < n)%nat -> Rabs (nth i out 0 - positive_part (estimate_1d kern c h data (repeat 1 (List.length data)) y 0 (node q i))) <= sumR (map Rabs y) * (L * snd q / (2 * h * nf)).
Proof.
  intros Hh Hc Hq Hn Hd Hv Hy HL Hk nf W. rewrite fast_spec; try assumption; [|lra]. intros [= <-] i Hi. rewrite at_map_nth by easy. rewrite used_well by exact W.
  unfold kept. eapply Rle_trans; [apply pospart_lip|]. rewrite estimate_ones; try assumption; try lra. fold nf.
  assert (Hnf : 0 < nf). { unfold nf. assert (0 < INR (List.length data)) by (destruct data; [easy|apply lt_0_INR; cbn; lia]). repeat apply Rmult_lt_0_compat; easy. }
  assert (HF : lipschitz (L / (h * nf)) (smooth_at kern h nf 0 (node q i))).
  { intros a b. unfold smooth_at. cbn [pow]. replace (1 * kern ((node q i - a) / h) / nf - 1 * kern ((node q i - b) / h) / nf) with ((kern ((node q i - a) / h) - kern ((node q i - b) / h)) * / nf) by (field; lra).
    rewrite Rabs_mult, (Rabs_pos_eq (/ nf)) by (left; now apply Rinv_0_lt_compat). specialize (Hk ((node q i - a) / h) ((node q i - b) / h)).
    replace ((node q i - a) / h - (node q i - b) / h) with ((b - a) * / h) in Hk by (field; lra). rewrite Rabs_mult, (Rabs_pos_eq (/ h)), (Rabs_minus_sym b a) in Hk by (left; now apply Rinv_0_lt_compat).
    apply Rmult_le_compat_r with (r := / nf) in Hk; [|left; now apply Rinv_0_lt_compat]. eapply Rle_trans; [exact Hk|]. apply Req_le. field. lra. }
  unfold weighted. rewrite sumR_map_sub.
  eapply Rle_trans; [apply (sumR_abs_le _ (fun p => (L * snd q / (2 * h * nf)) * Rabs (snd p)))|].
  - intros [a b] Hin. cbn [fst snd]. rewrite <- Rmult_minus_distr_l, Rabs_mult, Rmult_comm. apply Rmult_le_compat_r; [apply Rabs_pos|]. apply in_combine_l in Hin.
    eapply Rle_trans; [apply (interpolant_error q _ a (L / (h * nf)) n Hq Hn (Hv a Hin))|].
    + apply Rmult_le_pos; [lra|]. left. apply Rinv_0_lt_compat. nra.
    + exact HF.
    + apply Req_le. field. lra.
  - rewrite sumR_map_scal, Rmult_comm. apply Req_le. f_equal. f_equal. clear - Hy. revert y Hy. induction data as [|a data IH]; intros [|b y] Hy; try discriminate; [reflexivity|]. cbn. f_equal. apply IH. cbn in Hy. lia.
Qed.
