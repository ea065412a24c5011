(* The estimate of mean and standard deviation from a level crossing spectrum. *)
From Coq Require Import Reals List ZArith Lra Lia.
From Verif Require Import Base PolyModel ProcModel SpectModel SpectProofs7 LcxModel LcxSpec.
Import ListNotations.
Local Open Scope R_scope.

Lemma rice_pos c m s u : 0 < c -> 0 < rice c m s u. Proof. intros H. unfold rice. apply Rmult_lt_0_compat; [exact H|apply exp_pos]. Qed.
Lemma rice_max c m s u : 0 < c -> rice c m s u <= c.
Proof. intros H. unfold rice. rewrite <- (Rmult_1_r c) at 2. apply Rmult_le_compat_l; [lra|]. rewrite <- exp_0. assert (Q : 0 <= ((u - m) / s) ^ 2) by (rewrite <- Rsqr_pow2; apply Rle_0_sqr). destruct (Rle_lt_or_eq_dec _ _ Q) as [L|E]; [left; apply exp_increasing; lra|right; f_equal; lra]. Qed.
Lemma rice_mid c m s : rice c m s m = c. Proof. unfold rice. unfold Rdiv at 1. rewrite Rmult_comm. replace (- ((m - m) / s) ^ 2 * / 2) with 0 by (unfold Rdiv; ring). rewrite exp_0. ring. Qed.
Lemma rice_less c m s u : 0 < c -> 0 < s -> u <> m -> rice c m s u < c.
Proof.
  intros H S N. unfold rice. rewrite <- (Rmult_1_r c) at 2. apply Rmult_lt_compat_l; [exact H|]. rewrite <- exp_0. apply exp_increasing. assert (Q : 0 < ((u - m) / s) ^ 2). { rewrite <- Rsqr_pow2. apply Rsqr_pos_lt. unfold Rdiv. apply Rmult_integral_contrapositive_currified; [lra|apply Rinv_neq_0_compat; lra]. } lra.
Qed.
Lemma neglog_rice c m s u : 0 < c -> neglog (rice c m s u) = Some (- ln c + ((u - m) / s) ^ 2 / 2).
Proof.
  intros H. unfold neglog. pose proof (rice_pos c m s u H). destruct (Req_EM_T (rice c m s u) 0); [lra|]. f_equal. unfold rice. rewrite ln_mult by (exact H || apply exp_pos). rewrite ln_exp. set (v := (u - m) / s). field.
Qed.
Lemma all_some_map {A} (l : list A) : all_some (map Some l) = Some l. Proof. induction l as [|a l IH]; [reflexivity|]. cbn [map all_some]. rewrite IH. reflexivity. Qed.
Lemma cut_map {A B} (f : A -> B) l : cut (map f l) = map f (cut l). Proof. unfold cut. rewrite map_length, skipn_map, firstn_map. reflexivity. Qed.
Lemma cut_length {A} (l : list A) : List.length (cut l) = (List.length l - 20)%nat. Proof. unfold cut. rewrite firstn_length, skipn_length. lia. Qed.
Lemma cut_nth {A} (l : list A) i d : (i < List.length l - 20)%nat -> nth i (cut l) d = nth (10 + i) l d.
Proof.
  intros H. unfold cut. rewrite <- (firstn_skipn 10 l) at 3. rewrite app_nth2 by (rewrite firstn_length; lia). rewrite firstn_length, Nat.min_l by lia. replace (10 + i - 10)%nat with i by lia.
  rewrite <- (firstn_skipn (List.length l - 20) (skipn 10 l)) at 2. rewrite app_nth1; [reflexivity|]. rewrite firstn_length, skipn_length. lia.
Qed.
Lemma map_seq_at (a : list R) {B} (f : R -> B) : map (fun k => f (at_R a k)) (seq 0 (List.length a)) = map f a.
Proof.
  apply nth_ext with (d := f 0) (d' := f 0); [rewrite !map_length, seq_length; reflexivity|]. intros k Hk. rewrite map_length, seq_length in Hk. rewrite (map_nth f). rewrite nth_indep with (d' := (fun k => f (at_R a k)) 0%nat) by (rewrite map_length, seq_length; exact Hk). rewrite (map_nth (fun k => f (at_R a k))), seq_nth by exact Hk. reflexivity.
Qed.
Lemma at_map (f : R -> R) a k : (k < List.length a)%nat -> at_R (map f a) k = f (at_R a k).
Proof. intros H. unfold at_R. rewrite nth_indep with (d' := f 0) by (rewrite map_length; exact H). apply map_nth. Qed.
Lemma roots_rice c m s a i : 0 < c -> 0 < s -> increasingR a -> (i < List.length a)%nat -> nth i a 0 = m -> roots (map (rice c m s) a) i = map (fun u => Some ((u - m) / s)) a.
Proof.
  intros C S I Hi E. unfold roots. rewrite at_map by exact Hi. unfold at_R at 1. rewrite E, neglog_rice by exact C. rewrite map_length. rewrite <- (map_seq_at a (fun u => Some ((u - m) / s))). apply map_ext_in. intros k Hk. apply in_seq in Hk. rewrite at_map by lia. rewrite neglog_rice by exact C. f_equal.
  replace (- ln c + ((m - m) / s) ^ 2 / 2 - (- ln c + ((m - m) / s) ^ 2 / 2)) with 0 by ring. rewrite Rabs_R0, Rmult_0_r, sqrt_0.
  replace (- ln c + ((at_R a k - m) / s) ^ 2 / 2 - (- ln c + ((m - m) / s) ^ 2 / 2)) with (((at_R a k - m) / s) ^ 2 / 2) by (field; lra).
  set (v := (at_R a k - m) / s). rewrite (Rabs_pos_eq (v ^ 2 / 2)) by (rewrite <- Rsqr_pow2; pose proof (Rle_0_sqr v); lra). replace (2 * (v ^ 2 / 2)) with (Rsqr v) by (unfold Rsqr; field). rewrite sqrt_Rsqr_abs.
  assert (SG : forall w, w = v * s -> w <= 0 -> v <= 0) by (intros w Ew Hw; apply Rmult_le_reg_r with s; [exact S|rewrite <- Ew; lra]).
  assert (SG' : forall w, w = v * s -> 0 <= w -> 0 <= v) by (intros w Ew Hw; apply Rmult_le_reg_r with s; [exact S|rewrite <- Ew; lra]).
  assert (V : at_R a k - m = v * s) by (unfold v; field; lra). destruct (Nat.leb_spec k i) as [G|G].
  - assert (at_R a k <= m) by (rewrite <- E; unfold at_R; destruct (Nat.eq_dec k i) as [->|]; [lra|left; apply I; lia]). rewrite Rabs_left1 by (apply (SG _ V); lra). ring.
  - assert (m < at_R a k) by (rewrite <- E; unfold at_R; apply I; lia). apply Rabs_pos_eq. apply (SG' _ V). lra.
Qed.
Lemma argmax_rice c m s a i : 0 < c -> 0 < s -> increasingR a -> (i < List.length a)%nat -> nth i a 0 = m -> argmaxR (map (rice c m s) a) = i.
Proof.
  intros C S I Hi E. assert (NE : map (rice c m s) a <> []) by (destruct a; [cbn in Hi; lia|discriminate]). destruct (argmaxR_spec _ NE) as [L [M F]]. rewrite map_length in L, M. set (p := argmaxR (map (rice c m s) a)) in *.
  destruct (Nat.eq_dec p i) as [|N]; [assumption|exfalso]. pose proof (M i Hi) as Q. rewrite !at_map in Q by assumption. unfold at_R in Q at 1. rewrite E, rice_mid in Q. assert (at_R a p <> m). { rewrite <- E. unfold at_R. destruct (Nat.lt_total p i) as [G|[G|G]]; [pose proof (I p i ltac:(lia)); lra|contradiction|pose proof (I i p ltac:(lia)); lra]. }
  pose proof (rice_less c m s (at_R a p) C S H). lra.
Qed.
(* least squares through points on a line *)
Lemma total_sq_0 (f : R * R -> R) l : total (map (fun p => (f p) ^ 2) l) <= 0 -> forall p, In p l -> f p = 0.
Proof.
  assert (NN : forall l, 0 <= total (map (fun p => (f p) ^ 2) l)) by (intros l0; induction l0 as [|q r IH]; cbn [map total]; [lra|]; pose proof (Rle_0_sqr (f q)) as Q; rewrite Rsqr_pow2 in Q; lra).
  induction l as [|q r IH]; intros H p []; cbn [map total] in H; pose proof (Rle_0_sqr (f q)) as Q; rewrite Rsqr_pow2 in Q; pose proof (NN r).
  - subst q. apply Rsqr_0_uniq. rewrite Rsqr_pow2. lra.
  - apply IH; [lra|assumption].
Qed.
Lemma combine_self {A B} (f : A -> B) l : combine l (map f l) = map (fun a => (a, f a)) l.
Proof. induction l as [|a l IH]; [reflexivity|]. cbn [map combine]. rewrite IH. reflexivity. Qed.
Lemma line_exact polyfit x p0 p1 i j : least_squares polyfit -> (i < List.length x)%nat -> (j < List.length x)%nat -> nth i x 0 <> nth j x 0 -> polyfit x (map (fun u => p0 * u + p1) x) = (p0, p1).
Proof.
  intros LS Hi Hj N. assert (NE : x <> []) by (destruct x; [cbn in Hi; lia|discriminate]). pose proof (LS x (map (fun u => p0 * u + p1) x) (p0, p1) NE) as Q. unfold residual in Q. rewrite combine_self in Q.
  assert (Z0 : total (map (fun p => (snd p - (fst (p0, p1) * fst p + snd (p0, p1))) ^ 2) (map (fun a => (a, p0 * a + p1)) x)) = 0). { rewrite map_map. cbn [fst snd]. clear. induction x as [|a x IH]; [reflexivity|]. cbn [map total]. rewrite IH. ring. }
  rewrite Z0 in Q. set (q := polyfit x (map (fun u => p0 * u + p1) x)) in *. pose proof (total_sq_0 (fun p => snd p - (fst q * fst p + snd q)) _ Q) as H.
  assert (Hu : forall u, In u x -> p0 * u + p1 = fst q * u + snd q). { intros u Iu. pose proof (H (u, p0 * u + p1) (in_map _ _ _ Iu)) as W. cbn [fst snd] in W. lra. }
  pose proof (Hu _ (nth_In x 0 Hi)) as E1. pose proof (Hu _ (nth_In x 0 Hj)) as E2. assert (E3 : (p0 - fst q) * (nth i x 0 - nth j x 0) = 0) by lra. apply Rmult_integral in E3. destruct E3 as [E3|E3]; [|lra].
  destruct q as [q0 q1]. cbn [fst snd] in *. assert (p0 = q0) by lra. subst q0. assert (p1 = q1) by lra. subst q1. reflexivity.
Qed.
Lemma estimate_exact polyfit c m s a i : least_squares polyfit -> 0 < c -> 0 < s -> increasingR a -> (22 <= List.length a)%nat -> (i < List.length a)%nat -> nth i a 0 = m -> estimate polyfit (map (rice c m s) a) a i = Ok (Some (m, s)).
Proof.
  intros LS C S I L Hi E. unfold estimate. destruct (cut a) as [|u0 r] eqn:EC; [pose proof (cut_length a) as Q; rewrite EC in Q; cbn in Q; lia|]. rewrite roots_rice by assumption. rewrite cut_map, EC, <- map_map with (f := fun u => (u - m) / s) (g := Some), all_some_map.
  rewrite (map_ext (fun u => (u - m) / s) (fun u => 1 / s * u + - m / s)) by (intros u; field; lra). rewrite <- EC. rewrite (line_exact polyfit (cut a) (1 / s) (- m / s) 0 1 LS) by (rewrite ?cut_length, ?cut_nth by lia; try lia; pose proof (I 10%nat 11%nat ltac:(lia)); cbn [Nat.add]; lra). cbn [fst snd].
  assert (P : 0 < 1 / s) by (apply Rdiv_lt_0_compat; lra). destruct (Req_EM_T (1 / s) 0); [lra|]. do 2 f_equal. f_equal; field; lra.
Qed.
Lemma init_exact polyfit c m s a i : least_squares polyfit -> 0 < c -> 0 < s -> increasingR a -> (22 <= List.length a)%nat -> (i < List.length a)%nat -> nth i a 0 = m -> init polyfit (map (rice c m s) a) a None None = Ok (Some m, Some s, Some (map (rice c m s) a)).
Proof.
  intros LS C S I L Hi E. unfold init. destruct (map (rice c m s) a) as [|d0 d] eqn:ED; [destruct a; [cbn in L; lia|discriminate]|]. rewrite <- ED. rewrite argmax_rice with (i := i) by assumption. rewrite estimate_exact by assumption. cbn [bind option_map fst snd]. destruct (Req_EM_T s 0); [lra|]. f_equal. f_equal. f_equal. apply map_ext. intros u. rewrite at_map by exact Hi. unfold at_R. rewrite E, rice_mid. unfold rice. f_equal. f_equal. field. lra.
Qed.
Lemma init_given polyfit data args m s : data <> [] -> s <> 0 -> exists k, (k < List.length data)%nat /\ (forall j, (j < List.length data)%nat -> nth j data 0 <= nth k data 0) /\
  init polyfit data args (Some m) (Some s) = Ok (Some m, Some s, Some (map (rice (nth k data 0) m s) args)).
Proof.
  intros NE NS. destruct (argmaxR_spec data NE) as [L [M _]]. exists (argmaxR data). split; [exact L|]. split; [exact M|]. unfold init. destruct data as [|d0 d]; [contradiction|]. cbn [bind fst snd]. destruct (Req_EM_T s 0); [contradiction|]. f_equal. f_equal. f_equal. apply map_ext. intros u. unfold rice, at_R. f_equal. f_equal. field. exact NS.
Qed.
Lemma estimate_few polyfit data args i : (List.length args <= 20)%nat -> estimate polyfit data args i = Err TypeError.
Proof. intros H. unfold estimate. destruct (cut args) as [|u r] eqn:E; [reflexivity|]. pose proof (cut_length args) as Q. rewrite E in Q. cbn in Q. lia. Qed.
(* the mean half way between two levels: a division by zero *)
Lemma half_nth k : (k < 22)%nat -> nth k half_levels 0 = INR k - 21 / 2.
Proof. intros H. unfold half_levels. rewrite nth_indep with (d' := (fun k => INR k - 21 / 2) 0%nat) by (rewrite map_length, seq_length; exact H). rewrite (map_nth (fun k => INR k - 21 / 2)), seq_nth by exact H. reflexivity. Qed.
Lemma half_length : List.length half_levels = 22%nat. Proof. unfold half_levels. rewrite map_length, seq_length. reflexivity. Qed.
Lemma half_increasing : increasingR half_levels.
Proof. intros i j H. rewrite half_length in H. rewrite !half_nth by lia. assert (INR i < INR j) by (apply lt_INR; lia). lra. Qed.
Lemma rice_even c s u v : u = - v -> rice c 0 s u = rice c 0 s v. Proof. intros ->. unfold rice. f_equal. f_equal. unfold Rdiv. ring. Qed.
Lemma argmax_half c s : 0 < c -> 0 < s -> argmaxR (map (rice c 0 s) half_levels) = 10%nat.
Proof.
  intros C S. assert (NE : map (rice c 0 s) half_levels <> []) by discriminate. destruct (argmaxR_spec _ NE) as [L [M F]]. rewrite map_length, half_length in L, M. set (p := argmaxR (map (rice c 0 s) half_levels)) in *.
  assert (V : forall k, (k < 22)%nat -> at_R (map (rice c 0 s) half_levels) k = rice c 0 s (INR k - 21 / 2)) by (intros k Hk; rewrite at_map by (rewrite half_length; exact Hk); unfold at_R; rewrite half_nth by exact Hk; reflexivity).
  assert (LT : forall u v, Rsqr v < Rsqr u -> rice c 0 s u < rice c 0 s v). { intros u v H. unfold rice. apply Rmult_lt_compat_l; [exact C|]. apply exp_increasing. rewrite !Rminus_0_r. unfold Rdiv at 2 4. rewrite !Rpow_mult_distr. rewrite !Rsqr_pow2 in H. assert (Q : 0 < (/ s) ^ 2) by (apply pow_lt, Rinv_0_lt_compat, S). nra. }
  destruct (le_lt_dec p 9) as [G|G].
  - exfalso. pose proof (M 10%nat ltac:(lia)) as Q. rewrite !V in Q by lia. assert (INR p <= 9) by (replace 9 with (INR 9) by (cbn; ring); apply le_INR; exact G). assert (T : Rsqr (INR 10 - 21 / 2) < Rsqr (INR p - 21 / 2)) by (replace (INR 10) with 10 by (cbn; ring); unfold Rsqr; nra). pose proof (LT _ _ T). lra.
  - destruct (le_lt_dec p 10) as [G'|G']; [lia|exfalso]. pose proof (F 10%nat ltac:(lia)) as Q. rewrite !V in Q by lia. assert (11 <= INR p) by (replace 11 with (INR 11) by (cbn; ring); apply le_INR; lia).
    assert (T : rice c 0 s (INR p - 21 / 2) <= rice c 0 s (INR 10 - 21 / 2)). { rewrite (rice_even c s (INR 10 - 21 / 2) (1 / 2)) by (cbn; lra). destruct (Req_dec (INR p - 21 / 2) (1 / 2)) as [->|ND]; [lra|]. left. apply LT. unfold Rsqr. nra. } lra.
Qed.
Lemma init_between polyfit c s : least_squares polyfit -> 0 < c -> 0 < s -> init polyfit (map (rice c 0 s) half_levels) half_levels None None = Ok (None, None, None).
Proof.
  intros LS C S. unfold init. destruct (map (rice c 0 s) half_levels) as [|d0 d] eqn:ED; [discriminate|]. rewrite <- ED. clear ED d0 d. rewrite argmax_half by assumption. unfold estimate. destruct (cut half_levels) as [|u0 r] eqn:EC; [pose proof (cut_length half_levels) as Q; rewrite EC, half_length in Q; cbn in Q; lia|]. rewrite <- EC.
  assert (ER : cut (roots (map (rice c 0 s) half_levels) 10) = map Some [0; 0]).
  { unfold roots. rewrite at_map by (rewrite half_length; lia). rewrite neglog_rice by exact C. rewrite map_length, half_length. rewrite cut_map. change (cut (seq 0 22)) with [10%nat; 11%nat]. cbn [map]. rewrite !at_map by (rewrite half_length; lia). rewrite !neglog_rice by exact C. unfold at_R. rewrite !half_nth by lia. cbn [Nat.leb]. replace (INR 11 - 21 / 2 - 0) with (- (INR 10 - 21 / 2 - 0)) by (cbn; lra).
    set (v := INR 10 - 21 / 2 - 0). f_equal; [|f_equal]; f_equal.
    - match goal with |- context [Rabs (?a - ?a)] => replace (a - a) with 0 by ring end. rewrite Rabs_R0, Rmult_0_r, sqrt_0. ring.
    - replace (- ln c + (- v / s) ^ 2 / 2 - (- ln c + (v / s) ^ 2 / 2)) with 0 by (field; lra). rewrite Rabs_R0, Rmult_0_r, sqrt_0. reflexivity. }
  rewrite ER, all_some_map. assert (EP : polyfit (cut half_levels) [0; 0] = (0, 0)).
  { assert (X : cut half_levels = [INR 10 - 21 / 2; INR 11 - 21 / 2]) by (unfold half_levels; rewrite cut_map; reflexivity). rewrite X. assert (NE : INR 10 - 21 / 2 <> INR 11 - 21 / 2) by (cbn; lra). pose proof (line_exact polyfit [INR 10 - 21 / 2; INR 11 - 21 / 2] 0 0 0 1 LS ltac:(cbn [List.length]; lia) ltac:(cbn [List.length]; lia) NE) as Q. cbn [map] in Q. rewrite !Rmult_0_l, !Rplus_0_l in Q. exact Q. }
  rewrite EP. cbn [fst snd]. destruct (Req_EM_T 0 0) as [_|Q]; [|contradiction]. reflexivity.
Qed.
