From Coq Require Import Reals ZArith Lra Lia List Bool Psatz Permutation Sorted.
From Verif Require Import Base PolyModel FilterModel FilterProofs2 GridModel WaveModel KdeModel ProcModel ProcSpec CovProofs2 PolyProofs ProcProofs KernelModel KernelProofs8 TkdeModel QlevModel QlevSpec QlevProofs QlevProofs2 QlevProofs3 QlevProofs4.
Import ListNotations.
Local Open Scope R_scope.

(* ---- the trapezoidal rule ---- *)
Lemma trapezoid_widths x : forall e f, x <> [] -> List.length f = List.length x ->
  total (map2 Rmult f (let dx := map (fun d => d * (1 / 2)) (diffR x) in map2 Rplus (e :: dx) (dx ++ [0]))) = e * nth 0 f 0 + trapezoid x f.
Proof.
  induction x as [|a x IH]; intros e f N L; [congruence|]. destruct f as [|u f]; [discriminate|]. destruct x as [|b x].
  - destruct f; [|discriminate]. cbn. ring.
  - destruct f as [|v f]; [discriminate|]. specialize (IH ((b - a) * (1 / 2)) (v :: f) ltac:(discriminate) ltac:(cbn in *; lia)). cbv zeta in *.
    transitivity (u * (e + (b - a) * (1 / 2)) + total (map2 Rmult (v :: f) (map2 Rplus ((b - a) * (1 / 2) :: map (fun d => d * (1 / 2)) (diffR (b :: x))) (map (fun d => d * (1 / 2)) (diffR (b :: x)) ++ [0])))); [reflexivity|].
    assert (IH' : total (map2 Rmult (v :: f) (map2 Rplus ((b - a) * (1 / 2) :: map (fun d => d * (1 / 2)) (diffR (b :: x))) (map (fun d => d * (1 / 2)) (diffR (b :: x)) ++ [0]))) = (b - a) * (1 / 2) * nth 0 (v :: f) 0 + trapezoid (b :: x) (v :: f)) by exact IH. rewrite IH'. change (trapezoid (a :: b :: x) (u :: v :: f)) with ((b - a) * (u + v) / 2 + trapezoid (b :: x) (v :: f)). cbn [nth]. field.
Qed.
Lemma cells_trapezoid x pdf xy mass : x <> [] -> List.length pdf = List.length x -> cells [List.length x] pdf [x] xy = Ok mass -> total mass = trapezoid x pdf.
Proof.
  intros N L H. unfold cells in H. cbn [map] in H. assert (S1 : grid_shape xy [List.length x] = [List.length x]) by now destruct xy. rewrite S1, same_shape_true in H. assert (G : grid_points xy [widths x] = cartesian [widths x]) by now destruct xy. rewrite G, single_axis in H. assert (Q : forall a b : list R, Ok a = Ok b -> a = b) by congruence. apply Q in H. subst mass. transitivity (0 * nth 0 pdf 0 + trapezoid x pdf); [exact (trapezoid_widths x 0 pdf N L)|ring].
Qed.
Lemma at_R_total l ind : Permutation ind (seq 0 (List.length l)) -> total (map (at_R l) ind) = total l.
Proof.
  intros P. assert (E : map (at_R l) (seq 0 (List.length l)) = l). { apply (nth_ext _ _ 0 0). - now rewrite map_length, seq_length. - intros i Hi. rewrite map_length, seq_length in Hi. rewrite (nth_indep _ 0 (at_R l 0)) by (now rewrite map_length, seq_length). rewrite map_nth, seq_nth by easy. reflexivity. }
  rewrite <- E at 2. apply total_perm, Permutation_map, P.
Qed.
Lemma cumsum_last l : forall s, l <> [] -> last (cumsum s l) 0 = s + total l.
Proof.
  induction l as [|v l IH]; intros s N; [congruence|]. destruct l as [|w l]; [cbn; ring|]. change (last (cumsum s (v :: w :: l)) 0) with (last (cumsum (s + v) (w :: l)) 0). rewrite IH by discriminate. cbn. ring.
Qed.
Lemma qlevels_zero eps argsort shape pdf p xi xy mass : sorts argsort -> ~ In 0%nat shape -> cells shape pdf xi xy = Ok mass -> List.length mass = List.length pdf -> total mass = 0 -> qlevels eps argsort shape pdf p xi xy = Err ValueError.
Proof.
  intros S HS C L T. unfold qlevels. destruct (existsb _ pdf); [reflexivity|]. destruct (existsb _ p); [reflexivity|]. rewrite no_exist by (intros v Hv; apply Nat.eqb_neq; intros <-; easy). rewrite C. cbn [bind].
  assert (E : last (cumsum 0 (map (at_R mass) (rev (argsort pdf)))) 0 = 0). { destruct (S pdf) as [P _]. assert (P' : Permutation (rev (argsort pdf)) (seq 0 (List.length mass))) by (rewrite L; transitivity (argsort pdf); [apply Permutation_sym, Permutation_rev|exact P]). destruct (map (at_R mass) (rev (argsort pdf))) eqn:M; [reflexivity|]. rewrite <- M, cumsum_last by (rewrite M; discriminate). rewrite at_R_total by exact P'. lra. }
  destruct (Req_EM_T _ 0) as [_|X]; [reflexivity|]. contradiction.
Qed.

(* ---- quantile levels of samples ---- *)
Lemma ss_at s i j : StronglySorted Rle s -> (i <= j < List.length s)%nat -> at_R s i <= at_R s j.
Proof.
  intros H. revert i j. induction H as [|a s H IH F]; intros i j [A B]; [cbn in B; lia|]. unfold at_R in *. destruct i as [|i], j as [|j]; cbn [nth List.length] in *; [lra| |lia|apply IH; lia]. rewrite Forall_forall in F. apply F, nth_In. lia.
Qed.
Lemma floor_place t n : 0 <= t <= INR n -> let j := Z.to_nat (floor t) in INR j <= t < INR j + 1 /\ (j <= n)%nat.
Proof. exact (place t n). Qed.
Lemma ceil_place t n : 0 <= t <= INR n -> let j := Z.to_nat (ceil t) in INR j - 1 < t <= INR j /\ (j <= n)%nat.
Proof.
  intros H j. pose proof (ceil_spec t) as C. assert (0 <= ceil t)%Z. { apply Z.lt_succ_r, lt_IZR. rewrite succ_IZR. lra. } assert (E : INR j = IZR (ceil t)) by (unfold j; now rewrite INR_IZR_INZ, Z2Nat.id). split; [lra|]. assert ((j < S n)%nat); [|lia]. apply INR_lt. rewrite S_INR. lra.
Qed.
Lemma ceil_place_unique t j : 0 <= t -> INR j - 1 < t <= INR j -> Z.to_nat (ceil t) = j.
Proof. intros P H. rewrite (ceil_unique t (Z.of_nat j)) by (now rewrite <- INR_IZR_INZ). now rewrite Nat2Z.id. Qed.
Lemma position n v : 0 <= v <= 100 -> 0 <= INR (n - 1) * ((100 - v) / 100) <= INR (n - 1).
Proof. intros H. pose proof (pos_INR (n - 1)). split; [apply Rmult_le_pos; lra|]. rewrite <- (Rmult_1_r (INR (n - 1))) at 2. apply Rmult_le_compat_l; lra. Qed.
Lemma linear_between s t : StronglySorted Rle s -> s <> [] -> 0 <= t <= INR (List.length s - 1) -> at_R s (Z.to_nat (floor t)) <= interp s t <= at_R s (Z.to_nat (ceil t)).
Proof.
  intros H N T. assert (L : (1 <= List.length s)%nat) by (destruct s; [congruence|cbn; lia]). destruct (floor_place t _ T) as [F1 F2]. destruct (ceil_place t _ T) as [C1 C2]. unfold interp. change (Int_part t) with (floor t). set (j := Z.to_nat (floor t)) in *. set (k := Z.to_nat (ceil t)) in *. destruct (Req_dec t (INR j)) as [E|E].
  - assert (k = j) by (unfold k; apply ceil_place_unique; [easy|lra]). rewrite H0. rewrite E. rewrite Rminus_diag_eq by reflexivity. lra.
  - assert (K : k = S j) by (unfold k; apply ceil_place_unique; [easy|rewrite S_INR; lra]). assert (M : Nat.min (S j) (List.length s - 1) = S j) by lia. rewrite M, K. pose proof (ss_at s j (S j) H ltac:(lia)). nra.
Qed.
Lemma percentile_between r q l : l <> [] -> 0 <= INR (List.length l - 1) * (q / 100) <= INR (List.length l - 1) ->
  let t := INR (List.length l - 1) * (q / 100) in at_R (sortR l) (Z.to_nat (floor t)) <= percentile_by r q l <= at_R (sortR l) (Z.to_nat (ceil t)).
Proof.
  intros N T t. fold t in T. assert (NS : sortR l <> []). { intros E. pose proof (sortR_length l) as Q. rewrite E in Q. destruct l; [congruence|discriminate]. } assert (L : (1 <= List.length l)%nat) by (destruct l; [congruence|cbn; lia]).
  assert (T' : 0 <= t <= INR (List.length (sortR l) - 1)) by now rewrite sortR_length. pose proof (linear_between (sortR l) t (sortR_sorted l) NS T') as LB. destruct r; unfold percentile_by; fold t.
  - rewrite percentile_interp. exact LB.
  - lra.
  - lra.
  - lra.
Qed.
Lemma interp_mono s t t' : StronglySorted Rle s -> s <> [] -> 0 <= t -> t <= t' -> t' <= INR (List.length s - 1) -> interp s t <= interp s t'.
Proof.
  intros H N T A T'. assert (L : (1 <= List.length s)%nat) by (destruct s; [congruence|cbn; lia]). destruct (floor_place t _ (conj T (Rle_trans _ _ _ A T'))) as [F1 F2]. destruct (floor_place t' _ (conj (Rle_trans _ _ _ T A) T')) as [G1 G2]. destruct (Nat.eq_dec (Z.to_nat (floor t)) (Z.to_nat (floor t'))) as [E|E].
  - unfold interp. change (Int_part t) with (floor t). change (Int_part t') with (floor t'). rewrite <- E. set (j := Z.to_nat (floor t)) in *. pose proof (ss_at s j (Nat.min (S j) (List.length s - 1)) H ltac:(lia)). nra.
  - assert (J : (S (Z.to_nat (floor t)) <= Z.to_nat (floor t'))%nat). { assert ((Z.to_nat (floor t) < S (Z.to_nat (floor t')))%nat); [|lia]. apply INR_lt. rewrite S_INR. lra. } destruct (linear_between s t H N (conj T (Rle_trans _ _ _ A T'))) as [_ U]. destruct (linear_between s t' H N (conj (Rle_trans _ _ _ T A) T')) as [V _]. destruct (ceil_place t _ (conj T (Rle_trans _ _ _ A T'))) as [C1 C2]. assert (K : (Z.to_nat (ceil t) <= Z.to_nat (floor t'))%nat). { transitivity (S (Z.to_nat (floor t))); [|exact J]. assert ((Z.to_nat (ceil t) < S (S (Z.to_nat (floor t))))%nat); [|lia]. apply INR_lt. rewrite !S_INR. lra. } pose proof (ss_at s _ _ H (conj K (ltac:(lia) : (Z.to_nat (floor t') < List.length s)%nat))). lra.
Qed.
Lemma percentile_mono r q q' l : l <> [] -> 0 <= q -> q <= q' -> q' <= 100 -> percentile_by r q l <= percentile_by r q' l.
Proof.
  intros N A B C. assert (L : (1 <= List.length l)%nat) by (destruct l; [congruence|cbn; lia]). set (n := INR (List.length l - 1)). assert (n0 : 0 <= n) by apply pos_INR. set (t := n * (q / 100)). set (t' := n * (q' / 100)). assert (T : 0 <= t) by (unfold t; apply Rmult_le_pos; lra). assert (TT : t <= t') by (unfold t, t'; apply Rmult_le_compat_l; lra). assert (T' : t' <= n) by (unfold t'; rewrite <- (Rmult_1_r n) at 2; apply Rmult_le_compat_l; lra).
  assert (TA : 0 <= t <= n) by (split; [exact T|exact (Rle_trans _ _ _ TT T')]). assert (TB : 0 <= t' <= n) by (split; [exact (Rle_trans _ _ _ T TT)|exact T']). destruct (floor_place t _ TA) as [F1 F2]. destruct (floor_place t' _ TB) as [G1 G2]. destruct (ceil_place t _ TA) as [C1 C2]. destruct (ceil_place t' _ TB) as [D1 D2].
  assert (FL : at_R (sortR l) (Z.to_nat (floor t)) <= at_R (sortR l) (Z.to_nat (floor t'))). { apply ss_at; [apply sortR_sorted|]. rewrite sortR_length. split; [|lia]. assert ((Z.to_nat (floor t) < S (Z.to_nat (floor t')))%nat); [|lia]. apply INR_lt. rewrite S_INR. clearbody t t'. lra. }
  assert (CL : at_R (sortR l) (Z.to_nat (ceil t)) <= at_R (sortR l) (Z.to_nat (ceil t'))). { apply ss_at; [apply sortR_sorted|]. rewrite sortR_length. split; [|lia]. assert ((Z.to_nat (ceil t) < S (Z.to_nat (ceil t')))%nat); [|lia]. apply INR_lt. rewrite S_INR. clearbody t t'. lra. }
  destruct r; unfold percentile_by; fold n; fold t; fold t'.
  - rewrite !percentile_interp. fold n. fold t. fold t'. apply interp_mono; [apply sortR_sorted| |exact T|exact TT|now rewrite sortR_length]. intros E. pose proof (sortR_length l) as Q. rewrite E in Q. destruct l; [congruence|discriminate].
  - lra.
  - exact FL.
  - exact CL.
Qed.
Lemma filter_perm {A} (P : A -> bool) l m : Permutation l m -> List.length (filter P l) = List.length (filter P m).
Proof. induction 1; cbn; auto; [destruct (P x); cbn; now rewrite IHPermutation|destruct (P x), (P y); reflexivity|congruence]. Qed.
Lemma filter_all {A} (P : A -> bool) l : (forall a, In a l -> P a = true) -> filter P l = l.
Proof. induction l as [|a l IH]; intros H; [reflexivity|]. cbn. rewrite (H a (or_introl eq_refl)), IH; [reflexivity|]. intros b Hb. apply H. now right. Qed.
Lemma filter_none {A} (P : A -> bool) l : (forall a, In a l -> P a = false) -> filter P l = [].
Proof. induction l as [|a l IH]; intros H; [reflexivity|]. cbn. rewrite (H a (or_introl eq_refl)), IH; [reflexivity|]. intros b Hb. apply H. now right. Qed.
Lemma filter_le {A} (P : A -> bool) l : (List.length (filter P l) <= List.length l)%nat.
Proof. induction l as [|a l IH]; cbn; [lia|]. destruct (P a); cbn; lia. Qed.
Lemma count_above l L c : (c < List.length l)%nat -> L <= at_R (sortR l) c -> (List.length l - c <= count_ge l L)%nat.
Proof.
  intros C H. unfold count_ge. rewrite (filter_perm _ _ _ (sortR_perm l)). rewrite <- (firstn_skipn c (sortR l)), filter_app, app_length. rewrite (filter_all _ (skipn c (sortR l))).
  - rewrite skipn_length, sortR_length. lia.
  - intros a Ha. destruct (In_nth _ _ 0 Ha) as (i & Hi & <-). rewrite skipn_length, sortR_length in Hi. assert (EK : nth i (skipn c (sortR l)) 0 = nth (c + i) (sortR l) 0) by (rewrite <- (firstn_skipn c (sortR l)) at 2; rewrite app_nth2 by (rewrite firstn_length, sortR_length; lia); rewrite firstn_length, sortR_length; f_equal; lia). rewrite EK. pose proof (ss_at (sortR l) c (c + i) (sortR_sorted l) ltac:(rewrite sortR_length; lia)) as Q. unfold at_R in *. destruct (Rle_dec L _); [reflexivity|]. lra.
Qed.
Lemma count_over l L f : (f < List.length l)%nat -> at_R (sortR l) f <= L -> (count_gt l L <= List.length l - 1 - f)%nat.
Proof.
  intros C H. unfold count_gt. rewrite (filter_perm _ _ _ (sortR_perm l)). rewrite <- (firstn_skipn (S f) (sortR l)), filter_app, app_length. rewrite (filter_none _ (firstn (S f) (sortR l))).
  - cbn [List.length]. pose proof (filter_le (fun v => if Rlt_dec L v then true else false) (skipn (S f) (sortR l))) as Q. rewrite skipn_length, sortR_length in Q. lia.
  - intros a Ha. destruct (In_nth _ _ 0 Ha) as (i & Hi & <-). rewrite firstn_length, sortR_length in Hi. assert (E : nth i (firstn (S f) (sortR l)) 0 = nth i (sortR l) 0) by (rewrite <- (firstn_skipn (S f) (sortR l)) at 2; rewrite app_nth1 by (rewrite firstn_length, sortR_length; lia); reflexivity). rewrite E. pose proof (ss_at (sortR l) i f (sortR_sorted l) ltac:(rewrite sortR_length; lia)) as Q. unfold at_R in *. destruct (Rlt_dec L _); [lra|reflexivity].
Qed.
Lemma count_bounds r v l : l <> [] -> 0 <= v <= 100 -> let L := percentile_by r (100 - v) l in let n := INR (List.length l - 1) in
  n * (v / 100) < INR (count_ge l L) /\ INR (count_gt l L) < n * (v / 100) + 1.
Proof.
  intros N V L n. assert (Hl : (1 <= List.length l)%nat) by (destruct l; [congruence|cbn; lia]). pose proof (position (List.length l) v V) as T. destruct (percentile_between r (100 - v) l N T) as [A B]. fold L in A, B. set (t := INR (List.length l - 1) * ((100 - v) / 100)) in *. assert (TV : t = n - n * (v / 100)) by (unfold t, n; field). clearbody L t.
  destruct (floor_place t _ T) as [F1 F2]. destruct (ceil_place t _ T) as [C1 C2]. pose proof (count_above l L (Z.to_nat (ceil t)) ltac:(lia) B) as K1. pose proof (count_over l L (Z.to_nat (floor t)) ltac:(lia) A) as K2. apply le_INR in K1, K2. rewrite minus_INR in K1 by lia. rewrite minus_INR in K2 by lia. fold n in K2. assert (Hn : n = INR (List.length l) - 1) by (unfold n; rewrite minus_INR by lia; reflexivity). lra.
Qed.
Lemma percentile_range r q l : l <> [] -> 0 <= q <= 100 -> (exists a, In a l /\ a <= percentile_by r q l) /\ (exists b, In b l /\ percentile_by r q l <= b).
Proof.
  intros N Q. assert (Hl : (1 <= List.length l)%nat) by (destruct l; [congruence|cbn; lia]). assert (T : 0 <= INR (List.length l - 1) * (q / 100) <= INR (List.length l - 1)). { replace q with (100 - (100 - q)) by ring. apply position. lra. } destruct (percentile_between r q l N T) as [A B]. destruct (floor_place _ _ T) as [F1 F2]. destruct (ceil_place _ _ T) as [C1 C2].
  assert (I : forall i, (i < List.length l)%nat -> In (at_R (sortR l) i) l). { intros i Hi. apply (Permutation_in _ (Permutation_sym (sortR_perm l))), nth_In. now rewrite sortR_length. }
  split; eexists; (split; [|eassumption]); apply I; lia.
Qed.

Definition method_rule (m : Z) : option rule := if (m =? 1)%Z then Some Linear else if (m =? 2)%Z then Some Midpoint else if (m =? 3)%Z then Some Lower else if (m =? 4)%Z then Some Higher else None.
Lemma qlevels2_eq data p m : qlevels2 data p m = match method_rule m with None => Err ValueError | Some r => if existsb (fun v => if Rlt_dec (100 - v) 0 then true else if Rlt_dec 100 (100 - v) then true else false) p then Err ValueError else Ok (map (fun v => map (percentile_by r (100 - v)) data) p) end.
Proof. unfold qlevels2, method_rule. destruct (m =? 1)%Z; [reflexivity|]. destruct (m =? 2)%Z; [reflexivity|]. destruct (m =? 3)%Z; [reflexivity|]. destruct (m =? 4)%Z; reflexivity. Qed.
Lemma method_rule_some m : (1 <= m <= 4)%Z -> exists r, method_rule m = Some r.
Proof. intros H. unfold method_rule. destruct (Z.eqb_spec m 1); [eauto|]. destruct (Z.eqb_spec m 2); [eauto|]. destruct (Z.eqb_spec m 3); [eauto|]. destruct (Z.eqb_spec m 4); [eauto|]. lia. Qed.
Lemma method_rule_none m : (m < 1 \/ 4 < m)%Z -> method_rule m = None.
Proof. intros H. unfold method_rule. destruct (Z.eqb_spec m 1); [lia|]. destruct (Z.eqb_spec m 2); [lia|]. destruct (Z.eqb_spec m 3); [lia|]. destruct (Z.eqb_spec m 4); [lia|]. reflexivity. Qed.
Lemma qlevels2_errors data p m : ((m < 1 \/ 4 < m)%Z \/ exists v, In v p /\ (v < 0 \/ 100 < v)) -> qlevels2 data p m = Err ValueError.
Proof.
  intros [H|(v & Hv & H)]; rewrite qlevels2_eq; [now rewrite method_rule_none|]. destruct (method_rule m); [|reflexivity]. assert (E : existsb (fun v => if Rlt_dec (100 - v) 0 then true else if Rlt_dec 100 (100 - v) then true else false) p = true) by (apply existsb_exists; exists v; split; [exact Hv|]; destruct (Rlt_dec (100 - v) 0), (Rlt_dec 100 (100 - v)); try reflexivity; lra). now rewrite E.
Qed.
Lemma qlevels2_ok data p m : (forall v, In v p -> 0 <= v <= 100) -> (1 <= m <= 4)%Z -> exists r, method_rule m = Some r /\ qlevels2 data p m = Ok (map (fun v => map (percentile_by r (100 - v)) data) p).
Proof.
  intros P M. destruct (method_rule_some m M) as [r R]. exists r. split; [exact R|]. rewrite qlevels2_eq, R. rewrite no_exist; [reflexivity|]. intros v Hv. specialize (P v Hv). destruct (Rlt_dec (100 - v) 0), (Rlt_dec 100 (100 - v)); try reflexivity; lra.
Qed.
Lemma levels2_main data p m : Forall (fun row => row <> []) data -> (forall v, In v p -> 0 <= v <= 100) -> (1 <= m <= 4)%Z ->
  exists level, qlevels2 data p m = Ok (map (fun v => map (level v) data) p) /\
    forall v row, In v p -> In row data ->
      ((exists a, In a row /\ a <= level v row) /\ (exists b, In b row /\ level v row <= b)) /\
      INR (List.length row - 1) * (v / 100) < INR (count_ge row (level v row)) /\ INR (count_gt row (level v row)) < INR (List.length row - 1) * (v / 100) + 1 /\
      (forall v', In v' p -> v <= v' -> level v' row <= level v row).
Proof.
  intros D P M. destruct (qlevels2_ok data p m P M) as (r & _ & E). exists (fun v => percentile_by r (100 - v)). split; [exact E|]. intros v row Hv Hr. rewrite Forall_forall in D. specialize (D row Hr). pose proof (P v Hv) as V. split; [apply percentile_range; [exact D|lra]|]. destruct (count_bounds r v row D V) as [A B]. split; [exact A|]. split; [exact B|]. intros v' Hv' LE. pose proof (P v' Hv'). apply percentile_mono; [exact D|lra|lra|lra].
Qed.
Lemma levels2_position s row k m F : Permutation row s -> StronglySorted Rle s -> (k < List.length s)%nat -> (2 <= List.length s)%nat ->
  (m = 1%Z /\ F = INR k / (INR (List.length s) - 1) \/ m = 3%Z /\ F = (INR k + 1) / INR (List.length s) \/ m = 4%Z /\ F = INR k / INR (List.length s)) ->
  qlevels2 [row] [100 - 100 * F] m = Ok [[nth k s 0]].
Proof.
  intros P H K N C. assert (ES : sortR row = s) by (apply sorted_unique; [apply sortR_sorted|exact H|transitivity row; [apply Permutation_sym, sortR_perm|exact P]]). assert (EL : List.length row = List.length s) by now apply Permutation_length. set (n := List.length s) in *. assert (IN : INR (n - 1) = INR n - 1) by (rewrite minus_INR by lia; reflexivity). assert (n2 : 2 <= INR n) by (apply (le_INR 2); exact N). assert (kn : INR k <= INR n - 1) by (rewrite <- IN; apply le_INR; lia). pose proof (pos_INR k) as k0.
  assert (F01 : 0 <= F <= 1). { assert (G : forall a b, 0 < b -> 0 <= a <= b -> 0 <= a / b <= 1). { intros a b Hb [Ha Hab]. split; [apply Rmult_le_pos; [lra|left; now apply Rinv_0_lt_compat]|]. apply Rmult_le_reg_r with b; [lra|]. unfold Rdiv. rewrite Rmult_assoc, Rinv_l by lra. lra. } destruct C as [[_ ->]|[[_ ->]|[_ ->]]]; apply G; lra. }
  destruct (qlevels2_ok [row] [100 - 100 * F] m) as (r & R & E); [intros v [<-|[]]; lra|lia|]. rewrite E. cbn [map]. f_equal. f_equal. f_equal.
  assert (T : INR (List.length row - 1) * ((100 - (100 - 100 * F)) / 100) = (INR n - 1) * F) by (rewrite EL, IN; field). 
  assert (KI : 0 < / INR n) by (apply Rinv_0_lt_compat; lra). assert (KN : INR n * / INR n = 1) by (apply Rinv_r; lra).
  destruct C as [[-> ->]|[[-> ->]|[-> ->]]]; unfold method_rule in R; cbn in R; assert (Q : forall a b : rule, Some a = Some b -> a = b) by congruence; apply Q in R; subst r; unfold percentile_by; rewrite ?percentile_interp, T, ES.
  - assert (X : (INR n - 1) * (INR k / (INR n - 1)) = INR k) by (field; lra). rewrite X. unfold interp. rewrite (place_unique (INR k) k) by lra. unfold at_R. ring.
  - assert (X : floor ((INR n - 1) * ((INR k + 1) / INR n)) = Z.of_nat k). { apply floor_unique. rewrite <- INR_IZR_INZ. assert (Y : (INR n - 1) * ((INR k + 1) / INR n) = INR k + 1 - (INR k + 1) * / INR n) by (field; lra). rewrite Y. assert (0 < (INR k + 1) * / INR n) by (apply Rmult_lt_0_compat; lra). assert ((INR k + 1) * / INR n <= 1); [|lra]. rewrite <- KN. apply Rmult_le_compat_r; lra. } rewrite X, Nat2Z.id. reflexivity.
  - assert (X : ceil ((INR n - 1) * (INR k / INR n)) = Z.of_nat k). { apply ceil_unique. rewrite <- INR_IZR_INZ. assert (Y : (INR n - 1) * (INR k / INR n) = INR k - INR k * / INR n) by (field; lra). rewrite Y. assert (0 <= INR k * / INR n) by (apply Rmult_le_pos; lra). assert (INR k * / INR n < 1); [|lra]. rewrite <- KN. apply Rmult_lt_compat_r; lra. } rewrite X, Nat2Z.id. reflexivity.
Qed.
Lemma levels2_midpoint s row : Permutation row s -> StronglySorted Rle s -> (2 <= List.length s)%nat -> nth 0 s 0 < nth 1 s 0 ->
  qlevels2 [row] [100 - 100 * ((0 + 1 / 2) / INR (List.length s))] 2 = Ok [[(nth 0 s 0 + nth 1 s 0) / 2]] /\ (nth 0 s 0 + nth 1 s 0) / 2 <> nth 0 s 0.
Proof.
  intros P H N D. split; [|lra]. assert (ES : sortR row = s) by (apply sorted_unique; [apply sortR_sorted|exact H|transitivity row; [apply Permutation_sym, sortR_perm|exact P]]). assert (EL : List.length row = List.length s) by now apply Permutation_length. set (n := List.length s) in *. assert (IN : INR (n - 1) = INR n - 1) by (rewrite minus_INR by lia; reflexivity). assert (n2 : 2 <= INR n) by (apply (le_INR 2); exact N).
  assert (KI : 0 < / INR n) by (apply Rinv_0_lt_compat; lra). assert (KN : INR n * / INR n = 1) by (apply Rinv_r; lra). assert (KH : / INR n <= 1 / 2). { apply Rmult_le_reg_l with (INR n); lra. } set (F := (0 + 1 / 2) / INR n). assert (FE : F = / INR n / 2) by (unfold F; field; lra).
  destruct (qlevels2_ok [row] [100 - 100 * F] 2) as (r & R & E); [intros v [<-|[]]; lra|lia|]. rewrite E. cbn [map]. f_equal. f_equal. f_equal. unfold method_rule in R. cbn in R. assert (Q : forall a b : rule, Some a = Some b -> a = b) by congruence. apply Q in R. subst r. unfold percentile_by.
  assert (T : INR (List.length row - 1) * ((100 - (100 - 100 * F)) / 100) = 1 / 2 - / INR n / 2) by (rewrite EL, IN, FE; field; lra). rewrite T, ES. rewrite (floor_unique _ 0) by (cbn; lra). rewrite (ceil_unique _ 1) by (cbn; lra). reflexivity.
Qed.
