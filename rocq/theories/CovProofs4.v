From Coq Require Import Reals Lra Lia.
From Coquelicot Require Import Complex.
From Verif Require Import Base PolyModel KdeModel GridSpec DftModel DftProofs CovModel CovSpec CovProofs CovProofs2 CovProofs3.
Local Open Scope R_scope.

(* ---- adding a constant ---- *)
Lemma is_nan_nmap f v : is_nan (nmap f v) = is_nan v. Proof. now destruct v. Qed.
Lemma existsb_nan f x : existsb is_nan (map (nmap f) x) = existsb is_nan x.
Proof. induction x as [|v x IH]; [reflexivity|]. cbn. now rewrite is_nan_nmap, IH. Qed.
Lemma filter_nan f x : List.length (filter is_nan (map (nmap f) x)) = List.length (filter is_nan x).
Proof. induction x as [|v x IH]; [reflexivity|]. cbn. rewrite is_nan_nmap. destruct (is_nan v); cbn; now rewrite IH. Qed.
Lemma numbers_nmap f x : numbers (map (nmap f) x) = option_map (map f) (numbers x).
Proof. induction x as [|v x IH]; [reflexivity|]. cbn [map numbers]. rewrite IH. destruct v, (numbers x); reflexivity. Qed.
Lemma average_shift c l : l <> [] -> average (map (Rplus c) l) = c + average l.
Proof.
  intros H. unfold average. rewrite map_length. assert (E : npsum (map (Rplus c) l) = INR (List.length l) * c + npsum l).
  { clear. unfold npsum. induction l as [|a l IH]; [cbn; ring|]. cbn [map fold_right]. rewrite IH. cbn [List.length]. rewrite S_INR. ring. }
  rewrite E. assert (0 < INR (List.length l)) by (apply lt_0_INR; destruct l; [easy|cbn; lia]). field. lra.
Qed.
Lemma numbers_length x r : numbers x = Some r -> List.length r = List.length x.
Proof.
  revert r. induction x as [|v x IH]; intros r H; cbn in H; [injection H as <-; reflexivity|]. destruct v; [|discriminate]. destruct (numbers x) eqn:E; [|discriminate].
  injection H as <-. cbn. now rewrite (IH l).
Qed.
Lemma mean_shift c x : x <> [] -> mean (map (nmap (Rplus c)) x) = nmap (Rplus c) (mean x).
Proof.
  intros H. unfold mean. rewrite numbers_nmap. destruct (numbers x) as [r|] eqn:E; [|reflexivity]. cbn. rewrite average_shift; [reflexivity|].
  apply numbers_length in E. intros ->. destruct x; [easy|discriminate].
Qed.
Lemma nop_shift c v m : nop Rminus (nmap (Rplus c) v) (nmap (Rplus c) m) = nop Rminus v m.
Proof. destruct v, m; cbn; auto. f_equal. ring. Qed.
Lemma centre_shift c x : centre (map (nmap (Rplus c)) x) = centre x.
Proof.
  destruct x as [|v0 x0]; [reflexivity|]. set (x := v0 :: x0). assert (Hx : x <> []) by easy. unfold centre. rewrite existsb_nan, map_length, filter_nan. destruct (existsb is_nan x).
  - f_equal. set (pk := fun v => nth (if is_nan v then 0%nat else 1%nat) x None).
    replace (map (fun v => nth (if is_nan v then 0%nat else 1%nat) (map (nmap (Rplus c)) x) None) (map (nmap (Rplus c)) x)) with (map (nmap (Rplus c)) (map pk x)).
    2:{ rewrite !map_map. apply map_ext. intros v. rewrite is_nan_nmap. unfold pk. symmetry. apply (map_nth (nmap (Rplus c)) x None). }
    rewrite mean_shift by (unfold x; easy). rewrite map_map. apply map_ext. intros v. rewrite is_nan_nmap. destruct (is_nan v); [reflexivity|]. apply nop_shift.
  - f_equal. rewrite mean_shift by easy. rewrite map_map. apply map_ext. intros v. apply nop_shift.
Qed.
Lemma shift_invariant o dt c x : tocovdata o dt (map (nmap (Rplus c)) x) = tocovdata o dt x.
Proof. unfold tocovdata. now rewrite centre_shift, map_length. Qed.

(* ---- multiplying by a constant ---- *)
Lemma mean_scale c x : mean_of (map (Rmult c) x) = c * mean_of x.
Proof.
  unfold mean_of. rewrite map_length. replace (sumR (map (Rmult c) x)) with (c * sumR x); [unfold Rdiv; ring|].
  unfold sumR. induction x as [|a x IH]; [cbn; ring|]. cbn [map fold_right]. rewrite <- IH. ring.
Qed.
Lemma centred_scale c x : centred (map (Rmult c) x) = map (Rmult c) (centred x).
Proof. unfold centred. rewrite mean_scale, !map_map. apply map_ext. intros; ring. Qed.
Lemma at_R_scale c x i : at_R (map (Rmult c) x) i = c * at_R x i.
Proof. unfold at_R. rewrite <- (map_nth (Rmult c)). f_equal. ring. Qed.
Lemma lagged_scale c x k : lagged (map (Rmult c) x) k = c ^ 2 * lagged x k.
Proof.
  unfold lagged. rewrite map_length. fold (Sum (List.length x - k) (fun j => at_R (map (Rmult c) x) j * at_R (map (Rmult c) x) (j + k))).
  fold (Sum (List.length x - k) (fun j => at_R x j * at_R x (j + k))). rewrite <- Sum_mul. apply Sum_ext. intros i Hi. rewrite !at_R_scale. ring.
Qed.
Lemma wrapped_scale c x N k : wrapped (map (Rmult c) x) N k = c ^ 2 * wrapped x N k.
Proof. unfold wrapped. rewrite centred_scale, !lagged_scale, map_length. unfold Rdiv. ring. Qed.
Lemma scale_squared L dt c x : (0 < L)%nat -> (3 <= List.length x)%nat ->
  exists d e, tocovdata (plain L) dt (values x) = Ok d /\ tocovdata (plain L) dt (values (map (Rmult c) x)) = Ok e
    /\ args e = args d /\ data e = map (nmap (Rmult (c ^ 2))) (data d).
Proof.
  intros HL Hn. destruct (estimate_plain L dt x _ HL Hn (pow2_above_spec _)) as (d & E & E1 & E2 & E3 & E4 & E5).
  destruct (estimate_plain L dt (map (Rmult c) x) (pow2_above (List.length x)) HL ltac:(now rewrite map_length) ltac:(rewrite map_length; apply pow2_above_spec)) as (e & F & F1 & F2 & F3 & F4 & F5).
  rewrite map_length in *. exists d, e. split; [easy|]. split; [easy|]. split.
  - apply nth_ext with (d := 0) (d' := 0); [congruence|]. intros i Hi. fold (at_R (args e) i). fold (at_R (args d) i). rewrite E3, F3 by lia. reflexivity.
  - apply (@nth_ext num) with (d := None) (d' := None); [now rewrite map_length, E1, F1|]. intros i Hi. change (@None R) with (nmap (Rmult (c ^ 2)) None) at 2.
    rewrite (map_nth (nmap (Rmult (c ^ 2)))). destruct (Nat.eq_dec i (Nat.min L (List.length x - 2))) as [->|Hne].
    + rewrite E4, F4. cbn. f_equal. ring.
    + rewrite E5, F5 by lia. cbn [nmap]. now rewrite wrapped_scale.
Qed.

(* ---- the deviations ---- *)
Lemma cumsum_nth (a : nat -> R) : forall n b k acc, (k < n)%nat ->
  nth k (cumsum (Some acc) (map (fun i => Some (a i)) (seq b n))) None = Some (acc + sumR (map a (seq b (S k)))).
Proof.
  induction n as [|n IH]; intros b k acc Hk; [lia|]. cbn [seq map cumsum nop]. destruct k as [|k].
  - cbn. f_equal. unfold sumR; cbn. ring.
  - cbn [nth]. rewrite IH by lia. f_equal. rewrite <- cons_seq. cbn [map]. unfold sumR. cbn [fold_right]. ring.
Qed.
Lemma sigma_nth (a : nat -> R) n c s : (0 < n)%nat -> (0 < c)%nat -> large_lag_sigma (map (fun i => Some (a i)) (seq 0 n)) c = Ok s ->
  forall k, (k <= n)%nat -> nth k s None = Some (deviation a c k).
Proof.
  intros Hn Hc E k Hk. destruct n as [|n]; [lia|]. cbn [seq map] in E. unfold large_lag_sigma in E. injection E as <-.
  assert (Hc' : INR c <> 0) by (apply not_0_INR; lia).
  destruct k as [|[|k]].
  - cbn. destruct (Req_EM_T (INR c) 0); [easy|]. cbn. unfold Rdiv. now rewrite Rmult_0_l, sqrt_0.
  - cbn. destruct (Req_EM_T (INR c) 0); [easy|]. cbn. unfold bartlett, sumR. cbn. do 3 f_equal. ring.
  - cbn [map nth]. rewrite map_map. set (f := fun x0 : num => nmap sqrt (ndiv (nop Rplus (nsqr (Some (a 0%nat))) (nmap (Rmult 2) x0)) (Some (INR c)))).
    change (@None R) with (f None). rewrite (map_nth f). rewrite map_map.
    replace (map (fun x : nat => nsqr (Some (a x))) (seq 1 n)) with (map (fun x => Some (a x * a x)) (seq 1 n)) by reflexivity.
    change (f None) with (@None R).
    rewrite (cumsum_nth (fun i => a i * a i)) by lia. unfold f. cbn [nmap nsqr nop ndiv]. destruct (Req_EM_T (INR c) 0); [easy|]. cbn [nmap]. unfold deviation, bartlett. do 3 f_equal.
    replace (S (S k) - 1)%nat with (S k) by lia. rewrite Rplus_0_l. f_equal; [ring|]. f_equal. f_equal. apply map_ext. intros; ring.
Qed.
Lemma estimate_sigma L dt x : (0 < L)%nat -> (3 <= List.length x)%nat ->
  exists c, tocovdata (plain L) dt (values x) = Ok c /\
    forall k, (k <= List.length (data c))%nat -> nth k (sigma c) None = Some (deviation (number (data c)) (List.length x) k).
Proof.
  intros HL Hn.
  destruct (from_centred (plain L) boxcar false L dt (values x) (centred x) (List.length x)) as (s & E & F).
  1,2,3,4: easy. 1: apply boxcar_sized. 1: now cbn; rewrite centre_values. 1: rewrite centred_length, values_length; apply pow2_above_ge. 1,2,3: rewrite ?values_length; lia.
  rewrite values_length in *. set (l := Nat.min L (List.length x - 2)) in *. eexists. split; [exact E|]. cbn [data sigma].
  set (N := pow2_above (List.length x)) in *. assert (HN : (List.length x <= N)%nat) by apply pow2_above_ge.
  set (g := fun k => at_R (boxcar (2 * l - 1)) (l - 1 + k) * raw (List.length x) (centred x) (List.length x) k) in *.
  set (a := fun k => if (k <? l)%nat then g k else if (k =? l)%nat then 0 else raw (List.length x) (centred x) (List.length x) k).
  assert (Ea : map (fun k => Some (g k)) (seq 0 l) = map (fun k => Some (a k)) (seq 0 l)).
  { apply map_ext_in. intros i Hi. apply in_seq in Hi. unfold a. now replace (i <? l)%nat with true by (symmetry; apply Nat.ltb_lt; lia). }
  assert (El : a l = 0) by (unfold a; now rewrite Nat.ltb_irrefl, Nat.eqb_refl).
  change (large_lag_sigma (map (fun k => Some (g k)) (seq 0 l) ++ Some 0 :: map (fun k => Some (raw (List.length x) (centred x) (List.length x) k)) (seq (S l) (N - S l))) (List.length x) = Ok s) in F.
  change (map _ (seq 0 l)) with (map (fun k => Some (g k)) (seq 0 l)).
  assert (E2 : map (fun k => Some (g k)) (seq 0 l) ++ Some 0 :: map (fun k => Some (raw (List.length x) (centred x) (List.length x) k)) (seq (S l) (N - S l)) = map (fun k => Some (a k)) (seq 0 N)).
  { replace N with (l + S (N - S l))%nat at 2 by (unfold l; lia). rewrite seq_app, map_app, Ea. f_equal. cbn [Nat.add seq map]. rewrite El. f_equal. apply map_ext_in. intros i Hi. apply in_seq in Hi. unfold a.
    replace (i <? l)%nat with false by (symmetry; apply Nat.ltb_ge; lia). now replace (i =? l)%nat with false by (symmetry; apply Nat.eqb_neq; lia). }
  rewrite E2 in F. rewrite app_length, map_length, seq_length. intros k Hk. cbn in Hk.
  rewrite (sigma_nth a N (List.length x) s ltac:(lia) ltac:(lia) F k) by (unfold l in *; lia). f_equal.
  assert (Hnum : forall i, (i <= l)%nat -> number (map (fun k => Some (g k)) (seq 0 l) ++ [Some 0]) i = a i).
  { intros i Hi. rewrite Ea. replace (map (fun k => Some (a k)) (seq 0 l) ++ [Some 0]) with (map (fun k => Some (a k)) (seq 0 (S l))) by (rewrite seq_S, map_app; cbn [map]; now rewrite Nat.add_0_l, El).
    unfold number. rewrite (@nth_map_seq num) by lia. reflexivity. }
  destruct k as [|k]; [reflexivity|]. cbn [deviation]. unfold bartlett. change (fun k0 : nat => Some (g k0)) with (fun k0 : nat => @Some R (g k0)). rewrite Hnum by lia.
  do 3 f_equal. f_equal. apply f_equal. apply map_ext_in. intros i Hi. apply in_seq in Hi. now rewrite Hnum by lia.
Qed.
