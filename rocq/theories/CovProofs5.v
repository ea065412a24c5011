From Coq Require Import Reals Lra Lia.
From Coquelicot Require Import Complex.
From Verif Require Import Base PolyModel KdeModel GridSpec DftModel DftProofs CovModel CovSpec CovProofs CovProofs2 CovProofs3 CovProofs4.
Local Open Scope R_scope.

(* ---- the default lag ---- *)
Lemma first_true_some l i : first_true l = Some i -> nth i l false = true /\ forall j, (j < i)%nat -> nth j l false = false.
Proof.
  revert i. induction l as [|b l IH]; intros i H; cbn in H; [easy|]. destruct b.
  - injection H as <-. split; [easy|lia].
  - destruct (first_true l) as [m|]; [|easy]. injection H as <-. destruct (IH m eq_refl) as [H1 H2]. split; [easy|]. intros [|j] Hj; [easy|]. apply H2. lia.
Qed.
Lemma first_true_none l : first_true l = None -> forall j, nth j l false = false.
Proof.
  induction l as [|b l IH]; intros H j; [now destruct j|]. cbn in H. destruct b; [easy|]. destruct (first_true l); [easy|]. destruct j; [easy|]. now apply IH.
Qed.
Lemma firstn_map_seq {A} (g : nat -> A) m n : (m <= n)%nat -> firstn m (map g (seq 0 n)) = map g (seq 0 m).
Proof.
  intros H. replace n with (m + (n - m))%nat by lia. rewrite seq_app, map_app, firstn_app, map_length, seq_length, Nat.sub_diag, firstn_O, app_nil_r.
  apply firstn_all2. rewrite map_length, seq_length. lia.
Qed.
Lemma estimate_lag_spec (a : nat -> R) N c p : (0 < N)%nat -> (0 < c)%nat ->
  let lmax := Nat.min 300 (N - 1) in
  exists k0, (k0 <= lmax)%nat /\ (forall k, (k0 < k <= lmax)%nat -> Rabs (a k) <= 2 * deviation a c k)
    /\ (k0 = lmax /\ a 0%nat = 0 \/ 2 * deviation a c k0 < Rabs (a k0))
    /\ estimate_lag p (map (fun k => Some (a k)) (seq 0 N)) c = Ok (if p then (4 * (k0 + 2) / 3)%nat else (k0 + 2)%nat).
Proof.
  intros HN Hc lmax. unfold estimate_lag. rewrite map_length, seq_length. fold lmax. assert (Hl : (S lmax <= N)%nat) by (unfold lmax; lia). clearbody lmax.
  destruct (large_lag_sigma (map (fun k => Some (a k)) (seq 0 N)) c) as [s|e] eqn:E.
  2:{ destruct N; [lia|]. discriminate E. }
  pose proof (sigma_length _ _ _ E) as Ls. rewrite map_length, seq_length in Ls. pose proof (sigma_nth a N c s HN Hc E) as Sn. cbn [bind].
  rewrite firstn_map_seq by easy.
  set (flags := map2 exceeds _ _).
  assert (Lf : List.length flags = S lmax) by (unfold flags; rewrite map2_len, !rev_length, map_length, seq_length, firstn_length; lia).
  assert (Fn : forall i, (i <= lmax)%nat -> nth i flags false = exceeds (Some (a (lmax - i)%nat)) (Some (deviation a c (lmax - i)))).
  { intros i Hi. unfold flags. etransitivity; [apply (@map2_nth num num bool exceeds None None)|].
    1,2: rewrite rev_length, ?map_length, ?seq_length, ?firstn_length; lia.
    f_equal.
    - rewrite rev_nth by (rewrite map_length, seq_length; lia). rewrite map_length, seq_length, (@nth_map_seq num) by lia. reflexivity.
    - rewrite rev_nth by (rewrite firstn_length; lia). rewrite firstn_length, Nat.min_l by lia. rewrite nth_firstn_lt by lia.
      rewrite Sn by lia. do 2 f_equal. }
  assert (Fx : forall k, exceeds (Some (a k)) (Some (deviation a c k)) = true <-> 2 * deviation a c k < Rabs (a k)).
  { intros k. cbn. destruct (Rlt_dec _ _); split; easy. }
  destruct (first_true flags) as [i|] eqn:Ef.
  - destruct (first_true_some _ _ Ef) as [F1 F2]. assert (Hi : (i <= lmax)%nat).
    { destruct (le_lt_dec i lmax); [easy|]. rewrite nth_overflow in F1 by lia. discriminate. }
    exists (lmax - i)%nat. split; [lia|]. split; [|split].
    + intros k Hk. specialize (F2 (lmax - k)%nat ltac:(lia)). rewrite Fn in F2 by lia. replace (lmax - (lmax - k))%nat with k in F2 by lia.
      apply Rnot_lt_le. intros K. apply Fx in K. rewrite K in F2. discriminate.
    + right. apply Fx. rewrite <- Fn by easy. exact F1.
    + replace (lmax + 2 - i)%nat with (lmax - i + 2)%nat by lia. reflexivity.
  - exists lmax. split; [lia|]. split; [lia|]. split.
    + left. split; [easy|]. pose proof (first_true_none _ Ef lmax) as F. rewrite Fn, Nat.sub_diag in F by lia.
      destruct (Req_dec (a 0%nat) 0); [easy|]. exfalso. assert (K : exceeds (Some (a 0%nat)) (Some (deviation a c 0)) = true); [|congruence].
      apply Fx. cbn [deviation]. pose proof (Rabs_pos_lt _ H). lra.
    + rewrite Nat.sub_0_r. reflexivity.
Qed.
Lemma default_lag get p dt x N : sized get -> (3 <= List.length x)%nat -> least_pow2 (List.length x) N ->
  let lmax := Nat.min 300 (N - 1) in let a := wrapped x N in let n := List.length x in
  exists k0, (k0 <= lmax)%nat /\ (forall k, (k0 < k <= lmax)%nat -> Rabs (a k) <= 2 * deviation a n k)
    /\ (k0 = lmax /\ a 0%nat = 0 \/ 2 * deviation a n k0 < Rabs (a k0))
    /\ tocovdata (Options None (Named get p) false false None) dt (values x)
       = tocovdata (Options (Some (if p then (4 * (k0 + 2) / 3)%nat else (k0 + 2)%nat)) (Named get p) false false None) dt (values x).
Proof.
  intros Hg Hn HN lmax a n. pose proof (least_pow2_unique _ _ _ HN (pow2_above_spec _)) as EN. subst N. set (M := pow2_above (List.length x)) in *.
  destruct (estimate_lag_spec a M n p ltac:(apply pow2_above_pos) ltac:(unfold n; lia)) as (k0 & K1 & K2 & K3 & K4).
  exists k0. split; [easy|]. split; [easy|]. split; [easy|]. unfold tocovdata. rewrite centre_values, values_length. cbn [detrend unbiased norm lag window_ bind].
  rewrite raw_cov_values by (rewrite ?centred_length; try apply pow2_above_ge; lia). fold M. fold n.
  change (fun k => Some (raw n (centred x) n k)) with (fun k => Some (a k)). rewrite K4. reflexivity.
Qed.

(* ---- missing values ---- *)
Lemma pick_numbers x x0 x1 (Y : list num) : nth 0 x None = Some x0 -> nth 1 x None = Some x1 ->
  numbers (map (fun v => nth (if is_nan v then 0%nat else 1%nat) x None) Y) = Some (map (fun v => if is_nan v then x0 else x1) Y).
Proof.
  intros H0 H1. induction Y as [|v Y IH]; [reflexivity|]. cbn [map numbers]. rewrite IH. destruct (is_nan v); now rewrite ?H0, ?H1.
Qed.
Lemma pick_sum x0 x1 (Y : list num) : npsum (map (fun v => if is_nan v then x0 else x1) Y) = INR (missing Y) * x0 + INR (List.length Y - missing Y) * x1.
Proof.
  unfold missing. assert (Hle : forall Y : list num, (List.length (filter is_nan Y) <= List.length Y)%nat).
  { clear. induction Y as [|v Y IH]; [easy|]. cbn. destruct (is_nan v); cbn; lia. }
  induction Y as [|v Y IH]; [cbn; ring|]. unfold npsum in *. cbn [map fold_right filter List.length]. rewrite IH. destruct (is_nan v); cbn [List.length].
  - rewrite S_INR. cbn [Nat.sub]. ring.
  - specialize (Hle Y). rewrite Nat.sub_succ_l by easy. rewrite S_INR. ring.
Qed.
Definition filled (x : list num) (m : R) : list R := map (fun v => match v with Some a => a - m | None => 0 end) x.
Lemma centre_missing x x0 x1 : existsb is_nan x = true -> nth 0 x None = Some x0 -> nth 1 x None = Some x1 ->
  centre x = (values (filled x (off_centre x0 x1 x)), (List.length x - missing x)%nat).
Proof.
  intros Hx H0 H1. unfold centre. rewrite Hx. f_equal. unfold mean. rewrite (pick_numbers x x0 x1) by easy. unfold average. rewrite pick_sum, map_length.
  fold (off_centre x0 x1 x). unfold values, filled. rewrite map_map. apply map_ext. intros [v|]; reflexivity.
Qed.
Lemma estimate_missing L dt (x : list num) x0 x1 N : existsb is_nan x = true -> nth 0 x None = Some x0 -> nth 1 x None = Some x1 ->
  (0 < L)%nat -> (3 <= List.length x)%nat -> least_pow2 (List.length x) N ->
  let y := map (fun v => match v with Some a => a - off_centre x0 x1 x | None => 0 end) x in
  exists c, tocovdata (plain L) dt x = Ok c
    /\ forall k, (k < Nat.min L (List.length x - 2))%nat -> nth k (data c) None = Some ((lagged y k + lagged y (N - k)) / INR (List.length x - missing x)).
Proof.
  intros Hx H0 H1 HL Hn HN y. rewrite (least_pow2_unique _ _ _ HN (pow2_above_spec _)).
  assert (Hm : (missing x < List.length x)%nat).
  { destruct x as [|v x']; [easy|]. cbn in H0. subst v. unfold missing. cbn. clear. induction x' as [|v Y IH]; [cbn; lia|]. cbn. destruct (is_nan v); cbn in *; lia. }
  destruct (from_centred (plain L) boxcar false L dt x y (List.length x - missing x)) as (s & E & _).
  1,2,3,4: easy. 1: apply boxcar_sized. 1: now rewrite (centre_missing x x0 x1). 1: unfold y; rewrite map_length; apply pow2_above_ge. 1,2,3: lia.
  eexists. split; [exact E|]. cbn [data]. intros k Hk. rewrite app_nth1 by (rewrite map_length, seq_length; lia).
  set (l := Nat.min L (List.length x - 2)) in *.
  etransitivity; [apply (@nth_map_seq num (fun k => Some (at_R (boxcar (2 * l - 1)%nat) (l - 1 + k) * raw (List.length x) y (List.length x - missing x) k))); easy|].
  cbn [Nat.add]. rewrite boxcar_at by lia. rewrite Rmult_1_l. reflexivity.
Qed.
(* a missing first value spoils everything *)
Lemma numbers_none x : In None x -> numbers x = None.
Proof. induction x as [|v x IH]; [easy|]. intros [->|H]; [reflexivity|]. cbn. destruct v; [|easy]. now rewrite IH. Qed.
Lemma centre_first_missing (x : list num) : nth 0 x None = None -> x <> [] ->
  exists y c, centre x = (y, c) /\ (numbers y = None \/ c = 0%nat).
Proof.
  intros H0 Hne. destruct x as [|v x]; [easy|]. cbn in H0. subst v. unfold centre. cbn [existsb is_nan orb].
  match goal with |- context [mean ?l] => assert (Hp : mean l = None) by (unfold mean; rewrite numbers_none; [easy|]; left; reflexivity) end.
  rewrite Hp. eexists _, _. split; [reflexivity|]. cbn [map is_nan filter List.length].
  assert (D : (exists r, In (Some r) x) \/ List.length (filter is_nan x) = List.length x).
  { clear. induction x as [|v x IH]; [now right|]. destruct v as [r|]; [left; exists r; now left|]. destruct IH as [[r Hr]|IH]; [left; exists r; now right|]. right. cbn. now rewrite IH. }
  destruct D as [[r Hr]|D]; [left|right].
  - apply numbers_none. right. apply in_map_iff. now exists (Some r).
  - unfold num in *. rewrite D. lia.
Qed.
Lemma map2_none l : forall m : list num, map2 (nop Rmult) (repeat None l) m = repeat None (Nat.min l (List.length m)).
Proof. induction l as [|l IH]; intros [|b m]; cbn; auto. now rewrite IH. Qed.
Lemma skipn_repeat {A} (a : A) m n : skipn m (repeat a n) = repeat a (n - m).
Proof. revert n. induction m as [|m IH]; intros [|n]; cbn; auto. Qed.
Lemma firstn_repeat' {A} (a : A) m n : (m <= n)%nat -> firstn m (repeat a n) = repeat a m.
Proof. revert n. induction m as [|m IH]; intros [|n] H; cbn; auto; [lia|]. rewrite IH by lia. reflexivity. Qed.
Lemma first_missing L dt (x : list num) : nth 0 x None = None -> (0 < L)%nat -> (3 <= List.length x)%nat ->
  exists c, tocovdata (plain L) dt x = Ok c /\ data c = repeat None (Nat.min L (List.length x - 2)) ++ [Some 0].
Proof.
  intros H0 HL Hn. destruct (centre_first_missing x H0) as (y & c & E & D); [intros ->; cbn in Hn; lia|].
  unfold tocovdata. rewrite E. cbn [detrend plain unbiased norm lag window_ bind]. set (n := List.length x) in *.
  replace (raw_cov n y c) with (@repeat num None (pow2_above n)) by (unfold raw_cov; destruct D as [->| ->]; [easy|now destruct (numbers y)]).
  replace (n <? 2)%nat with false by (symmetry; apply Nat.ltb_ge; lia). set (l := Nat.min L (n - 2)). pose proof (pow2_above_ge n).
  rewrite windowed_ok by (try apply boxcar_sized; rewrite repeat_length; unfold l; lia). cbn [bind].
  rewrite firstn_repeat' by (unfold l; lia). rewrite map2_none, map_length, skipn_length, boxcar_sized, skipn_repeat.
  replace (Nat.min l (2 * l - 1 - (l - 1))) with l by (unfold l; lia).
  match goal with |- context [large_lag_sigma ?a c] => set (acov := a) end. destruct (large_lag_sigma acov c) as [s|e] eqn:Es.
  - cbn [bind]. eexists. split; [reflexivity|]. cbn [data]. unfold acov. rewrite firstn_app, repeat_length, firstn_all2 by (rewrite repeat_length; lia).
    replace (S l - l)%nat with 1%nat by lia. reflexivity.
  - unfold acov in Es. destruct l; discriminate Es.
Qed.

(* ---- the unbiased flag ---- *)
Lemma unbias_fails acov c : (3 <= c)%nat -> (c <= List.length acov)%nat -> unbias acov c = Err ValueError.
Proof.
  intros Hc Hl. unfold unbias, broadcast. rewrite !map_length, firstn_length, seq_length. rewrite Nat.min_l by easy.
  replace (c =? c - 1)%nat with false by (symmetry; apply Nat.eqb_neq; lia).
  set (a := map _ (firstn c acov)). set (b := map _ (seq 0 (c - 1))).
  assert (La : List.length a = c) by (unfold a; rewrite map_length, firstn_length; lia). assert (Lb : List.length b = (c - 1)%nat) by (unfold b; now rewrite map_length, seq_length).
  destruct b as [|b1 [|b2 b]]; cbn in Lb; try lia. destruct a as [|a1 [|a2 a]]; cbn in La; try lia; reflexivity.
Qed.
Lemma raw_cov_length n x c : List.length (raw_cov n x c) = pow2_above n.
Proof. unfold raw_cov. destruct (numbers x), c; rewrite ?map_length, ?seq_length, ?repeat_length; reflexivity. Qed.
Lemma unbiased_fails o dt x : unbiased o = true -> (3 <= List.length x)%nat -> tocovdata o dt (values x) = Err ValueError.
Proof.
  intros Ho Hn. unfold tocovdata. rewrite centre_values, values_length, Ho. rewrite unbias_fails; [reflexivity|easy|]. rewrite raw_cov_length. apply pow2_above_ge.
Qed.
Lemma unbiased_named_fails o get p dt x : unbiased o = true -> window_ o = Named get p -> exists e, tocovdata o dt (values x) = Err e.
Proof.
  intros Ho Hw. destruct (le_lt_dec 3 (List.length x)) as [H|H]; [exists ValueError; now apply unbiased_fails|].
  unfold tocovdata. rewrite values_length, centre_values. rewrite Ho, Hw.
  destruct (unbias _ _) as [u|e]; [cbn [bind]|now exists e]. destruct (if norm o then _ else _) as [v|e]; [cbn [bind]|now exists e].
  destruct (match lag o with Some l => Ok l | None => _ end) as [l|e]; [cbn [bind]|now exists e].
  destruct (List.length x <? 2)%nat eqn:E; [now eexists|]. apply Nat.ltb_ge in E. replace (List.length x - 2)%nat with 0%nat by lia.
  rewrite Nat.min_0_r. cbn. now eexists.
Qed.

(* ---- the normalized estimate ---- *)
Lemma normalized_nth (a : nat -> R) N : (0 < N)%nat -> a 0%nat <> 0 -> normalized (map (fun k => Some (a k)) (seq 0 N)) = Ok (map (fun k => Some (a k / a 0%nat)) (seq 0 N)).
Proof.
  intros HN H0. destruct N as [|N]; [lia|]. unfold normalized. cbn [seq map]. f_equal. rewrite map_map. unfold ndiv. destruct (Req_EM_T (a 0%nat) 0); [easy|]. reflexivity.
Qed.
Lemma estimate_normalized L dt x N : (0 < L)%nat -> (3 <= List.length x)%nat -> least_pow2 (List.length x) N -> wrapped x N 0 <> 0 ->
  exists c, tocovdata (Options (Some L) (Named boxcar false) false true None) dt (values x) = Ok c
    /\ nth 0 (data c) None = Some 1
    /\ (forall k, (k < Nat.min L (List.length x - 2))%nat -> nth k (data c) None = Some (wrapped x N k / wrapped x N 0)).
Proof.
  intros HL Hn HN H0. pose proof (least_pow2_unique _ _ _ HN (pow2_above_spec _)) as EN. subst N. unfold tocovdata. rewrite centre_values, values_length.
  cbn [detrend unbiased norm lag window_ bind]. set (n := List.length x) in *. pose proof (pow2_above_ge n) as Hge.
  rewrite raw_cov_values by (rewrite ?centred_length; unfold n in *; lia). rewrite (normalized_nth (raw n (centred x) n)) by (try easy; apply pow2_above_pos). cbn [bind].
  replace (n <? 2)%nat with false by (symmetry; apply Nat.ltb_ge; lia). set (l := Nat.min L (n - 2)).
  rewrite windowed_ok by (try apply boxcar_sized; rewrite map_length, seq_length; unfold l; lia). cbn [bind]. rewrite firstn_map_seq by (unfold l; lia).
  replace (map Some (skipn (l - 1) (boxcar (2 * l - 1)))) with (repeat (Some 1) l).
  2:{ unfold boxcar. rewrite skipn_repeat. replace (2 * l - 1 - (l - 1))%nat with l by lia. clear. induction l as [|l IH]; cbn; [easy|now rewrite IH]. }
  set (b := fun k => raw n (centred x) n k / raw n (centred x) n 0).
  assert (Em : map2 (nop Rmult) (map (fun k => Some (b k)) (seq 0 l)) (repeat (Some 1) l) = map (fun k => Some (b k)) (seq 0 l)).
  { generalize 0%nat. clear. induction l as [|l IH]; intros s; [reflexivity|]. cbn [seq map repeat map2]. f_equal; [cbn; f_equal; ring|apply IH]. }
  change (map2 _ _ (repeat (Some 1) l)) with (map2 (nop Rmult) (map (fun k => Some (b k)) (seq 0 l)) (repeat (Some 1) l)). rewrite Em.
  set (rest := Some 0 :: _). destruct (large_lag_sigma _ n) as [s|e] eqn:Es.
  2:{ assert (Hl : (0 < l)%nat) by (unfold l; lia). destruct l; [lia|]. discriminate Es. }
  cbn [bind]. eexists. split; [reflexivity|]. cbn [data].
  assert (G : forall k, (k < l)%nat -> nth k (firstn (S l) (map (fun k => Some (b k)) (seq 0 l) ++ rest)) None = Some (b k)).
  { intros k Hk. rewrite nth_firstn_lt by lia. rewrite app_nth1 by (rewrite map_length, seq_length; lia). now rewrite (@nth_map_seq num) by lia. }
  split; [|exact G]. rewrite G by (unfold l; lia). f_equal. unfold b. unfold Rdiv. apply Rinv_r. exact H0.
Qed.
(* a record without variation: every normalized value is 0 / 0 *)
Lemma sumR_repeat v n : sumR (repeat v n) = INR n * v.
Proof. induction n as [|n IH]; [cbn; ring|]. rewrite S_INR. change (repeat v (S n)) with (v :: repeat v n). change (v + sumR (repeat v n) = (INR n + 1) * v). rewrite IH. ring. Qed.
Lemma centred_repeat v n : (0 < n)%nat -> centred (repeat v n) = repeat 0 n.
Proof.
  intros Hn. unfold centred. assert (E : mean_of (repeat v n) = v). { unfold mean_of. rewrite sumR_repeat, repeat_length. field. apply not_0_INR. lia. }
  rewrite E. clear E Hn. induction n as [|n IH]; [reflexivity|]. cbn [repeat map]. rewrite IH. f_equal. ring.
Qed.
Lemma lagged_zeros n k : lagged (repeat 0 n) k = 0.
Proof.
  unfold lagged. rewrite (map_ext _ (fun _ => 0)).
  - set (l := seq 0 _). clearbody l. induction l as [|a l IH]; [reflexivity|]. change (0 + sumR (map (fun _ : nat => 0) l) = 0). rewrite IH. ring.
  - intros j. unfold at_R. rewrite nth_repeat. ring.
Qed.
Lemma estimate_normalized_constant get p L dt v n : sized get -> (0 < L)%nat -> (3 <= n)%nat ->
  exists c, tocovdata (Options (Some L) (Named get p) false true None) dt (values (repeat v n)) = Ok c
    /\ (forall k, (k < Nat.min L (n - 2))%nat -> nth_error (data c) k = Some None).
Proof.
  intros Hg HL Hn. unfold tocovdata. rewrite centre_values, values_length, repeat_length.
  cbn [detrend unbiased norm lag window_ bind]. pose proof (pow2_above_ge n) as Hge.
  rewrite centred_repeat by lia. rewrite raw_cov_values by (rewrite ?repeat_length; lia).
  assert (En : normalized (map (fun k => Some (raw n (repeat 0 n) n k)) (seq 0 (pow2_above n))) = Ok (repeat None (pow2_above n))).
  { assert (Ea : forall k, raw n (repeat 0 n) n k = 0) by (intros k; unfold raw; rewrite !lagged_zeros; unfold Rdiv; ring).
    rewrite (map_ext _ (fun _ => Some 0)) by (intros k; now rewrite Ea).
    assert (G : forall m s, map (fun v => ndiv v (Some 0)) (map (fun _ : nat => Some 0) (seq s m)) = repeat None m).
    { intros m. induction m as [|m IH]; intros s; [reflexivity|]. cbn [seq map repeat]. rewrite IH. cbn. now destruct (Req_EM_T 0 0). }
    pose proof (pow2_above_pos n) as HN. destruct (pow2_above n) as [|N]; [lia|]. unfold normalized. rewrite <- (G (S N) 0%nat). reflexivity. }
  rewrite En. cbn [bind].
  replace (n <? 2)%nat with false by (symmetry; apply Nat.ltb_ge; lia). set (l := Nat.min L (n - 2)).
  assert (Hl : (0 < l)%nat) by (unfold l; lia). assert (Hl2 : (l < pow2_above n)%nat) by (unfold l; lia).
  rewrite windowed_ok by (try easy; rewrite repeat_length; lia). cbn [bind].
  set (w := map Some (skipn (l - 1) (get (2 * l - 1)%nat))).
  assert (Lw : @List.length num w = l) by (unfold w; rewrite map_length, skipn_length, Hg; lia).
  assert (Ef : firstn l (repeat (None : num) (pow2_above n)) = repeat None l). { replace (pow2_above n) with (l + (pow2_above n - l))%nat by lia. rewrite repeat_app, firstn_app, repeat_length, Nat.sub_diag. cbn [firstn]. rewrite app_nil_r. rewrite <- (repeat_length (None : num) l) at 1. apply firstn_all. }
  assert (Em : map2 (nop Rmult) (firstn l (repeat (None : num) (pow2_above n))) w = repeat None l).
  { rewrite Ef. revert Lw. generalize w. clear. induction l as [|l IH]; intros [|a w] H; try easy. cbn [repeat map2]. cbn in H. f_equal. apply IH. now injection H. }
  set (rest := Some 0 :: _). change (map2 _ _ w) with (map2 (nop Rmult) (firstn l (repeat (None : num) (pow2_above n))) w). rewrite Em. destruct (large_lag_sigma _ n) as [s|e] eqn:Es.
  2:{ clearbody l. destruct l; [lia|]. discriminate Es. }
  cbn [bind]. eexists. split; [reflexivity|]. cbn [data]. intros k Hk.
  assert (Lr : List.length (repeat (None : num) l ++ rest) = (l + List.length rest)%nat) by (now rewrite app_length, repeat_length).
  assert (Hr : (1 <= List.length rest)%nat) by (unfold rest; cbn; lia).
  assert (G : nth_error (firstn (S l) (repeat (None : num) l ++ rest)) k = Some None).
  { rewrite (nth_error_nth' _ (Some 1)) by (rewrite firstn_length, Lr; unfold l in *; lia). f_equal.
    rewrite nth_firstn_lt by (unfold l in *; lia). rewrite app_nth1 by (rewrite repeat_length; exact Hk).
    transitivity (nth k (repeat (None : num) l) None); [apply nth_indep; rewrite repeat_length; exact Hk|apply nth_repeat]. }
  exact G.
Qed.
