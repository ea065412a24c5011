From Coq Require Import Reals Lra Lia.
From Coquelicot Require Import Complex.
From Verif Require Import Base PolyModel KdeModel GridSpec DftModel DftProofs CovModel CovSpec CovProofs CovProofs2.
Local Open Scope R_scope.

Lemma nth_map_seq {A} (g : nat -> A) a n k d : (k < n)%nat -> nth k (map g (seq a n)) d = g (a + k)%nat.
Proof. intros H. rewrite (nth_indep _ d (g 0%nat)) by (rewrite map_length, seq_length; lia). rewrite map_nth, seq_nth by lia. reflexivity. Qed.
Lemma raw_wrapped x k : raw (List.length x) (centred x) (List.length x) k = wrapped x (pow2_above (List.length x)) k. Proof. reflexivity. Qed.
Lemma linspace_0 l dt k : (0 < l)%nat -> (k <= l)%nat -> at_R (linspace 0 (INR l * dt) (S l)) k = INR k * dt.
Proof. intros Hl H. unfold linspace, at_R. rewrite nth_map_seq by lia. cbn [Nat.add]. replace (S l - 1)%nat with l by lia. apply lt_0_INR in Hl. field. lra. Qed.

Lemma estimate get p L dt x N : sized get -> (0 < L)%nat -> (3 <= List.length x)%nat -> least_pow2 (List.length x) N ->
  let l := Nat.min L (List.length x - 2) in
  exists c, tocovdata (Options (Some L) (Named get p) false false None) dt (values x) = Ok c
    /\ List.length (data c) = S l /\ List.length (args c) = S l
    /\ (forall k, (k <= l)%nat -> at_R (args c) k = INR k * dt)
    /\ nth l (data c) None = Some 0
    /\ (forall k, (k < l)%nat -> nth k (data c) None = Some (at_R (get (2 * l - 1)%nat) (l - 1 + k) * wrapped x N k)).
Proof.
  intros Hg HL Hn HN l. rewrite (least_pow2_unique _ _ _ HN (pow2_above_spec _)).
  destruct (from_centred (Options (Some L) (Named get p) false false None) get p L dt (values x) (centred x) (List.length x)) as (s & E & _).
  1,2,3,4,5: easy. 1: now rewrite centre_values. 1: rewrite centred_length, values_length; apply pow2_above_ge. 1,2,3: rewrite ?values_length; lia.
  rewrite values_length in E. fold l in E. eexists. split; [exact E|]. cbn [data args]. split; [rewrite app_length, map_length, seq_length; cbn; lia|].
  split; [unfold linspace; now rewrite map_length, seq_length|].
  assert (Hl : (0 < l)%nat) by (unfold l; lia). split; [intros k Hk; now apply linspace_0|]. split.
  - rewrite app_nth2 by (rewrite map_length, seq_length; lia). rewrite map_length, seq_length, Nat.sub_diag. reflexivity.
  - intros k Hk. rewrite app_nth1 by (rewrite map_length, seq_length; lia).
    etransitivity; [apply (@nth_map_seq num (fun k => Some (at_R (get (2 * l - 1)%nat) (l - 1 + k) * raw (List.length x) (centred x) (List.length x) k))); easy|].
    reflexivity.
Qed.
Lemma boxcar_sized : sized boxcar. Proof. intros m. apply repeat_length. Qed.
Lemma boxcar_at m k : (k < m)%nat -> at_R (boxcar m) k = 1.
Proof. unfold boxcar, at_R. revert k. induction m as [|m IH]; intros k H; [lia|]. destruct k; [reflexivity|]. apply IH. lia. Qed.
Lemma estimate_plain L dt x N : (0 < L)%nat -> (3 <= List.length x)%nat -> least_pow2 (List.length x) N ->
  let l := Nat.min L (List.length x - 2) in
  exists c, tocovdata (plain L) dt (values x) = Ok c
    /\ List.length (data c) = S l /\ List.length (args c) = S l
    /\ (forall k, (k <= l)%nat -> at_R (args c) k = INR k * dt)
    /\ nth l (data c) None = Some 0
    /\ (forall k, (k < l)%nat -> nth k (data c) None = Some (wrapped x N k)).
Proof.
  intros HL Hn HN l. destruct (estimate boxcar false L dt x N boxcar_sized HL Hn HN) as (c & E & E1 & E2 & E3 & E4 & E5).
  exists c. split; [exact E|]. split; [easy|]. split; [easy|]. split; [easy|]. split; [easy|]. intros k Hk. rewrite E5 by easy. fold l. rewrite boxcar_at by lia. now rewrite Rmult_1_l.
Qed.
Lemma lagged_out x k : (List.length x <= k)%nat -> lagged x k = 0.
Proof. intros H. unfold lagged. replace (List.length x - k)%nat with 0%nat by lia. reflexivity. Qed.
Lemma wrapped_biased x N k : (k + List.length x <= N)%nat -> wrapped x N k = biased x k.
Proof. intros H. unfold wrapped, biased. rewrite (lagged_out (centred x) (N - k)) by (rewrite centred_length; lia). now rewrite Rplus_0_r. Qed.
Lemma estimate_biased L dt x N : (0 < L)%nat -> (3 <= List.length x)%nat -> least_pow2 (List.length x) N ->
  exists c, tocovdata (plain L) dt (values x) = Ok c
    /\ forall k, (k < Nat.min L (List.length x - 2))%nat -> (k + List.length x <= N)%nat -> nth k (data c) None = Some (biased x k).
Proof.
  intros HL Hn HN. destruct (estimate_plain L dt x N HL Hn HN) as (c & E & _ & _ & _ & _ & E5). exists c. split; [easy|].
  intros k Hk HkN. rewrite E5 by easy. now rewrite wrapped_biased.
Qed.
(* the value at lag 0 is the variance *)
Lemma estimate_variance L dt x : (0 < L)%nat -> (3 <= List.length x)%nat ->
  exists c, tocovdata (plain L) dt (values x) = Ok c /\ nth 0 (data c) None = Some (sumR (map (fun v => (v - mean_of x) ^ 2) x) / INR (List.length x)).
Proof.
  intros HL Hn. destruct (estimate_biased L dt x _ HL Hn (pow2_above_spec _)) as (c & E & H). exists c. split; [easy|].
  rewrite H by (pose proof (pow2_above_ge (List.length x)); lia). f_equal. unfold biased. f_equal. unfold lagged. f_equal. rewrite centred_length, Nat.sub_0_r.
  apply nth_ext with (d := 0) (d' := 0); [now rewrite !map_length, seq_length|]. intros i Hi. rewrite map_length, seq_length in Hi.
  rewrite nth_map_seq by lia. cbn [Nat.add]. rewrite Nat.add_0_r.
  rewrite (nth_indep (map _ x) 0 ((fun v => (v - mean_of x) ^ 2) 0)) by (rewrite map_length; lia). rewrite (map_nth (fun v => (v - mean_of x) ^ 2)).
  unfold at_R, centred. rewrite (nth_indep (map _ x) 0 ((fun v => v - mean_of x) 0)) by (rewrite map_length; lia). rewrite (map_nth (fun v => v - mean_of x)). ring.
Qed.

(* powers of two: the estimate at lag 1 is off by the product of the ends *)
Lemma least_pow2_self e : least_pow2 (2 ^ e) (2 ^ e)%nat.
Proof. split; [lia|]. split; [now exists e|easy]. Qed.
Definition ends (n : nat) : list R := -1 :: repeat 0 (n - 2) ++ [1].
Lemma ends_length n : (2 <= n)%nat -> List.length (ends n) = n.
Proof. intros H. cbn. rewrite app_length, repeat_length. cbn. lia. Qed.
Lemma ends_mean n : (2 <= n)%nat -> mean_of (ends n) = 0.
Proof.
  intros H. unfold mean_of. replace (sumR (ends n)) with 0; [unfold Rdiv; ring|]. unfold ends. change (0 = -1 + sumR (repeat 0 (n - 2) ++ [1])).
  rewrite sumR_app. replace (sumR (repeat 0 (n - 2))) with 0; [unfold sumR; cbn; ring|]. generalize (n - 2)%nat. induction n0 as [|m IH]; [reflexivity|]. unfold sumR in *. cbn. rewrite <- IH. ring.
Qed.
Lemma ends_centred n : (2 <= n)%nat -> centred (ends n) = ends n.
Proof. intros H. unfold centred. rewrite ends_mean by easy. rewrite <- (map_id (ends n)) at 2. apply map_ext. intros; ring. Qed.
Lemma ends_inner n i : (0 < i < n - 1)%nat -> at_R (ends n) i = 0.
Proof.
  intros H. unfold at_R, ends. destruct i as [|i]; [lia|]. cbn [nth]. rewrite app_nth1 by (rewrite repeat_length; lia). apply nth_repeat.
Qed.
Lemma refuted_pow2 e dt L : (2 <= e)%nat -> (2 <= L)%nat -> exists x c v, List.length x = (2 ^ e)%nat /\ tocovdata (plain L) dt (values x) = Ok c
    /\ nth 1 (data c) None = Some v /\ v <> biased x 1.
Proof.
  intros He HL. assert (Hn : (4 <= 2 ^ e)%nat) by (change 4%nat with (2 ^ 2)%nat; apply Nat.pow_le_mono_r; lia). set (n := (2 ^ e)%nat) in *.
  exists (ends n). pose proof (ends_length n ltac:(lia)) as Ln.
  destruct (estimate_plain L dt (ends n) n ltac:(lia) ltac:(lia) ltac:(rewrite Ln; apply least_pow2_self)) as (c & E & _ & _ & _ & _ & E5).
  exists c. eexists. split; [easy|]. split; [easy|]. split; [apply E5; lia|].
  unfold wrapped, biased. rewrite ends_centred, Ln by lia. unfold lagged at 2. rewrite Ln. replace (n - (n - 1))%nat with 1%nat by lia.
  cbn [map seq]. replace (sumR _) with (-1).
  - intros K. assert (0 < INR n) by (apply lt_0_INR; lia). apply (Rmult_eq_compat_r (INR n)) in K. unfold Rdiv in K. rewrite !Rmult_assoc, Rinv_l in K by lra. lra.
  - unfold sumR, fold_right. replace (at_R (ends n) (0 + (n - 1))) with 1; [unfold at_R, ends; cbn; ring|].
    unfold at_R, ends. cbn [Nat.add]. destruct n as [|n]; [lia|]. cbn [Nat.sub]. rewrite Nat.sub_0_r. destruct n as [|n]; [lia|]. cbn [nth].
    rewrite app_nth2 by (rewrite repeat_length; lia). rewrite repeat_length. match goal with |- 1 = nth ?i _ _ => replace i with 0%nat by lia end. reflexivity.
Qed.

(* the estimate is largest at lag 0 *)
Lemma Sum_rotate N k (g : nat -> R) : (k < N)%nat -> Sum N (fun a => g ((a + k) mod N)%nat) = Sum N g.
Proof.
  intros Hk. replace N with ((N - k) + k)%nat at 1 by lia. rewrite Sum_split. symmetry. replace N with (k + (N - k))%nat at 1 by lia. rewrite Sum_split, Rplus_comm. f_equal.
  - apply Sum_ext. intros a Ha. rewrite Nat.mod_small by lia. f_equal. lia.
  - apply Sum_ext. intros a Ha. replace (N - k + a + k)%nat with (a + 1 * N)%nat by lia. rewrite Nat.mod_add, Nat.mod_small by lia. reflexivity.
Qed.
Lemma circular_bound N x k : (k < N)%nat -> Rabs (circular N x k) <= circular N x 0.
Proof.
  intros Hk. assert (E0 : circular N x 0 = Sum N (fun a => at_R x a ^ 2)).
  { apply Sum_ext. intros a Ha. rewrite Nat.add_0_r, Nat.mod_small by lia. ring. }
  set (h := fun a => (at_R x a ^ 2 + at_R x ((a + k) mod N)%nat ^ 2) / 2).
  assert (Eh : Sum N h = circular N x 0).
  { unfold h. rewrite (Sum_ext N _ (fun a => (/ 2) * (at_R x a ^ 2 + at_R x ((a + k) mod N)%nat ^ 2))) by (intros; field).
    rewrite Sum_mul, Sum_plus. rewrite (Sum_rotate N k (fun i => at_R x i ^ 2)) by easy. rewrite E0. field. }
  rewrite <- Eh. apply Rabs_le. split.
  - replace (- Sum N h) with (Sum N (fun a => (-1) * h a)) by (rewrite Sum_mul; ring). apply Sum_le. intros a Ha. unfold h.
    pose proof (pow2_ge_0 (at_R x a + at_R x ((a + k) mod N)%nat)). nra.
  - apply Sum_le. intros a Ha. unfold h. pose proof (pow2_ge_0 (at_R x a - at_R x ((a + k) mod N)%nat)). nra.
Qed.
Lemma wrapped_bound x N k : (0 < List.length x <= N)%nat -> (k < N)%nat -> Rabs (wrapped x N k) <= wrapped x N 0.
Proof.
  intros Hn Hk. unfold wrapped. rewrite <- !circular_lagged by (rewrite ?centred_length; lia). unfold Rdiv. rewrite Rabs_mult.
  assert (0 < INR (List.length x)) by (apply lt_0_INR; lia). assert (0 < / INR (List.length x)) by now apply Rinv_0_lt_compat.
  rewrite (Rabs_pos_eq (/ _)) by lra. apply Rmult_le_compat_r; [lra|]. now apply circular_bound.
Qed.
Lemma estimate_bound L dt x : (0 < L)%nat -> (3 <= List.length x)%nat ->
  exists c, tocovdata (plain L) dt (values x) = Ok c /\ forall k, (k < List.length (data c))%nat -> Rabs (number (data c) k) <= number (data c) 0.
Proof.
  intros HL Hn. pose proof (pow2_above_ge (List.length x)) as HN. destruct (estimate_plain L dt x _ HL Hn (pow2_above_spec _)) as (c & E & E1 & _ & _ & E4 & E5). exists c. split; [easy|].
  rewrite E1. intros k Hk. unfold number. rewrite (E5 0%nat) by lia. set (N := pow2_above _) in *.
  destruct (Nat.eq_dec k (Nat.min L (List.length x - 2))) as [->|Hne].
  - rewrite E4, Rabs_R0. pose proof (wrapped_bound x N 0 ltac:(lia) ltac:(lia)). pose proof (Rabs_pos (wrapped x N 0)). lra.
  - rewrite E5 by lia. apply wrapped_bound; lia.
Qed.
