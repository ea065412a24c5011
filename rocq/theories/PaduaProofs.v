From Coq Require Import Reals Lra Lia Psatz FinFun.
From Coquelicot Require Import Complex.
From Verif Require Import Base PolyModel KdeModel OrthoModel DftModel DftProofs ProcModel PaduaModel PaduaSpec.
Local Open Scope R_scope.

(* ---- the grid ---- *)
Definition column (n j : nat) : list nat := filter (fun i => Nat.odd (i + j)) (seq 0 (n + 2)).
Definition grid (n : nat) : list (nat * nat) := flat_map (fun j => map (pair j) (column n j)) (seq 0 (n + 1)).
Definition place (n : nat) (p : nat * nat) : nat := (fst p * (n + 2) + snd p)%nat.

Lemma filter_odd : forall m, filter Nat.odd (seq 0 (2 * m)) = map (fun i => 1 + 2 * i)%nat (seq 0 m).
Proof.
  induction m; [reflexivity|]. replace (2 * S m)%nat with (2 * m + 2)%nat by lia. rewrite seq_app, filter_app, IHm. rewrite (seq_S m 0), map_app. f_equal. cbn [seq filter Nat.add map].
  assert (Nat.odd (2 * m) = false) as E by (rewrite Nat.odd_mul; reflexivity). assert (Nat.odd (S (2 * m)) = true) as F by (rewrite Nat.odd_succ, Nat.even_mul; reflexivity). cbn [Nat.mul Nat.add] in *. rewrite Nat.add_0_r in *. now rewrite E, F.
Qed.
Lemma filter_even : forall m, filter Nat.even (seq 0 (2 * m)) = map (fun i => 2 * i)%nat (seq 0 m).
Proof.
  induction m; [reflexivity|]. replace (2 * S m)%nat with (2 * m + 2)%nat by lia. rewrite seq_app, filter_app, IHm. rewrite (seq_S m 0), map_app. f_equal. cbn [seq filter Nat.add map].
  assert (Nat.even (2 * m) = true) as E by (rewrite Nat.even_mul; reflexivity). assert (Nat.even (S (2 * m)) = false) as F by (rewrite Nat.even_succ, Nat.odd_mul; reflexivity). cbn [Nat.mul Nat.add] in *. rewrite Nat.add_0_r in *. now rewrite E, F.
Qed.
Lemma filter_ext {A} (f g : A -> bool) l : (forall a, In a l -> f a = g a) -> filter f l = filter g l.
Proof. induction l as [|a l IH]; intros H; [reflexivity|]. cbn. rewrite (H a) by now left. rewrite IH by (intros b I; apply H; now right). reflexivity. Qed.
Lemma filter_map {A B} (f : B -> bool) (g : A -> B) l : filter f (map g l) = map g (filter (fun a => f (g a)) l).
Proof. induction l as [|a l IH]; [reflexivity|]. cbn. destruct (f (g a)); cbn; now rewrite IH. Qed.
Lemma filter_flat_map {A B} (f : B -> bool) (g : A -> list B) l : filter f (flat_map g l) = flat_map (fun a => filter f (g a)) l.
Proof. induction l as [|a l IH]; [reflexivity|]. cbn. rewrite filter_app. now rewrite IH. Qed.
Lemma map_flat_map {A B C} (f : B -> C) (g : A -> list B) l : map f (flat_map g l) = flat_map (fun a => map f (g a)) l.
Proof. induction l as [|a l IH]; [reflexivity|]. cbn. rewrite map_app. now rewrite IH. Qed.
Lemma flat_map_ext_in {A B} (f g : A -> list B) l : (forall a, In a l -> f a = g a) -> flat_map f l = flat_map g l.
Proof. induction l as [|a l IH]; intros H; [reflexivity|]. cbn. rewrite (H a) by now left. rewrite IH by (intros b I; apply H; now right). reflexivity. Qed.
Lemma seq_blocks w : forall m, seq 0 (m * w) = flat_map (fun j => map (fun i => j * w + i)%nat (seq 0 w)) (seq 0 m).
Proof.
  induction m; [reflexivity|]. replace (S m * w)%nat with (m * w + w)%nat by lia. rewrite seq_app, IHm, (seq_S m 0), flat_map_app. f_equal. cbn [flat_map Nat.add]. rewrite app_nil_r.
  clear. generalize (m * w)%nat as s. intros s. replace s with (s + 0)%nat at 1 by lia. generalize 0%nat as a. induction w; intros a; [reflexivity|]. cbn. f_equal. rewrite <- IHw. f_equal. lia.
Qed.
Lemma odd_place n j i : Nat.odd n = true -> Nat.odd (j * (n + 2) + i) = Nat.odd (i + j).
Proof. intros H. rewrite Nat.odd_add, Nat.odd_mul, Nat.odd_add, H, Nat.odd_add. cbn [Nat.odd Nat.even negb xorb]. rewrite Bool.andb_true_r. apply Bool.xorb_comm. Qed.
Lemma find_m_odd n : Nat.odd n = true -> find_m n = map (place n) (grid n).
Proof.
  intros H. unfold find_m. rewrite <- Nat.negb_odd, H. cbn [negb]. unfold odd_numbers.
  assert (E : exists h, n = (2 * h + 1)%nat) by (apply Nat.odd_spec in H as (h & ->); now exists h). destruct E as (h & ->).
  replace ((2 * h + 1 + 1) * (2 * h + 1 + 2))%nat with (2 * ((h + 1) * (2 * h + 3)))%nat by lia.
  rewrite (Nat.mul_comm 2 (_ * _)), Nat.div_mul by lia. rewrite <- filter_odd. replace (2 * ((h + 1) * (2 * h + 3)))%nat with ((2 * h + 1 + 1) * (2 * h + 1 + 2))%nat by lia.
  rewrite seq_blocks, filter_flat_map. unfold grid. rewrite map_flat_map. apply flat_map_ext_in. intros j _. rewrite filter_map, map_map. unfold place. cbn [fst snd].
  f_equal. apply filter_ext. intros i _. now apply odd_place.
Qed.
Lemma alternating : forall n2, times_list n2 [0; 1]%nat ++ [0%nat] = map (fun j => j mod 2)%nat (seq 0 (2 * n2 + 1)).
Proof.
  intros n2. assert (G : forall k s, times_list k [0; 1]%nat ++ [0%nat] = map (fun j => j mod 2)%nat (seq (2 * s) (2 * k + 1))).
  { induction k; intros s.
    - cbn [times_list app Nat.mul Nat.add seq map]. rewrite Nat.add_0_r. replace (s + s)%nat with (s * 2)%nat by lia. now rewrite Nat.mod_mul by lia.
    - replace (2 * S k + 1)%nat with (S (S (2 * k + 1))) by lia. cbn [seq map times_list app]. rewrite (IHk (S s)). replace (2 * S s)%nat with (S (S (2 * s))) by lia.
      replace ((2 * s) mod 2)%nat with 0%nat by (rewrite Nat.mul_comm, Nat.mod_mul; lia). replace (S (2 * s) mod 2)%nat with 1%nat by (apply (Nat.mod_unique _ 2 s); lia). reflexivity. }
  apply (G n2 0%nat).
Qed.
Lemma map2_app {A B C} (f : A -> B -> C) a b : forall a' b', List.length a = List.length b -> map2 f (a ++ a') (b ++ b') = map2 f a b ++ map2 f a' b'.
Proof. revert b. induction a as [|x a IH]; intros [|y b] a' b' H; try discriminate; [reflexivity|]. cbn. rewrite IH by (cbn in H; lia). reflexivity. Qed.
Lemma map2_repeat h v : forall s, map2 Nat.sub (map (fun i => 1 + 2 * i)%nat (seq s h)) (repeat v h) = map (fun i => 1 + 2 * (s + i) - v)%nat (seq 0 h).
Proof.
  assert (G : forall k s t, map2 Nat.sub (map (fun i => 1 + 2 * i)%nat (seq (s + t) k)) (repeat v k) = map (fun i => 1 + 2 * (s + i) - v)%nat (seq t k)).
  { induction k; intros s t; [reflexivity|]. cbn [seq map repeat map2]. f_equal. rewrite <- IHk. replace (s + S t)%nat with (S (s + t)) by lia. reflexivity. }
  intros s. rewrite <- G. now rewrite Nat.add_0_r.
Qed.
Lemma find_m_even n : Nat.even n = true -> find_m n = map (place n) (grid n).
Proof.
  intros H. unfold find_m. rewrite H. unfold odd_numbers, offset. rewrite alternating.
  assert (E : exists h, n = (2 * h)%nat) by (apply Nat.even_spec in H as (h & ->); now exists h). destruct E as (h & ->).
  assert ((2 * h) / 2 = h)%nat as -> by (rewrite Nat.mul_comm, Nat.div_mul; lia).
  replace ((2 * h + 1) * (2 * h + 2))%nat with ((2 * h + 1) * (h + 1) * 2)%nat by lia. rewrite Nat.div_mul by lia.
  unfold grid. rewrite map_flat_map.
  assert (G : forall m s, map2 Nat.sub (map (fun i => 1 + 2 * i)%nat (seq (s * (h + 1)) (m * (h + 1)))) (flat_map (fun v => repeat v (h + 1)) (map (fun j => j mod 2)%nat (seq s m)))
    = flat_map (fun j => map (place (2 * h)) (map (pair j) (column (2 * h) j))) (seq s m)).
  { induction m; intros s; [reflexivity|]. replace (S m * (h + 1))%nat with ((h + 1) + m * (h + 1))%nat by lia. rewrite seq_app, map_app. cbn [seq map flat_map].
    rewrite map2_app by (now rewrite map_length, seq_length, repeat_length). f_equal; [|rewrite <- IHm; f_equal; f_equal; f_equal; lia].
    rewrite map2_repeat, map_map. unfold place, column. cbn [fst snd]. replace (2 * h + 2)%nat with (2 * (h + 1))%nat by lia.
    destruct (Nat.Even_or_Odd s) as [(t & ->)|(t & ->)].
    - rewrite (filter_ext _ Nat.odd), filter_odd, map_map by (intros i _; now rewrite Nat.odd_add, Nat.odd_mul, Bool.xorb_false_r). apply map_ext. intros i. rewrite (Nat.mul_comm 2 t), Nat.mod_mul by lia. lia.
    - rewrite (filter_ext _ Nat.even), filter_even, map_map by (intros i _; rewrite !Nat.odd_add, Nat.odd_mul; cbn [Nat.odd Nat.even negb xorb andb]; unfold Nat.odd; destruct (Nat.even i); reflexivity). apply map_ext. intros i.
      replace ((2 * t + 1) mod 2)%nat with 1%nat by (apply (Nat.mod_unique _ 2 t); lia). lia. }
  specialize (G (2 * h + 1)%nat 0%nat). cbn [Nat.mul] in G. exact G.
Qed.
Lemma find_m_grid n : find_m n = map (place n) (grid n).
Proof. destruct (Nat.even n) eqn:E; [now apply find_m_even|]. apply find_m_odd. unfold Nat.odd. now rewrite E. Qed.
Lemma in_grid n j i : In (j, i) (grid n) <-> (j <= n)%nat /\ (i <= n + 1)%nat /\ Nat.odd (i + j) = true.
Proof.
  unfold grid. rewrite in_flat_map. split.
  - intros (k & K & I). apply in_map_iff in I as (l & E & I). injection E as -> ->. apply filter_In in I as (I & O). apply in_seq in I, K. repeat split; try easy; lia.
  - intros (A & B & O). exists j. split; [apply in_seq; lia|]. apply in_map_iff. exists i. split; [easy|]. apply filter_In. split; [apply in_seq; lia|easy].
Qed.
Lemma odd_count m : (List.length (odd_numbers m) = m / 2)%nat.
Proof. unfold odd_numbers. now rewrite map_length, seq_length. Qed.
Lemma flat_map_length {A B} (f : A -> list B) c l : (forall a, In a l -> List.length (f a) = c) -> (List.length (flat_map f l) = List.length l * c)%nat.
Proof. induction l as [|a l IH]; intros H; [reflexivity|]. cbn. rewrite app_length, (H a) by now left. rewrite IH by (intros b I; apply H; now right). lia. Qed.
Lemma map2_length_eq {A B C} (f : A -> B -> C) a : forall b, List.length a = List.length b -> List.length (map2 f a b) = List.length a.
Proof. induction a as [|x a IH]; intros [|y b] H; try discriminate; [reflexivity|]. cbn. rewrite IH by (cbn in H; lia). reflexivity. Qed.
Lemma find_m_length n : (List.length (find_m n) = (n + 1) * (n + 2) / 2)%nat.
Proof.
  unfold find_m. destruct (Nat.even n) eqn:E; [|apply odd_count]. rewrite map2_length_eq; rewrite odd_count; [reflexivity|].
  apply Nat.even_spec in E as (h & ->). unfold offset. rewrite (flat_map_length _ (2 * h / 2 + 1)) by (intros; apply repeat_length). rewrite alternating, map_length, seq_length.
  replace (2 * h / 2)%nat with h by (rewrite (Nat.mul_comm 2 h), Nat.div_mul; lia). replace ((2 * h + 1) * (2 * h + 2))%nat with ((2 * h + 1) * (h + 1) * 2)%nat by lia. rewrite Nat.div_mul by lia. reflexivity.
Qed.
Lemma grid_length n : (List.length (grid n) = (n + 1) * (n + 2) / 2)%nat.
Proof. rewrite <- find_m_length, find_m_grid. now rewrite map_length. Qed.
Lemma NoDup_flat {A B} (f : A -> list B) l : NoDup l -> (forall a, In a l -> NoDup (f a)) -> (forall a b x, In a l -> In b l -> In x (f a) -> In x (f b) -> a = b) -> NoDup (flat_map f l).
Proof.
  induction 1 as [|a l N ND IH]; intros H D; [constructor|]. cbn. 
  assert (G : forall u v : list B, NoDup u -> NoDup v -> (forall x, In x u -> ~ In x v) -> NoDup (u ++ v)).
  { induction u as [|x u IHu]; intros v U V X; [easy|]. inversion U; subst. cbn. constructor; [|apply IHu; auto; intros y Y; apply X; now right]. intros I. apply in_app_iff in I as [I|I]; [easy|]. apply (X x); [now left|easy]. }
  apply G; [apply H; now left|apply IH; [intros; apply H; now right|intros; eapply D; eauto; now right]|].
  intros x I J. apply in_flat_map in J as (b & Ib & J). assert (a = b) by (apply (D a b x); auto; [now left|now right]). subst. easy.
Qed.
Lemma grid_NoDup n : NoDup (grid n).
Proof.
  apply NoDup_flat; [apply seq_NoDup| |].
  - intros j _. apply FinFun.Injective_map_NoDup; [intros u v E; now injection E|]. apply NoDup_filter, seq_NoDup.
  - intros a b x _ _ A B. apply in_map_iff in A as (u & <- & _). apply in_map_iff in B as (v & E & _). now injection E.
Qed.

(* ---- the points ---- *)
Lemma times_list_length {A} k (l : list A) : (List.length (times_list k l) = k * List.length l)%nat.
Proof. induction k; [reflexivity|]. cbn. rewrite app_length, IHk. lia. Qed.
Lemma nth_times {A} (d : A) l : forall k j i, (j < k)%nat -> (i < List.length l)%nat -> nth (j * List.length l + i) (times_list k l) d = nth i l d.
Proof.
  induction k; intros j i Hj Hi; [lia|]. cbn [times_list]. destruct j.
  - cbn [Nat.mul Nat.add]. now rewrite app_nth1.
  - rewrite app_nth2 by lia. replace (S j * List.length l + i - List.length l)%nat with (j * List.length l + i)%nat by lia. apply IHk; lia.
Qed.
Lemma nth_blocks {A} (d : A) w : forall l j i, (j < List.length l)%nat -> (i < w)%nat -> nth (j * w + i) (flat_map (fun z => repeat z w) l) d = nth j l d.
Proof.
  induction l as [|z l IH]; intros j i Hj Hi; [cbn in Hj; lia|]. cbn [flat_map]. destruct j.
  - cbn [Nat.mul Nat.add nth]. rewrite app_nth1 by (rewrite repeat_length; lia). now rewrite nth_indep with (d' := z), nth_repeat by (rewrite repeat_length; lia).
  - rewrite app_nth2; rewrite repeat_length; [|lia]. replace (S j * w + i - w)%nat with (j * w + i)%nat by lia. cbn [nth]. apply IH; cbn in Hj; lia.
Qed.
Lemma points_grid n dom : (1 <= n)%nat -> padua_points n dom = map (fun p => padua_node n dom (fst p) (snd p)) (grid n).
Proof.
  intros Hn. destruct dom as [[[a b] c] d]. unfold padua_points. assert ((n =? 0)%nat = false) as -> by (apply Nat.eqb_neq; lia). rewrite find_m_grid, map_map. apply map_ext_in. intros (j, i) I. apply in_grid in I as (Hj & Hi & _).
  unfold place, padua_node. cbn [fst snd]. rewrite !map_length. unfold linspace. rewrite !map_length, !seq_length. unfold at_R.
  rewrite nth_blocks by (rewrite ?map_length, ?seq_length; lia).
  replace (n + 2)%nat with (List.length (map (fun t => map_to_interval (cos t) c d) (map (fun i0 => 0 + INR i0 * ((PI - 0) / INR (n + 2 - 1))) (seq 0 (n + 2))))) at 1 by (now rewrite !map_length, seq_length).
  rewrite nth_times by (rewrite ?map_length, ?seq_length; lia). rewrite !map_map.
  assert (G : forall (g : nat -> R) m k, (k < m)%nat -> nth k (map g (seq 0 m)) 0 = g k) by (intros g m k Hk; rewrite (nth_indep _ 0 (g 0%nat)) by (rewrite map_length, seq_length; lia); now rewrite (map_nth g), seq_nth by lia).
  rewrite !G by lia. replace (n + 1 - 1)%nat with n by lia. replace (n + 2 - 1)%nat with (n + 1)%nat by lia. f_equal; f_equal; f_equal; unfold Rdiv; ring.
Qed.
Lemma points_length n dom : (List.length (padua_points n dom) = (n + 1) * (n + 2) / 2)%nat.
Proof. destruct dom as [[[a b] c] d]. unfold padua_points. now rewrite map_length, find_m_length. Qed.
Lemma points_in n dom p : (1 <= n)%nat -> (In p (padua_points n dom) <-> exists j i, (j <= n)%nat /\ (i <= n + 1)%nat /\ Nat.odd (i + j) = true /\ p = padua_node n dom j i).
Proof.
  intros Hn. rewrite points_grid by easy. rewrite in_map_iff. split.
  - intros ((j, i) & <- & I). apply in_grid in I as (A & B & C). now exists j, i.
  - intros (j & i & A & B & C & ->). exists (j, i). split; [easy|]. now apply in_grid.
Qed.
Lemma angle_range m j : (1 <= m)%nat -> (j <= m)%nat -> 0 <= INR j * PI / INR m <= PI.
Proof.
  intros Hm Hj. pose proof PI_RGT_0. assert (0 < INR m) by (apply lt_0_INR; lia). pose proof (pos_INR j). assert (INR j <= INR m) by (apply le_INR; easy). split.
  - apply Rmult_le_pos; [nra|left; now apply Rinv_0_lt_compat].
  - apply (Rmult_le_reg_r (INR m)); [easy|]. unfold Rdiv. rewrite Rmult_assoc, Rinv_l by lra. nra.
Qed.
Lemma cos_angle_inj m j k : (1 <= m)%nat -> (j <= m)%nat -> (k <= m)%nat -> cos (INR j * PI / INR m) = cos (INR k * PI / INR m) -> j = k.
Proof.
  intros Hm Hj Hk E. pose proof (angle_range m j Hm Hj) as A. pose proof (angle_range m k Hm Hk) as B. pose proof PI_RGT_0. assert (0 < INR m) by (apply lt_0_INR; lia).
  assert (Q : INR j * PI / INR m = INR k * PI / INR m). { rewrite <- (acos_cos (INR j * PI / INR m)), <- (acos_cos (INR k * PI / INR m)) by easy. now rewrite E. }
  apply INR_eq. apply (Rmult_eq_reg_r (PI / INR m)); [unfold Rdiv in *; lra|]. apply Rgt_not_eq. now apply Rdiv_lt_0_compat.
Qed.
Lemma to_interval_inj x y a b : a < b -> map_to_interval x a b = map_to_interval y a b -> x = y.
Proof. unfold map_to_interval. intros H E. nra. Qed.
Lemma points_NoDup n dom : (1 <= n)%nat -> rectangle dom -> NoDup (padua_points n dom).
Proof.
  intros Hn Rd. rewrite points_grid by easy. destruct dom as [[[a b] c] d]. destruct Rd as (A & B).
  assert (G : forall l, NoDup l -> (forall p, In p l -> In p (grid n)) -> NoDup (map (fun p => padua_node n (a, b, c, d) (fst p) (snd p)) l)).
  { induction 1 as [|p l N ND IH]; intros I; [constructor|]. cbn [map]. constructor; [|apply IH; intros q Q; apply I; now right].
    intros J. apply in_map_iff in J as (q & E & J). destruct p as (j, i), q as (j', i'). assert (P : In (j, i) (grid n)) by (apply I; now left). assert (Q : In (j', i') (grid n)) by (apply I; now right).
    apply in_grid in P as (P1 & P2 & _). apply in_grid in Q as (Q1 & Q2 & _). unfold padua_node in E. cbn [fst snd] in E. injection E as E1 E2. apply to_interval_inj in E1, E2; try easy.
    apply cos_angle_inj in E1, E2; try easy; try lia. subst. easy. }
  apply G; [apply grid_NoDup|easy].
Qed.
Lemma node_inside n dom j i : (1 <= n)%nat -> rectangle dom -> (j <= n)%nat -> (i <= n + 1)%nat -> let (x, y) := padua_node n dom j i in inside dom x y.
Proof.
  intros Hn Rd Hj Hi. destruct dom as [[[a b] c] d]. destruct Rd as (A & B). unfold padua_node, inside, map_to_interval.
  pose proof (COS_bound (INR j * PI / INR n)). pose proof (COS_bound (INR i * PI / INR (n + 1))). split; split; nra.
Qed.
