From Coq Require Import Reals Lra Lia Permutation Sorted.
From Verif Require Import Base PolyModel OrthoModel OrthoProofs QuadProofs2 SplineSpec SplineProofs LinAlg FilterModel FilterSpec.
Local Open Scope R_scope.

Lemma total_vsum n f : total n f = vsum n f.
Proof. apply fold_sum_vsum. Qed.
(* ---- rows of the matrix ---- *)
Definition d2 (s : nat -> R) (i : nat) : R := s i - 2 * s (i + 1)%nat + s (i + 2)%nat.
Definition e0 (m : nat) (e : nat -> R) (i : nat) : R := if (i <? m)%nat then e i else 0.
Definition e1 (m : nat) (e : nat -> R) (i : nat) : R := match i with O => 0 | S i' => if (i' <? m)%nat then e i' else 0 end.
Definition e2 (m : nat) (e : nat -> R) (i : nat) : R := match i with S (S i') => if (i' <? m)%nat then e i' else 0 | _ => 0 end.
Ltac bools := repeat match goal with
  | |- context [(?a =? ?b)%nat] => destruct (Nat.eqb_spec a b); cbn [andb]; try lia
  | |- context [(?a <? ?b)%nat] => destruct (Nat.ltb_spec a b); cbn [andb]; try lia
  end.
Lemma hp_entry n w i j : (4 <= n)%nat -> (i < n)%nat -> (j < n)%nat ->
  hp_matrix n w i j = (if (i =? S (S j))%nat then w else 0) +
    (if (i =? S j)%nat then (if (i =? 1)%nat || (i =? n - 1)%nat then - 2 * w else - 4 * w) else 0) +
    (if (i =? j)%nat then (if (i =? 0)%nat || (i =? n - 1)%nat then 1 + w else if (i =? 1)%nat || (i =? n - 2)%nat then 1 + 5 * w else 6 * w + 1) else 0) +
    (if (S i =? j)%nat then (if (i =? 0)%nat || (i =? n - 2)%nat then - 2 * w else - 4 * w) else 0) +
    (if (S (S i) =? j)%nat then w else 0).
Proof.
  intros Hn Hi Hj. unfold hp_matrix, hp_set, hp_diags.
  destruct (Nat.eqb_spec i (S (S j))) as [E|E1]; [subst i; bools; cbn [orb]; ring|].
  destruct (Nat.eqb_spec i (S j)) as [E|E2]; [subst i; bools; cbn [orb]; ring|].
  destruct (Nat.eqb_spec i j) as [E|E3]; [subst j; bools; cbn [orb]; ring|].
  destruct (Nat.eqb_spec (S i) j) as [E|E4]; [subst j; bools; cbn [orb]; ring|].
  destruct (Nat.eqb_spec (S (S i)) j) as [E|E5]; [subst j; bools; cbn [orb]; ring|].
  bools; cbn [orb]; ring.
Qed.
Lemma hp_row m w s i : (2 <= m)%nat -> (i < m + 2)%nat ->
  vsum (m + 2) (fun j => hp_matrix (m + 2) w i j * s j) = s i + w * (e0 m (d2 s) i - 2 * e1 m (d2 s) i + e2 m (d2 s) i).
Proof.
  intros Hm Hi. set (n := (m + 2)%nat).
  set (cL := if (i =? 1)%nat || (i =? n - 1)%nat then - 2 * w else - 4 * w).
  set (cD := if (i =? 0)%nat || (i =? n - 1)%nat then 1 + w else if (i =? 1)%nat || (i =? n - 2)%nat then 1 + 5 * w else 6 * w + 1).
  set (cU := if (i =? 0)%nat || (i =? n - 2)%nat then - 2 * w else - 4 * w).
  rewrite (vsum_ext n _ (fun j => (if (i =? S (S j))%nat then w * s j else 0) + (if (i =? S j)%nat then cL * s j else 0) +
    (if (i =? j)%nat then cD * s j else 0) + (if (S i =? j)%nat then cU * s j else 0) + (if (S (S i) =? j)%nat then w * s j else 0))).
  2:{ intros j Hj. rewrite hp_entry by lia. fold cL cD cU. 
      destruct (i =? S (S j))%nat, (i =? S j)%nat, (i =? j)%nat, (S i =? j)%nat, (S (S i) =? j)%nat; ring. }
  rewrite !vsum_add, vsum_pick_down2, vsum_pick_down, !vsum_pick_at. unfold n, cL, cD, cU, e0, e1, e2, d2.
  destruct i as [|[|i]].
  - bools. cbn [orb Nat.add]. ring.
  - bools; cbn [orb Nat.add]; try ring.
  - destruct (Nat.eq_dec i m) as [->|]; [lia|]. rewrite !Nat.add_1_r, <- !plus_n_Sm, !Nat.add_0_r.
    replace (i + 2)%nat with (S (S i)) by lia. replace (S (S i) + 2)%nat with (S (S (S (S i)))) by lia.
    bools; cbn [orb]; try ring; try lia.
Qed.
(* ---- summation by parts ---- *)
Lemma vsum_m2 m f : vsum (m + 2) f = vsum m f + f m + f (S m).
Proof. replace (m + 2)%nat with (S (S m)) by lia. reflexivity. Qed.
Lemma parts m v e : vsum (m + 2) (fun i => v i * (e0 m e i - 2 * e1 m e i + e2 m e i)) = vsum m (fun i => d2 v i * e i).
Proof.
  rewrite (vsum_ext (m + 2) _ (fun i => v i * e0 m e i + (-2) * (v i * e1 m e i) + v i * e2 m e i)) by (intros; ring).
  rewrite !vsum_add, vsum_scal.
  assert (A0 : vsum (m + 2) (fun i => v i * e0 m e i) = vsum m (fun i => v i * e i)).
  { rewrite vsum_m2. unfold e0 at 2 3. bools. rewrite !Rmult_0_r, !Rplus_0_r. apply vsum_ext. intros k Hk. unfold e0. bools. reflexivity. }
  assert (A1 : vsum (m + 2) (fun i => v i * e1 m e i) = vsum m (fun i => v (i + 1)%nat * e i)).
  { replace (m + 2)%nat with (S (S m)) by lia. rewrite vsum_first. cbn [vsum]. unfold e1 at 1 3. bools. rewrite !Rmult_0_r, Rplus_0_r, Rplus_0_l.
    apply vsum_ext. intros k Hk. unfold e1. bools. now rewrite Nat.add_1_r. }
  assert (A2 : vsum (m + 2) (fun i => v i * e2 m e i) = vsum m (fun i => v (i + 2)%nat * e i)).
  { replace (m + 2)%nat with (S (S m)) by lia. rewrite !vsum_first. unfold e2 at 1 2. rewrite !Rmult_0_r, !Rplus_0_l.
    apply vsum_ext. intros k Hk. unfold e2. bools. now replace (k + 2)%nat with (S (S k)) by lia. }
  rewrite A0, A1, A2, <- vsum_scal, <- !vsum_add. apply vsum_ext. intros k _. unfold d2. ring.
Qed.
(* testing a solution against v *)
Lemma hp_weak m w b s v : (2 <= m)%nat -> solves (m + 2) (hp_matrix (m + 2) w) b s ->
  vsum (m + 2) (fun i => v i * (s i - b i)) + w * vsum m (fun i => d2 v i * d2 s i) = 0.
Proof.
  intros Hm Hs. rewrite <- parts, <- vsum_scal, <- vsum_add. apply vsum_0. intros i Hi.
  specialize (Hs i Hi). rewrite hp_row in Hs by lia. rewrite <- Hs. ring.
Qed.
Definition obj (m : nat) (w : R) (x s : nat -> R) : R := vsum (m + 2) (fun i => (x i - s i) ^ 2) + w * vsum m (fun i => d2 s i ^ 2).
Lemma obj_split m w x s t : (2 <= m)%nat -> solves (m + 2) (hp_matrix (m + 2) w) x s ->
  obj m w x t = obj m w x s + vsum (m + 2) (fun i => (t i - s i) ^ 2) + w * vsum m (fun i => d2 (fun j => t j - s j) i ^ 2).
Proof.
  intros Hm Hs. pose proof (hp_weak m w x s (fun j => t j - s j) Hm Hs) as G. unfold obj.
  rewrite (vsum_ext (m + 2) (fun i => (x i - t i) ^ 2) (fun i => (x i - s i) ^ 2 + (t i - s i) ^ 2 + 2 * ((t i - s i) * (s i - x i)))) by (intros; ring).
  rewrite (vsum_ext m (fun i => d2 t i ^ 2) (fun i => d2 s i ^ 2 + d2 (fun j => t j - s j) i ^ 2 + 2 * (d2 (fun j => t j - s j) i * d2 s i))) by (intros; unfold d2; ring).
  rewrite !vsum_add, !vsum_scal. cbv beta in G. nra.
Qed.
Lemma hp_injective m w : (2 <= m)%nat -> 0 <= w -> injective (m + 2) (hp_matrix (m + 2) w).
Proof.
  intros Hm Hw s Hs j Hj. pose proof (hp_weak m w (fun _ => 0) s s Hm Hs) as G. cbv beta in G.
  rewrite (vsum_ext m _ (fun i => d2 s i ^ 2)) in G by (intros; ring).
  rewrite (vsum_ext (m + 2) _ (fun i => s i ^ 2)) in G by (intros; ring).
  assert (G1 : 0 <= vsum m (fun i => d2 s i ^ 2)) by (apply vsum_nonneg; intros; apply pow2_ge_0).
  assert (G2 : vsum (m + 2) (fun i => s i ^ 2) = 0).
  { assert (0 <= vsum (m + 2) (fun i => s i ^ 2)) by (apply vsum_nonneg; intros; apply pow2_ge_0). nra. }
  pose proof (vsum_zero_all _ _ (fun k _ => pow2_ge_0 (s k)) G2 j Hj) as H. cbv beta in H. nra.
Qed.

(* ---- the filter ---- *)
Lemma hp_solution spsolve w x : solver spsolve -> 0 <= w -> (4 <= List.length x)%nat ->
  exists m s, List.length x = (m + 2)%nat /\ (2 <= m)%nat /\ solves (m + 2) (hp_matrix (m + 2) w) (at_R x) s /\
    hodrick_prescott spsolve w x = map s (seq 0 (m + 2)).
Proof.
  intros Hs Hw Hx. exists (List.length x - 2)%nat, (spsolve (List.length x) (hp_matrix (List.length x) w) (at_R x)).
  assert (E : List.length x = (List.length x - 2 + 2)%nat) by lia. split; [exact E|]. split; [lia|]. rewrite <- E. split.
  - apply Hs. assert (I : injective (List.length x) (hp_matrix (List.length x) w)) by (rewrite E; apply hp_injective; [lia|exact Hw]).
    destruct (injective_solvable _ _ (at_R x) I) as [s S1]. exists s. split; [exact S1|]. intros t T i Hi. exact (injective_unique _ _ _ t s I T S1 i Hi).
  - unfold hodrick_prescott. bools. reflexivity.
Qed.
Lemma obj_list w x s m : List.length x = (m + 2)%nat -> hp_objective w x s = obj m w (at_R x) (at_R s).
Proof. intros E. unfold hp_objective, obj. rewrite !total_vsum, E. replace (m + 2 - 2)%nat with m by lia. reflexivity. Qed.
Lemma obj_ext m w x s t : (forall i, (i < m + 2)%nat -> s i = t i) -> obj m w x s = obj m w x t.
Proof.
  intros H. unfold obj. f_equal; [|f_equal]; apply vsum_ext; intros k Hk; [now rewrite H by lia|]. unfold d2. now rewrite !H by lia.
Qed.
Lemma hp_optimal spsolve w x : solver spsolve -> 0 <= w -> (4 <= List.length x)%nat ->
  List.length (hodrick_prescott spsolve w x) = List.length x /\
  forall t, List.length t = List.length x -> t <> hodrick_prescott spsolve w x -> hp_objective w x (hodrick_prescott spsolve w x) < hp_objective w x t.
Proof.
  intros Hs Hw Hx. destruct (hp_solution spsolve w x Hs Hw Hx) as (m & s & E & Hm & S1 & E2). rewrite E2. split; [now rewrite map_length, seq_length|].
  intros t Ht Hne. rewrite !(obj_list w x _ m E), (obj_split m w (at_R x) s (at_R t) Hm S1).
  rewrite (obj_ext m w (at_R x) (at_R (map s (seq 0 (m + 2)))) s) by (intros; now apply at_map).
  assert (G1 : 0 <= vsum m (fun i => d2 (fun j => at_R t j - s j) i ^ 2)) by (apply vsum_nonneg; intros; apply pow2_ge_0).
  assert (G2 : 0 < vsum (m + 2) (fun i => (at_R t i - s i) ^ 2)).
  { assert (G : 0 <= vsum (m + 2) (fun i => (at_R t i - s i) ^ 2)) by (apply vsum_nonneg; intros; apply pow2_ge_0).
    destruct (Rle_lt_or_eq_dec _ _ G) as [L|Eq]; [exact L|]. exfalso. apply Hne.
    apply nth_ext with 0 0; [rewrite map_length, seq_length; lia|]. intros i Hi. rewrite Ht, E in Hi.
    pose proof (vsum_zero_all _ _ (fun k _ => pow2_ge_0 (at_R t k - s k)) (eq_sym Eq) i Hi) as Z. cbv beta in Z.
    change (nth i (map s (seq 0 (m + 2))) 0) with (at_R (map s (seq 0 (m + 2))) i). rewrite at_map by exact Hi.
    change (nth i t 0) with (at_R t i). nra. }
  nra.
Qed.
Lemma hp_line spsolve w a b n : solver spsolve -> 0 <= w -> hodrick_prescott spsolve w (map (fun i => a + b * INR i) (seq 0 n)) = map (fun i => a + b * INR i) (seq 0 n).
Proof.
  intros Hs Hw. set (x := map _ _). assert (L : List.length x = n) by (unfold x; now rewrite map_length, seq_length).
  destruct (le_lt_dec 4 n) as [Hn|Hn]; [|unfold hodrick_prescott; rewrite L; bools; reflexivity].
  destruct (hp_solution spsolve w x Hs Hw ltac:(lia)) as (m & s & E & Hm & S1 & E2). rewrite E2.
  assert (S2 : solves (m + 2) (hp_matrix (m + 2) w) (at_R x) (fun i => a + b * INR i)).
  { intros i Hi. rewrite hp_row by lia. unfold x. rewrite at_map by lia.
    assert (D : forall k, d2 (fun i => a + b * INR i) k = 0) by (intros k; unfold d2; rewrite !plus_INR; cbn; ring).
    assert (D0 : e0 m (d2 (fun i => a + b * INR i)) i = 0) by (unfold e0; rewrite D; now destruct (i <? m)%nat).
    assert (D1 : e1 m (d2 (fun i => a + b * INR i)) i = 0) by (unfold e1; destruct i; [reflexivity|]; rewrite D; now destruct (i <? m)%nat).
    assert (D2 : e2 m (d2 (fun i => a + b * INR i)) i = 0) by (unfold e2; destruct i as [|[|i]]; [reflexivity|reflexivity|]; rewrite D; now destruct (i <? m)%nat).
    rewrite D0, D1, D2. ring. }
  unfold x. rewrite <- L, E. apply map_ext_in. intros i Hi. apply in_seq in Hi.
  exact (injective_unique _ _ _ s _ (hp_injective m w Hm Hw) S1 S2 i ltac:(lia)).
Qed.
(* the sum and the first moment are preserved *)
Lemma hp_moments spsolve w x a b : solver spsolve -> 0 <= w ->
  total (List.length x) (fun i => (a + b * INR i) * nth i (hodrick_prescott spsolve w x) 0) = total (List.length x) (fun i => (a + b * INR i) * nth i x 0).
Proof.
  intros Hs Hw. destruct (le_lt_dec 4 (List.length x)) as [Hn|Hn]; [|unfold hodrick_prescott; bools; reflexivity].
  destruct (hp_solution spsolve w x Hs Hw Hn) as (m & s & E & Hm & S1 & E2). rewrite E2, !total_vsum, E.
  pose proof (hp_weak m w (at_R x) s (fun i => a + b * INR i) Hm S1) as G. cbv beta in G.
  rewrite (vsum_0 m) in G by (intros k _; unfold d2; rewrite !plus_INR; cbn; ring).
  rewrite (vsum_ext (m + 2) _ (fun i => (a + b * INR i) * s i)).
  2:{ intros i Hi. change (nth i (map s (seq 0 (m + 2))) 0) with (at_R (map s (seq 0 (m + 2))) i). now rewrite at_map by exact Hi. }
  rewrite (vsum_ext (m + 2) _ (fun i => (a + b * INR i) * s i - (a + b * INR i) * at_R x i)) in G by (intros; ring).
  rewrite vsum_sub in G. unfold at_R in G. lra.
Qed.
(* larger w: the roughness of the result is at most the misfit of any straight line divided by w *)
Lemma hp_smooth spsolve w x a b : solver spsolve -> 0 <= w -> (4 <= List.length x)%nat ->
  w * total (List.length x - 2) (fun i => (nth i (hodrick_prescott spsolve w x) 0 - 2 * nth (i + 1) (hodrick_prescott spsolve w x) 0 + nth (i + 2) (hodrick_prescott spsolve w x) 0) ^ 2)
  <= total (List.length x) (fun i => (nth i x 0 - (a + b * INR i)) ^ 2).
Proof.
  intros Hs Hw Hn. destruct (hp_solution spsolve w x Hs Hw Hn) as (m & s & E & Hm & S1 & E2). rewrite E2, !total_vsum, E.
  replace (m + 2 - 2)%nat with m by lia. pose proof (obj_split m w (at_R x) s (fun i => a + b * INR i) Hm S1) as G. unfold obj in G.
  rewrite (vsum_0 m (fun i => d2 (fun i => a + b * INR i) i ^ 2)) in G by (intros k _; unfold d2; rewrite !plus_INR; cbn; ring).
  assert (G1 : 0 <= vsum m (fun i => d2 (fun j => (a + b * INR j) - s j) i ^ 2)) by (apply vsum_nonneg; intros; apply pow2_ge_0).
  assert (G2 : 0 <= vsum (m + 2) (fun i => ((a + b * INR i) - s i) ^ 2)) by (apply vsum_nonneg; intros; apply pow2_ge_0).
  assert (G3 : 0 <= vsum (m + 2) (fun i => (at_R x i - s i) ^ 2)) by (apply vsum_nonneg; intros; apply pow2_ge_0).
  rewrite (vsum_ext m _ (fun i => d2 s i ^ 2)).
  2:{ intros i Hi. unfold d2. change (nth ?k (map s (seq 0 (m + 2))) 0) with (at_R (map s (seq 0 (m + 2))) k). rewrite !at_map by lia. reflexivity. }
  cbv beta in G, G1, G2. unfold at_R in *. nra.
Qed.
(* three samples are returned as they are, although the objective has a smaller value elsewhere *)
Lemma hp_three spsolve : hodrick_prescott spsolve 1 [0; 1; 0] = [0; 1; 0] /\ hp_objective 1 [0; 1; 0] [1/3; 1/3; 1/3] < hp_objective 1 [0; 1; 0] [0; 1; 0].
Proof. split; [reflexivity|]. unfold hp_objective, total. cbn. lra. Qed.
