From Coq Require Import Reals List ZArith Bool Lia Lra Arith.
From Verif Require Import Base KdeModel ProcModel PolyModel SlopesProofs3 HistModel ArSpec ArProofs2 CsimProofs EstModel EstSpec EstProofs.
Import ListNotations.
Local Open Scope R_scope.

Definition dir (n i j : nat) (x y : R) : list R := map (fun k => x * unit_draw k i + y * unit_draw k j) (seq 0 n).
Lemma dir_length n i j x y : List.length (dir n i j x y) = n. Proof. unfold dir. rewrite map_length, seq_length. reflexivity. Qed.
Lemma nth_mapseq (g : nat -> R) n k : (k < n)%nat -> nth k (map g (seq 0 n)) 0 = g k.
Proof. intros H. rewrite (nth_indep _ 0 (g 0%nat)) by (rewrite map_length, seq_length; lia). rewrite map_nth, seq_nth by lia. reflexivity. Qed.
Lemma dir_nth n i j x y k : (k < n)%nat -> nth k (dir n i j x y) 0 = x * unit_draw k i + y * unit_draw k j.
Proof. intros H. unfold dir. apply (nth_mapseq (fun k => x * unit_draw k i + y * unit_draw k j)). exact H. Qed.
Lemma dir_opposite n i j x y : opposite (dir n i j x y) = dir n i j (- x) (- y).
Proof. unfold opposite, dir. rewrite map_map. apply map_ext. intros k. ring. Qed.
Lemma two_shift th i j x y : (i < List.length th)%nat -> (j < List.length th)%nat -> i <> j -> two th i j x y = shifted th (dir (List.length th) i j x y).
Proof.
  intros I J N. apply list_eq; [unfold two, shifted; rewrite !upd_length, map_length, seq_length; try lia; rewrite ?upd_length; lia|].
  intros k K. unfold two in K. rewrite !upd_length in K by (rewrite ?upd_length; lia).
  unfold two. rewrite !upd_nth by (rewrite ?upd_length; lia).
  unfold shifted. rewrite (nth_mapseq (fun k => nth k th 0 + nth k (dir (List.length th) i j x y) 0)) by exact K. rewrite dir_nth by exact K.
  unfold unit_draw, at_R. destruct (Nat.eqb_spec k j) as [Kj|Kj]; destruct (Nat.eqb_spec k i) as [Ki|Ki]; try lia; try rewrite Kj; try rewrite Ki; lra.
Qed.
Lemma one_shift th i x : (i < List.length th)%nat -> upd th i (at_R th i + x) = shifted th (dir (List.length th) i i x 0).
Proof.
  intros I. apply list_eq; [unfold shifted; rewrite upd_length, map_length, seq_length; lia|].
  intros k K. rewrite upd_length in K by lia. rewrite upd_nth by lia.
  unfold shifted. rewrite (nth_mapseq (fun k => nth k th 0 + nth k (dir (List.length th) i i x 0) 0)) by exact K. rewrite dir_nth by exact K.
  unfold unit_draw, at_R. destruct (Nat.eqb_spec k i) as [->|Ki]; lra.
Qed.
Lemma zero_shift th i : (i < List.length th)%nat -> th = shifted th (dir (List.length th) i i 0 0).
Proof.
  intros I. apply list_eq; [unfold shifted; rewrite map_length, seq_length; lia|].
  intros k K. unfold shifted. rewrite (nth_mapseq (fun k => nth k th 0 + nth k (dir (List.length th) i i 0 0) 0)) by exact K. rewrite dir_nth by exact K. lra.
Qed.
Definition form (n : nat) (A : nat -> nat -> R) (v : list R) : R := sum_to n (fun i => sum_to n (fun j => A i j * nth i v 0 * nth j v 0)).
Lemma form_dir n A i j x y : (i < n)%nat -> (j < n)%nat -> form n A (dir n i j x y) = A i i * x * x + (A i j + A j i) * x * y + A j j * y * y.
Proof.
  intros I J. unfold form.
  rewrite (sum_ext n _ (fun a => unit_draw a i * (x * (x * A a i + y * A a j)) + unit_draw a j * (y * (x * A a i + y * A a j)))).
  - rewrite sum_plus, !sum_unit. destruct (Nat.ltb_spec i n); [|lia]. destruct (Nat.ltb_spec j n); [|lia]. ring.
  - intros a Ha. rewrite (sum_ext n _ (fun b => unit_draw b i * (A a b * nth a (dir n i j x y) 0 * x) + unit_draw b j * (A a b * nth a (dir n i j x y) 0 * y))).
    + rewrite sum_plus, !sum_unit. destruct (Nat.ltb_spec i n); [|lia]. destruct (Nat.ltb_spec j n); [|lia]. rewrite dir_nth by exact Ha. ring.
    + intros b Hb. rewrite (dir_nth n i j x y b) by exact Hb. ring.
Qed.
Lemma dir_small n i j x y d : Rabs x <= d -> Rabs y <= d -> i <> j \/ y = 0 -> forall k, Rabs (nth k (dir n i j x y) 0) <= d.
Proof.
  intros X Y N k. assert (P : 0 <= d) by (pose proof (Rabs_pos x); lra). destruct (Nat.lt_ge_cases k n) as [H|H].
  - rewrite dir_nth by exact H. unfold unit_draw. destruct (Nat.eqb_spec k i); destruct (Nat.eqb_spec k j); subst; try (destruct N; [lia|subst y]);
    match goal with |- Rabs ?e <= _ => first [replace e with x by ring; exact X | replace e with y by ring; exact Y | replace e with 0 by ring; rewrite Rabs_R0; exact P] end.
  - rewrite nth_overflow by (rewrite dir_length; lia). rewrite Rabs_R0. exact P.
Qed.
Lemma Rabs_two a b K : Rabs a <= K -> Rabs b <= K -> - (2 * K) <= a + b <= 2 * K.
Proof. intros A B. unfold Rabs in *. destruct (Rcase_abs a); destruct (Rcase_abs b); lra. Qed.
Lemma entry_near f th d K A : 0 < d -> symmetric (List.length th) A -> nearly_quadratic f th d K A ->
  forall a b, (a < List.length th)%nat -> (b < List.length th)%nat -> Rabs (entry f th d a b - A a b) <= (if (a =? b)%nat then 4 else 1) * K / d ^ 2.
Proof.
  intros D SY [c [odd [O Q]]]. set (n := List.length th) in *.
  assert (P2 : 0 < d ^ 2) by (apply pow_lt; exact D).
  assert (AD : Rabs d <= d /\ Rabs (- d) <= d /\ Rabs 0 <= d) by (rewrite Rabs_Ropp, Rabs_R0, Rabs_right; lra).
  destruct AD as [AD1 [AD2 AD3]].
  assert (EV : forall i j x y, (i < n)%nat -> (j < n)%nat -> Rabs x <= d -> Rabs y <= d -> i <> j \/ y = 0 ->
    - (2 * K) <= f (shifted th (dir n i j x y)) + f (shifted th (dir n i j (- x) (- y))) - 2 * c - (A i i * x * x + (A i j + A j i) * x * y + A j j * y * y) <= 2 * K).
  { intros i j x y I J X Y N. pose proof (Q (dir n i j x y) (dir_length n i j x y) (dir_small n i j x y d X Y N)) as Q1.
    assert (N' : i <> j \/ - y = 0) by (destruct N as [N|N]; [left; exact N|right; lra]).
    pose proof (Q (dir n i j (- x) (- y)) (dir_length n i j (- x) (- y)) (dir_small n i j (- x) (- y) d ltac:(rewrite Rabs_Ropp; exact X) ltac:(rewrite Rabs_Ropp; exact Y) N')) as Q2.
    fold (form n A (dir n i j x y)) in Q1. fold (form n A (dir n i j (- x) (- y))) in Q2. rewrite form_dir in Q1, Q2 by assumption.
    rewrite <- (dir_opposite n i j x y) in Q2. rewrite (O (dir n i j x y)) in Q2 by apply dir_length. rewrite dir_opposite in Q2.
    pose proof (Rabs_two _ _ _ Q1 Q2) as T. lra. }
  assert (DG : forall i, (i < n)%nat -> Rabs (diag_diff f th d i - A i i) <= 4 * K / d ^ 2).
  { intros i I. unfold diag_diff. rewrite one_shift by exact I. fold n. replace (at_R th i - d) with (at_R th i + - d) by ring. rewrite one_shift by exact I. fold n.
    pose proof (EV i i d 0 I I AD1 AD3 (or_intror eq_refl)) as E. rewrite Ropp_0 in E.
    pose proof (Q (dir n i i 0 0) (dir_length n i i 0 0) (dir_small n i i 0 0 d AD3 AD3 (or_intror eq_refl))) as Q0.
    fold (form n A (dir n i i 0 0)) in Q0. rewrite form_dir in Q0 by assumption. pose proof (zero_shift th i I) as Zs; fold n in Zs; rewrite <- Zs in Q0; clear Zs.
    assert (O0 : odd (dir n i i 0 0) = 0).
    { pose proof (O (dir n i i 0 0) (dir_length n i i 0 0)) as Oz. rewrite dir_opposite in Oz. rewrite Ropp_0 in Oz. lra. }
    rewrite O0 in Q0. replace (f th - (c + 0 + / 2 * (A i i * 0 * 0 + (A i i + A i i) * 0 * 0 + A i i * 0 * 0))) with (f th - c) in Q0 by ring.
    assert (B : - K <= f th - c <= K) by (unfold Rabs in Q0; destruct (Rcase_abs (f th - c)); lra).
    set (s := f (shifted th (dir n i i d 0)) + f (shifted th (dir n i i (- d) 0))) in *.
    replace ((f (shifted th (dir n i i d 0)) - 2 * f th + f (shifted th (dir n i i (- d) 0))) / d ^ 2 - A i i) with ((s - 2 * f th - A i i * d * d) / d ^ 2) by (unfold s; field; lra).
    assert (Z : Rabs (s - 2 * f th - A i i * d * d) <= 4 * K) by (apply Rabs_le; split; lra).
    unfold Rdiv. rewrite Rabs_mult, (Rabs_right (/ d ^ 2)) by (left; apply Rinv_0_lt_compat; exact P2). apply Rmult_le_compat_r; [left; apply Rinv_0_lt_compat; exact P2|exact Z]. }
  assert (CR : forall i j, (i < n)%nat -> (j < n)%nat -> i <> j -> Rabs (cross_diff f th d i j - A i j) <= 1 * K / d ^ 2).
  { intros i j I J N. unfold cross_diff. rewrite !two_shift by assumption. fold n.
    pose proof (EV i j d d I J AD1 AD1 (or_introl N)) as E1. pose proof (EV i j (- d) d I J AD2 AD1 (or_introl N)) as E2.
    rewrite Ropp_involutive in E2. rewrite <- (SY i j I J) in E1, E2.
    set (s := f (shifted th (dir n i j d d)) + f (shifted th (dir n i j (- d) (- d)))) in *.
    set (t := f (shifted th (dir n i j (- d) d)) + f (shifted th (dir n i j d (- d)))) in *.
    replace ((s - t) / (4 * d ^ 2) - A i j) with ((s - t - 4 * A i j * d * d) / 4 / d ^ 2) by (field; lra).
    assert (Z : Rabs ((s - t - 4 * A i j * d * d) / 4) <= 1 * K) by (apply Rabs_le; split; lra).
    unfold Rdiv at 1. rewrite Rabs_mult, (Rabs_right (/ d ^ 2)) by (left; apply Rinv_0_lt_compat; exact P2). apply Rmult_le_compat_r; [left; apply Rinv_0_lt_compat; exact P2|exact Z]. }
  intros a b Ha Hb. unfold entry. destruct (Nat.eqb_spec a b) as [->|N]; [apply DG; exact Hb|].
  destruct (Nat.ltb_spec a b); [apply CR; assumption|]. rewrite (SY a b Ha Hb). apply CR; auto.
Qed.
Lemma hessian_near : forall f theta d K A, 0 < d -> symmetric (List.length theta) A -> nearly_quadratic f theta d K A ->
  exists B, is_matrix (List.length theta) (hessian f theta (Some d)) B /\
    forall i j, (i < List.length theta)%nat -> (j < List.length theta)%nat -> Rabs (B i j + A i j) <= (if (i =? j)%nat then 4 else 1) * K / d ^ 2.
Proof.
  intros f th d K A D SY NQ. destruct (hessian_entries f th (Some d)) as [DM E]. cbv zeta in E.
  exists (fun i j => - entry f th d i j). split; [apply matrix_dims; split; [exact DM|exact E]|].
  intros i j I J. replace (- entry f th d i j + A i j) with (- (entry f th d i j - A i j)) by ring. rewrite Rabs_Ropp. apply entry_near; assumption.
Qed.
Lemma hessian_symmetric : forall f theta eps, exists B, is_matrix (List.length theta) (hessian f theta eps) B /\ symmetric (List.length theta) B.
Proof.
  intros f th eps. destruct (hessian_entries f th eps) as [DM E]. cbv zeta in E. eexists. split; [apply matrix_dims; split; [exact DM|exact E]|].
  intros i j I J. f_equal. unfold entry. destruct (Nat.eqb_spec i j) as [->|N]; [rewrite Nat.eqb_refl; reflexivity|].
  destruct (Nat.eqb_spec j i); [lia|]. destruct (Nat.ltb_spec i j); destruct (Nat.ltb_spec j i); try lia; reflexivity.
Qed.
