From Coq Require Import Lia.
From Verif Require Import Base ShiftModel ShiftSpec.

Lemma shift_length {A} k : forall l : list A, List.length (left_shift k l) = List.length l.
Proof. induction k; intros [|a l]; cbn [left_shift]; try reflexivity. rewrite IHk, app_length. cbn. lia. Qed.
Lemma shift_nth {A} (d : A) k : forall l i, i < List.length l -> nth i (left_shift k l) d = nth ((i + k) mod List.length l) l d.
Proof.
  induction k; intros l i H.
  - cbn [left_shift]. now rewrite Nat.add_0_r, Nat.mod_small.
  - destruct l as [|a l]; [cbn in H; lia|]. cbn [left_shift]. set (m := S (List.length l)).
    assert (L : List.length (l ++ [a]) = m) by (rewrite app_length; cbn; unfold m; lia). rewrite IHk by (rewrite L; exact H). rewrite L.
    replace (List.length (a :: l)) with m by reflexivity. assert (M : m <> 0) by (unfold m; lia).
    rewrite Nat.add_succ_r. set (q := i + k). pose proof (Nat.mod_upper_bound q m M) as B. pose proof (Nat.div_mod q m M) as D.
    destruct (Nat.lt_ge_cases (q mod m) (List.length l)) as [C|C].
    + rewrite app_nth1 by easy. replace (S q mod m) with (S (q mod m)); [reflexivity|]. apply (Nat.mod_unique _ _ (q / m)); unfold m in *; lia.
    + rewrite app_nth2 by easy. replace (S q mod m) with 0; [|apply (Nat.mod_unique _ _ (S (q / m))); unfold m in *; lia]. replace (q mod m - List.length l) with 0 by (unfold m in *; lia). reflexivity.
Qed.
Lemma shift_add {A} j : forall k (l : list A), left_shift k (left_shift j l) = left_shift (j + k) l.
Proof. induction j; intros k l; [reflexivity|]. cbn [Nat.add left_shift]. destruct l; [now destruct k|]. apply IHj. Qed.
Lemma shift_full {A} (l : list A) : left_shift (List.length l) l = l.
Proof.
  destruct l as [|a l]; [reflexivity|]. apply (nth_ext _ _ a a); [apply shift_length|]. rewrite shift_length. intros i H. rewrite shift_nth by easy. f_equal.
  symmetry. apply (Nat.mod_unique _ _ 1); lia.
Qed.
Lemma shift_mod {A} k (l : list A) : left_shift k l = left_shift (k mod List.length l) l.
Proof.
  destruct l as [|a l]; [destruct k; reflexivity|]. apply (nth_ext _ _ a a); [now rewrite !shift_length|]. rewrite shift_length. intros i H. rewrite !shift_nth by easy. f_equal.
  symmetry. apply Nat.add_mod_idemp_r. cbn; lia.
Qed.
Lemma shift_map {A B} (f : A -> B) k : forall l, left_shift k (map f l) = map f (left_shift k l).
Proof. induction k; intros [|a l]; try reflexivity. cbn [map left_shift]. rewrite <- IHk, map_app. reflexivity. Qed.
Lemma shift_Forall2 {A B} (P : A -> B -> Prop) k : forall l m, Forall2 P l m -> Forall2 P (left_shift k l) (left_shift k m).
Proof. induction k; intros l m F; [exact F|]. destruct F; cbn [left_shift]; [constructor|]. apply IHk, Forall2_app; [easy|]. now constructor. Qed.
Lemma product_app a b : product (a ++ b) = product a * product b.
Proof. induction a; cbn; [lia|]. rewrite IHa. lia. Qed.
Lemma shift_product k : forall s, product (left_shift k s) = product s.
Proof. induction k; intros [|n s]; try reflexivity. cbn [left_shift]. rewrite IHk, product_app. cbn. lia. Qed.

(* ---- indices ---- *)
Lemma indices_length s : List.length (indices s) = product s.
Proof.
  induction s as [|n s IH]; [reflexivity|]. cbn [indices product]. rewrite <- IH. generalize (indices s) as l. intros l. generalize 0 as z. induction n; intros z; [reflexivity|]. cbn [seq flat_map]. rewrite app_length, map_length, IHn. lia.
Qed.
Lemma in_indices s : forall idx, In idx (indices s) <-> index_of s idx.
Proof.
  unfold index_of. induction s as [|n s IH]; intros idx; cbn [indices].
  - split; [intros [<-|[]]; constructor|]. intros F. inversion F. now left.
  - rewrite in_flat_map. split.
    + intros (i & I & J). apply in_map_iff in J as (u & <- & U). apply in_seq in I. constructor; [lia|now apply IH].
    + intros F. inversion F as [|i m idx' s' P F']. subst. exists i. split; [apply in_seq; lia|]. apply in_map, IH, F'.
Qed.
Lemma shift_seq q p : forall w, map (Nat.add q) (seq w p) = seq (q + w) p.
Proof. induction p; intros w; [reflexivity|]. cbn [seq map]. rewrite IHp. do 2 f_equal; lia. Qed.
Lemma positions s : map (position s) (indices s) = seq 0 (product s).
Proof.
  induction s as [|n s IH]; [reflexivity|]. cbn [indices product].
  assert (G : forall m z, map (position (n :: s)) (flat_map (fun i => map (cons i) (indices s)) (seq z m)) = seq (z * product s) (m * product s)).
  { induction m; intros z; [reflexivity|]. cbn [seq flat_map]. rewrite map_app, IHm. cbn [Nat.mul]. rewrite seq_app. f_equal; [|f_equal; lia].
    rewrite map_map. cbn [position]. transitivity (map (Nat.add (z * product s)) (map (position s) (indices s))); [now rewrite map_map|]. rewrite IH.
    rewrite shift_seq. f_equal; lia. }
  apply (G n 0).
Qed.
Lemma position_bound s : forall idx, index_of s idx -> position s idx < product s.
Proof.
  unfold index_of. induction s as [|n s IH]; intros idx F; inversion F as [|i m idx' s' P F']; subst; cbn [position product]; [lia|]. specialize (IH _ F'). nia.
Qed.
Lemma nth_index s : forall idx, index_of s idx -> nth_error (indices s) (position s idx) = Some idx.
Proof.
  unfold index_of. induction s as [|n s IH]; intros idx F; inversion F as [|i m idx' s' P F']; subst; [reflexivity|]. cbn [position indices].
  assert (G : forall m z j, j < m -> nth_error (flat_map (fun i => map (cons i) (indices s)) (seq z m)) (j * product s + position s idx') = Some ((z + j) :: idx')).
  { pose proof (position_bound s idx' F') as B. induction m; intros z j J; [lia|]. cbn [seq flat_map]. destruct j.
    - rewrite nth_error_app1 by (rewrite map_length, indices_length; lia). cbn [Nat.mul Nat.add]. rewrite (map_nth_error (cons z) _ _ (IH _ F')). f_equal. f_equal. lia.
    - rewrite nth_error_app2 by (rewrite map_length, indices_length; cbn; lia). rewrite map_length, indices_length. replace (S j * product s + position s idx' - product s) with (j * product s + position s idx') by (cbn; lia). rewrite IHm by lia. do 2 f_equal. lia. }
  now rewrite G.
Qed.
Lemma item_some {A} (x : ndarray A) idx : array_ok x -> index_of (shape x) idx -> exists v, item x idx = Some v.
Proof. intros K I. unfold item. destruct (nth_error _ _) eqn:E; [now eexists|]. apply nth_error_None in E. rewrite K in E. pose proof (position_bound _ _ I). lia. Qed.
Lemma array_ext {A} (x y : ndarray A) : array_ok x -> array_ok y -> shape x = shape y -> (forall idx, index_of (shape x) idx -> item x idx = item y idx) -> x = y.
Proof.
  destruct x as [s u], y as [t v]. unfold array_ok, item. cbn [shape elements]. intros U V <- H. f_equal.
  assert (forall i, nth_error u i = nth_error v i).
  { intros i. destruct (Nat.lt_ge_cases i (product s)) as [L|L].
    - assert (I : In i (map (position s) (indices s))) by (rewrite positions; apply in_seq; lia). apply in_map_iff in I as (idx & <- & I). apply H. now apply in_indices.
    - rewrite !(proj2 (nth_error_None _ _)) by lia. reflexivity. }
  clear U V H. revert v H0. induction u; intros [|b v] H; [reflexivity|specialize (H 0); discriminate|specialize (H 0); discriminate|]. f_equal; [specialize (H 0); now injection H|]. apply IHu. intros i. exact (H (S i)).
Qed.
(* ---- transposition ---- *)
Lemma where_nth axes : forall i, NoDup axes -> i < List.length axes -> where_is (nth i axes 0) axes = i.
Proof.
  induction axes as [|a l IH]; intros i N H; [cbn in H; lia|]. inversion N as [|? ? N1 N2]; subst. destruct i; cbn [nth where_is]; [now rewrite Nat.eqb_refl|]. cbn in H.
  destruct (Nat.eqb_spec a (nth i l 0)) as [E|E]; [|now rewrite IH by (easy || lia)]. exfalso. apply N1. rewrite E. apply nth_In. lia.
Qed.
Lemma roll_length m n : List.length (roll_range m n) = m.
Proof. unfold roll_range. now rewrite map_length, seq_length. Qed.
Lemma roll_nth m n i : i < m -> nth i (roll_range m n) 0 = (i + n) mod m.
Proof. intros H. unfold roll_range. rewrite (nth_indep _ 0 ((0 + n) mod m)) by (now rewrite map_length, seq_length). rewrite (map_nth (fun i => (i + n) mod m)), seq_nth by easy. reflexivity. Qed.
Lemma roll_shift m n : roll_range m n = left_shift n (seq 0 m).
Proof.
  apply (nth_ext _ _ 0 0); [now rewrite roll_length, shift_length, seq_length|]. rewrite roll_length. intros i H. rewrite roll_nth, shift_nth by (rewrite ?seq_length; easy). rewrite seq_length, seq_nth; [reflexivity|]. apply Nat.mod_upper_bound. lia.
Qed.
Lemma shift_NoDup {A} k : forall l : list A, NoDup l -> NoDup (left_shift k l).
Proof.
  induction k; intros [|a l] N; try easy. cbn [left_shift]. apply IHk. inversion N; subst. apply (NoDup_Add (a := a) (l := l)); [|easy]. pose proof (Add_app a l []) as Q. rewrite app_nil_r in Q. exact Q.
Qed.
Lemma select_all (s : list nat) : map (fun p => nth p s 0) (seq 0 (List.length s)) = s.
Proof.
  apply (nth_ext _ _ 0 0); [now rewrite map_length, seq_length|]. rewrite map_length, seq_length. intros i H. rewrite (nth_indep _ 0 (nth 0 s 0)) by (now rewrite map_length, seq_length). rewrite (map_nth (fun p => nth p s 0)), seq_nth by easy. reflexivity.
Qed.
Lemma shape_shift {A} (x : ndarray A) n : shape (transpose x (roll_range (List.length (shape x)) n)) = left_shift n (shape x).
Proof. cbn [transpose shape]. rewrite roll_shift, <- shift_map. now rewrite select_all. Qed.
Lemma in_roll m n p : p < m -> In p (roll_range m n).
Proof.
  intros H. rewrite roll_shift. assert (G : forall k (l : list nat), In p l -> In p (left_shift k l)); [|apply G, in_seq; lia].
  induction k; intros [|a l] I; try easy. cbn [left_shift]. apply IHk, in_or_app. destruct I as [->|I]; [right; now left|now left].
Qed.
Lemma source_shift m n idx : List.length idx = m -> map (fun p => nth (where_is p (roll_range m n)) (left_shift n idx) 0) (seq 0 m) = idx.
Proof.
  intros L. subst m. set (m := List.length idx). transitivity (map (fun p => nth p idx 0) (seq 0 m)); [|apply select_all]. apply map_ext_in. intros p P. apply in_seq in P.
  assert (I : In p (roll_range m n)).
  { apply in_roll; lia. }
  destruct (In_nth _ _ 0 I) as (i & Hi & E). rewrite roll_length in Hi. rewrite <- E at 1. rewrite where_nth by (rewrite ?roll_length; try easy; rewrite roll_shift; apply shift_NoDup, seq_NoDup).
  rewrite shift_nth by easy. rewrite roll_nth in E by easy. fold m. now rewrite E.
Qed.
Lemma item_shift {A} (x : ndarray A) n idx : array_ok x -> index_of (shape x) idx -> item (transpose x (roll_range (List.length (shape x)) n)) (left_shift n idx) = item x idx.
Proof.
  intros K I. unfold item at 1. rewrite shape_shift. assert (J : index_of (left_shift n (shape x)) (left_shift n idx)) by (apply shift_Forall2; exact I).
  unfold transpose. cbn [elements]. fold (shape (transpose x (roll_range (List.length (shape x)) n))). 
  assert (S1 : map (fun p => nth p (shape x) 0) (roll_range (List.length (shape x)) n) = left_shift n (shape x)) by exact (shape_shift x n). rewrite S1.
  assert (L : List.length idx = List.length (shape x)) by (clear -I; induction I; cbn; congruence).
  unfold item. pose proof (position_bound _ _ I) as B. rewrite <- K in B. destruct (elements x) as [|d e] eqn:E; [cbn in B; lia|].
  rewrite (map_nth_error _ _ _ (nth_index _ _ J)). rewrite source_shift by easy. symmetry. now apply nth_error_nth'.
Qed.
Lemma transpose_ok {A} (x : ndarray A) n : array_ok x -> array_ok (transpose x (roll_range (List.length (shape x)) n)).
Proof.
  intros K. unfold array_ok. rewrite shape_shift, shift_product. assert (S1 : map (fun p => nth p (shape x) 0) (roll_range (List.length (shape x)) n) = left_shift n (shape x)) by exact (shape_shift x n).
  cbn [transpose elements]. rewrite S1. rewrite <- K. destruct (elements x) eqn:E; [reflexivity|]. rewrite map_length, indices_length, shift_product, <- K. now rewrite E.
Qed.
(* ---- shiftdim ---- *)
Definition shifted {A} (x : ndarray A) n := transpose x (roll_range (List.length (shape x)) n).
Lemma shiftdim_pos {A} (x : ndarray A) n : shiftdim x (Some (Z.of_nat n)) = Ok (shifted x n).
Proof. unfold shiftdim. rewrite (proj2 (Z.leb_le 0 (Z.of_nat n))) by lia. now rewrite Nat2Z.id. Qed.
Lemma shift_spec {A} (x : ndarray A) n : array_ok x -> exists y, shiftdim x (Some (Z.of_nat n)) = Ok y /\ array_ok y /\ shape y = left_shift n (shape x) /\ forall idx, index_of (shape x) idx -> item y (left_shift n idx) = item x idx.
Proof. intros K. exists (shifted x n). split; [apply shiftdim_pos|]. split; [now apply transpose_ok|]. split; [apply shape_shift|]. intros; now apply item_shift. Qed.
Lemma index_back k s idx : index_of (left_shift k s) idx -> k <= List.length s -> exists j, index_of s j /\ idx = left_shift k j.
Proof.
  intros I K. exists (left_shift (List.length s - k) idx). assert (L : List.length idx = List.length s) by (rewrite <- (shift_length k s); clear -I; induction I; cbn; congruence). split.
  - unfold index_of. rewrite <- (shift_full s) at 2. replace (List.length s) with (k + (List.length s - k)) at 2 by lia. rewrite <- shift_add. now apply shift_Forall2.
  - rewrite shift_add. replace (List.length s - k + k) with (List.length idx) by lia. now rewrite shift_full.
Qed.
Lemma shifted_mod {A} (x : ndarray A) n : shifted x n = shifted x (n mod List.length (shape x)).
Proof. unfold shifted. rewrite !roll_shift. f_equal. rewrite (shift_mod n). now rewrite seq_length. Qed.
Lemma shifted_add {A} (x : ndarray A) n m : array_ok x -> shifted (shifted x n) m = shifted x (n + m).
Proof.
  intros K. assert (K1 := transpose_ok x n K). assert (K2 := transpose_ok _ m K1). assert (E1 : shape (shifted x n) = left_shift n (shape x)) by apply shape_shift. assert (E2 : shape (shifted (shifted x n) m) = left_shift (n + m) (shape x)) by (rewrite <- shift_add, <- E1; apply shape_shift).
  apply array_ext; [exact K2|now apply transpose_ok| |].
  - rewrite E2. symmetry. apply shape_shift.
  - rewrite E2. intros idx I. destruct (Nat.eq_dec (List.length (shape x)) 0) as [Z|Z].
    + apply length_zero_iff_nil in Z. assert (L0 : forall k, left_shift k (@nil nat) = []) by (destruct k; reflexivity). rewrite Z, L0 in I. inversion I; subst idx.
      assert (forall k, item (shifted x k) [] = item x []) as G. { intros k. pose proof (item_shift x k [] K) as Q. rewrite L0 in Q. apply Q. rewrite Z. constructor. }
      rewrite G. pose proof (item_shift (shifted x n) m [] K1) as Q. rewrite L0 in Q. unfold shifted at 1. rewrite Q; [apply G|]. rewrite E1, Z, L0. constructor.
    + rewrite (shift_mod (n + m)) in I. apply index_back in I as (j & J & ->); [|pose proof (Nat.mod_upper_bound (n + m) (List.length (shape x)) Z); lia].
      assert (L : List.length j = List.length (shape x)) by (clear -J; induction J; cbn; congruence).
      rewrite <- L, <- shift_mod. unfold shifted at 3. rewrite item_shift by easy. rewrite <- shift_add. unfold shifted at 1. rewrite item_shift; [|exact K1|rewrite E1; now apply shift_Forall2]. now apply item_shift.
Qed.
Lemma shifted_full {A} (x : ndarray A) : array_ok x -> shifted x (List.length (shape x)) = x.
Proof.
  intros K. apply array_ext; [now apply transpose_ok|easy| |].
  - unfold shifted. rewrite shape_shift. apply shift_full.
  - unfold shifted at 1. rewrite shape_shift, shift_full. intros idx I. assert (L : List.length idx = List.length (shape x)) by (clear -I; induction I; cbn; congruence).
    rewrite <- (item_shift x (List.length (shape x)) idx K I). f_equal. rewrite <- L. symmetry. apply shift_full.
Qed.
Lemma shift_compose {A} (x : ndarray A) n m y : array_ok x -> shiftdim x (Some (Z.of_nat n)) = Ok y -> shiftdim y (Some (Z.of_nat m)) = shiftdim x (Some (Z.of_nat (n + m))).
Proof. intros K. rewrite !shiftdim_pos. intros [= <-]. f_equal. now apply shifted_add. Qed.
Lemma shift_undone {A} (x : ndarray A) n y : array_ok x -> n <= List.length (shape x) -> shiftdim x (Some (Z.of_nat n)) = Ok y -> shiftdim y (Some (Z.of_nat (List.length (shape x) - n))) = Ok x.
Proof. intros K H E. rewrite (shift_compose x n _ y K E). rewrite shiftdim_pos. replace (n + (List.length (shape x) - n)) with (List.length (shape x)) by lia. f_equal. now apply shifted_full. Qed.
Lemma shift_period {A} (x : ndarray A) n : shiftdim x (Some (Z.of_nat (n + List.length (shape x)))) = shiftdim x (Some (Z.of_nat n)).
Proof.
  rewrite !shiftdim_pos. f_equal. rewrite (shifted_mod x (n + _)), (shifted_mod x n). f_equal. destruct (Nat.eq_dec (List.length (shape x)) 0) as [->|Z]; [now rewrite Nat.add_0_r|]. rewrite <- (Nat.mul_1_l (List.length (shape x))) at 1. now apply Nat.mod_add.
Qed.
(* singleton axes *)
Lemma product_ones k s : product (repeat 1 k ++ s) = product s.
Proof. induction k; cbn; [reflexivity|]. lia. Qed.
Lemma pad_ones {A} (x : ndarray A) k : array_ok x -> k <> 0 -> shiftdim x (Some (- Z.of_nat k)%Z) = Ok (nd (repeat 1 k ++ shape x) (elements x)).
Proof.
  intros K H. unfold shiftdim. rewrite (proj2 (Z.leb_gt 0 (- Z.of_nat k))) by lia. replace (Z.to_nat (Z.abs (- Z.of_nat k))) with k by lia. unfold reshape. rewrite product_ones, K, Nat.eqb_refl. reflexivity.
Qed.
Lemma leading_repeat k a s : forall i first, a <> 1 -> leading_ones (repeat 1 k ++ a :: s) i first = i + k.
Proof. induction k; intros i first H; cbn [repeat app leading_ones]. - apply Nat.eqb_neq in H. rewrite H. lia. - cbn [Nat.eqb]. rewrite IHk by easy. lia. Qed.
Lemma leading_all k : forall i first, leading_ones (repeat 1 k) i first = first.
Proof. induction k; intros i first; [reflexivity|]. cbn. apply IHk. Qed.
Lemma drop_ones {A} (x : ndarray A) k a s : array_ok x -> shape x = repeat 1 k ++ a :: s -> a <> 1 -> shiftdim x None = Ok (nd (a :: s) (elements x)).
Proof.
  intros K E H. unfold shiftdim, reshape, no_leading_ones, num_leading_ones. rewrite E, leading_repeat by easy. cbn [Nat.add]. assert (D : skipn k (repeat 1 k ++ a :: s) = a :: s) by (clear; induction k; [reflexivity|exact IHk]). rewrite D. unfold array_ok in K. rewrite K, E, product_ones, Nat.eqb_refl. reflexivity.
Qed.
Lemma drop_all {A} (x : ndarray A) k : array_ok x -> shape x = repeat 1 k -> shiftdim x None = Ok x.
Proof. intros K E. unfold shiftdim, reshape, no_leading_ones, num_leading_ones. rewrite E, leading_all. cbn [skipn]. rewrite K, E, Nat.eqb_refl. destruct x. cbn in *. now rewrite E. Qed.
Lemma pad_back {A} (x : ndarray A) k a s : array_ok x -> shape x = repeat 1 k ++ a :: s -> a <> 1 -> k <> 0 -> exists y, shiftdim x None = Ok y /\ shiftdim y (Some (- Z.of_nat k)%Z) = Ok x.
Proof.
  intros K E H Z. exists (nd (a :: s) (elements x)). split; [now apply (drop_ones x k)|]. rewrite pad_ones; [|unfold array_ok in *; cbn [shape elements]; now rewrite K, E, product_ones|easy]. cbn [shape elements]. rewrite <- E. now destruct x.
Qed.
Lemma pad_drop {A} (x : ndarray A) k a s y : array_ok x -> shape x = a :: s -> a <> 1 -> shiftdim x (Some (- Z.of_nat k)%Z) = Ok y -> k <> 0 -> shiftdim y None = Ok x.
Proof.
  intros K E H P Z. rewrite pad_ones in P by easy. injection P as <-. rewrite (drop_ones _ k a s); [cbn [elements]; rewrite <- E; now destruct x|unfold array_ok in *; cbn [shape elements]; now rewrite product_ones|cbn; now rewrite E|easy].
Qed.
