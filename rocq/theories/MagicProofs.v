(* Sums over index ranges, arrays given by a function, magic squares of odd and doubly even order. *)
From Coq Require Import ZArith List Permutation Lia Bool Znumtheory.
From Verif Require Import Base MagicModel MagicSpec.
Import ListNotations.
Local Open Scope Z_scope.

Fixpoint zs (n : nat) (f : nat -> Z) : Z := match n with O => 0 | S m => zs m f + f m end.
Lemma zs_ext n f g : (forall i, (i < n)%nat -> f i = g i) -> zs n f = zs n g.
Proof. induction n as [|n IH]; intros H; [reflexivity|]. cbn [zs]. rewrite IH by (intros; apply H; lia). rewrite H by lia. reflexivity. Qed.
Lemma zs_add n f g : zs n (fun i => f i + g i) = zs n f + zs n g.
Proof. induction n as [|n IH]; cbn [zs]; [ring|]. rewrite IH. ring. Qed.
Lemma zs_scal n c f : zs n (fun i => c * f i) = c * zs n f.
Proof. induction n as [|n IH]; cbn [zs]; [ring|]. rewrite IH. ring. Qed.
Lemma zs_const n c : zs n (fun _ => c) = Z.of_nat n * c.
Proof. induction n as [|n IH]; [reflexivity|]. cbn [zs]. rewrite IH. lia. Qed.
Lemma zs_split n m f : zs (n + m) f = zs n f + zs m (fun i => f (n + i)%nat).
Proof. induction m as [|m IH]; [rewrite Nat.add_0_r; cbn [zs]; ring|]. rewrite Nat.add_succ_r. cbn [zs]. rewrite IH. ring. Qed.
Lemma zs_rev n f : zs n f = zs n (fun i => f (n - 1 - i)%nat).
Proof.
  induction n as [|n IH]; [reflexivity|]. change (S n) with (1 + n)%nat at 2. rewrite zs_split. cbn [zs]. rewrite IH.
  replace (S n - 1 - 0)%nat with n by lia. rewrite (zs_ext n (fun i => f (S n - 1 - (1 + i))%nat) (fun i => f (n - 1 - i)%nat)) by (intros; f_equal; lia). ring.
Qed.
Lemma zs_count n lo hi : (lo <= hi <= n)%nat -> zs n (fun i => if ((lo <=? i) && (i <? hi))%nat then 1 else 0) = Z.of_nat hi - Z.of_nat lo.
Proof.
  revert lo hi. induction n as [|n IH]; intros lo hi H; [cbn; lia|]. cbn [zs]. destruct (Nat.eq_dec hi (S n)) as [->|N].
  - destruct (Nat.eq_dec lo (S n)) as [->|N'].
    + rewrite (zs_ext n _ (fun _ => 0)), zs_const.
      * destruct (Nat.leb_spec (S n) n); [lia|]. cbn [andb]. lia.
      * intros i I. destruct (Nat.leb_spec (S n) i); [lia|]. reflexivity.
    + rewrite (zs_ext n _ (fun i => if ((lo <=? i) && (i <? n))%nat then 1 else 0)).
      * rewrite IH by lia. destruct (Nat.leb_spec lo n); [|lia]. destruct (Nat.ltb_spec n (S n)); [|lia]. cbn [andb]. lia.
      * intros i I. destruct (Nat.ltb_spec i (S n)); [|lia]. destruct (Nat.ltb_spec i n); [|lia]. reflexivity.
  - rewrite IH by lia. destruct (Nat.ltb_spec n hi); [lia|]. rewrite andb_false_r. lia.
Qed.

Lemma total_map f n : total (map f (seq 0 n)) = zs n f.
Proof.
  induction n as [|n IH]; [reflexivity|]. rewrite seq_S, map_app. cbn [zs]. rewrite <- IH.
  assert (T : forall a b, total (a ++ b) = total a + total b) by (induction a as [|x a IHa]; intros b; [reflexivity|]; change (x + total (a ++ b) = x + total a + total b); rewrite IHa; ring).
  rewrite T. cbn [map Nat.add]. unfold total at 2. cbn [fold_right]. lia.
Qed.
Lemma total_perm l l' : Permutation l l' -> total l = total l'.
Proof. induction 1; unfold total in *; cbn [fold_right] in *; lia. Qed.
Lemma total_ids n : 2 * total (map Z.of_nat (seq 0 n)) = Z.of_nat n * (Z.of_nat n - 1).
Proof. rewrite total_map. induction n as [|n IH]; [reflexivity|]. cbn [zs]. rewrite Nat2Z.inj_succ. lia. Qed.

Lemma map_seq_nth {B} (f : nat -> B) n i d : (i < n)%nat -> nth i (map f (seq 0 n)) d = f i.
Proof. intros H. rewrite (nth_indep _ d (f 0%nat)) by (rewrite map_length, seq_length; exact H). rewrite map_nth, seq_nth by exact H. reflexivity. Qed.
Lemma table_get n f i j : (i < n)%nat -> (j < n)%nat -> get (table n f) i j = f i j.
Proof. intros I J. unfold get, table. rewrite map_seq_nth by exact I. apply map_seq_nth. exact J. Qed.

Definition good (n : nat) (f : nat -> nat -> Z) : Prop :=
  let N := Z.of_nat n in
  (forall i j, (i < n)%nat -> (j < n)%nat -> 1 <= f i j <= N * N) /\
  (forall i j i' j', (i < n)%nat -> (j < n)%nat -> (i' < n)%nat -> (j' < n)%nat -> f i j = f i' j' -> i = i' /\ j = j') /\
  (forall i, (i < n)%nat -> 2 * zs n (f i) = N * (N * N + 1)) /\
  (forall j, (j < n)%nat -> 2 * zs n (fun i => f i j) = N * (N * N + 1)) /\
  2 * zs n (fun i => f i i) = N * (N * N + 1) /\ 2 * zs n (fun i => f i (n - 1 - i)%nat) = N * (N * N + 1).

Lemma nodup_app {A} (r s : list A) : (forall x, In x r -> ~ In x s) -> NoDup r -> NoDup s -> NoDup (r ++ s).
Proof.
  induction r as [|x r IHr]; intros N R Q; [exact Q|]. cbn. inversion R; subst. constructor; [|apply IHr; try assumption; intros; apply N; right; assumption].
  intros I. apply in_app_iff in I. destruct I as [I|I]; [contradiction|]. apply (N x); [left; reflexivity|exact I].
Qed.
Lemma nodup_map {A B} (f : A -> B) l : (forall x y, In x l -> In y l -> f x = f y -> x = y) -> NoDup l -> NoDup (map f l).
Proof.
  induction l as [|a l IH]; intros H D; [constructor|]. cbn. inversion D; subst. constructor; [|apply IH; try assumption; intros; apply H; try (right; assumption); assumption].
  intros I. apply in_map_iff in I. destruct I as [b [E Ib]]. apply H in E; [subst b; contradiction|right; exact Ib|left; reflexivity].
Qed.
Lemma nodup_rows n f (l : list nat) : NoDup l -> (forall i, In i l -> (i < n)%nat) ->
  (forall i j i' j', (i < n)%nat -> (j < n)%nat -> (i' < n)%nat -> (j' < n)%nat -> f i j = f i' j' :> Z -> i = i' /\ j = j') ->
  NoDup (concat (map (fun i => map (f i) (seq 0 n)) l)).
Proof.
  intros D L H. induction l as [|a l IH]; [constructor|]. cbn [map concat]. inversion D as [|? ? NA D']; subst.
  assert (Na : (a < n)%nat) by (apply L; left; reflexivity). apply nodup_app.
  - intros x X I. apply in_map_iff in X. destruct X as [j [E J]]. apply in_concat in I. destruct I as [row [R X]]. apply in_map_iff in R. destruct R as [i [<- Ii]].
    apply in_map_iff in X. destruct X as [j' [E' J']]. apply in_seq in J, J'. destruct (H a j i j') as [K _]; try lia; [apply L; right; exact Ii|]. subst i. contradiction.
  - apply (nodup_map (f a)); [|apply seq_NoDup]. intros x y X Y E. apply in_seq in X, Y. apply (H a x a y); try lia; exact E.
  - apply IH; [exact D'|]. intros; apply L; right; assumption.
Qed.
Lemma concat_rows_length n (f : nat -> nat -> Z) l : List.length (concat (map (fun i => map (f i) (seq 0 n)) l)) = (List.length l * n)%nat.
Proof. induction l as [|a l IH]; [reflexivity|]. cbn [map concat]. rewrite app_length, IH, map_length, seq_length. reflexivity. Qed.

Lemma good_magic n f : good n f -> magic_square n (table n f).
Proof.
  intros [R [I [Rw [Cl [Dg Ad]]]]]. unfold magic_square. cbv zeta in *. set (N := Z.of_nat n) in *.
  assert (HALF : forall t, 2 * t = N * (N * N + 1) -> t = N * (N * N + 1) / 2) by (intros t E; rewrite <- E, Z.mul_comm, Z.div_mul; lia).
  repeat split.
  - unfold table. rewrite map_length, seq_length. reflexivity.
  - intros row H. unfold table in H. apply in_map_iff in H. destruct H as [i [<- _]]. rewrite map_length, seq_length. reflexivity.
  - apply NoDup_Permutation_bis.
    + apply nodup_rows; [apply seq_NoDup| |exact I]. intros i H. apply in_seq in H. lia.
    + unfold table. rewrite concat_rows_length, map_length, !seq_length. lia.
    + intros x X. apply in_concat in X. destruct X as [row [H X]]. apply in_map_iff in H. destruct H as [i [<- Hi]]. apply in_map_iff in X. destruct X as [j [<- Hj]].
      apply in_seq in Hi, Hj. specialize (R i j ltac:(lia) ltac:(lia)). apply in_map_iff. exists (Z.to_nat (f i j)). split; [lia|]. apply in_seq. unfold N in R. nia.
  - intros row H. apply in_map_iff in H. destruct H as [i [<- Hi]]. apply in_seq in Hi. rewrite total_map. apply HALF, Rw. lia.
  - intros j J. unfold column, table. rewrite map_map. rewrite (map_ext_in _ (fun i => f i j)); [rewrite total_map; apply HALF, Cl; exact J|]. intros i _. apply map_seq_nth. exact J.
  - unfold diagonal. rewrite (map_ext_in _ (fun i => f i i)); [rewrite total_map; apply HALF, Dg|]. intros i Hi. apply in_seq in Hi. apply (table_get n f i i); lia.
  - unfold antidiagonal. rewrite (map_ext_in _ (fun i => f i (n - 1 - i)%nat)); [rewrite total_map; apply HALF, Ad|]. intros i Hi. apply in_seq in Hi. apply (table_get n f i (n - 1 - i)); lia.
Qed.

(* residues *)
Lemma mod_eq N a b : 0 < N -> a mod N = b mod N -> exists t, a - b = N * t.
Proof. intros P E. exists (a / N - b / N). rewrite (Z.div_mod a N), (Z.div_mod b N) at 1 by lia. rewrite E. ring. Qed.
Lemma residues n g : (0 < n)%nat -> (forall i j, (i < n)%nat -> (j < n)%nat -> g i mod Z.of_nat n = g j mod Z.of_nat n -> i = j) ->
  2 * zs n (fun i => g i mod Z.of_nat n) = Z.of_nat n * (Z.of_nat n - 1).
Proof.
  intros P I. rewrite <- total_map, <- total_ids. f_equal. apply total_perm. apply NoDup_Permutation_bis.
  - apply nodup_map; [|apply seq_NoDup]. intros x y X Y E. apply in_seq in X, Y. apply I; try lia; exact E.
  - rewrite !map_length. lia.
  - intros x X. apply in_map_iff in X. destruct X as [i [<- _]]. assert (B := Z.mod_pos_bound (g i) (Z.of_nat n) ltac:(lia)).
    apply in_map_iff. exists (Z.to_nat (g i mod Z.of_nat n)). split; [lia|]. apply in_seq. lia.
Qed.
Lemma symmetric n g t : (0 < n)%nat -> (forall i, (i < n)%nat -> g i + g (n - 1 - i)%nat = Z.of_nat n * t i - 1) ->
  2 * zs n (fun i => g i mod Z.of_nat n) = Z.of_nat n * (Z.of_nat n - 1).
Proof.
  intros P H. replace (2 * zs n (fun i => g i mod Z.of_nat n)) with (zs n (fun i => g i mod Z.of_nat n) + zs n (fun i => g (n - 1 - i)%nat mod Z.of_nat n))
    by (rewrite <- (zs_rev n (fun i => g i mod Z.of_nat n)); ring).
  rewrite <- zs_add. rewrite <- zs_const. apply zs_ext. intros i I. specialize (H i I). set (N := Z.of_nat n) in *.
  assert (A := Z.mod_pos_bound (g i) N ltac:(lia)). assert (B := Z.mod_pos_bound (g (n - 1 - i)%nat) N ltac:(lia)).
  assert (DA := Z.div_mod (g i) N ltac:(lia)). assert (DB := Z.div_mod (g (n - 1 - i)%nat) N ltac:(lia)).
  set (a := g i mod N) in *. set (b := g (n - 1 - i)%nat mod N) in *.
  assert (E : a + b + 1 = N * (t i - g i / N - g (n - 1 - i)%nat / N)) by lia.
  set (u := t i - g i / N - g (n - 1 - i)%nat / N) in *. assert (u = 1) by nia. lia.
Qed.

Definition odd_entry (n i j : nat) : Z :=
  let N := Z.of_nat n in let I := Z.of_nat i + 1 in let J := Z.of_nat j + 1 in
  N * ((I + J - (N + 3) / 2) mod N) + (I + 2 * J - 2) mod N + 1.
Lemma sum_entry n a b : 2 * zs n a = Z.of_nat n * (Z.of_nat n - 1) -> 2 * zs n b = Z.of_nat n * (Z.of_nat n - 1) ->
  2 * zs n (fun i => Z.of_nat n * a i + b i + 1) = Z.of_nat n * (Z.of_nat n * Z.of_nat n + 1).
Proof. intros A B. rewrite !zs_add, zs_scal, zs_const. nia. Qed.
Lemma small_mult N a b t : 0 <= a < N -> 0 <= b < N -> a - b = N * t -> a = b.
Proof. intros A B E. assert (t = 0) by nia. nia. Qed.
Lemma odd_good m : (1 <= m)%nat -> good (2 * m + 1) (odd_entry (2 * m + 1)).
Proof.
  intros Hm. set (n := (2 * m + 1)%nat). unfold good. cbv zeta. assert (EN : Z.of_nat n = 2 * Z.of_nat m + 1) by (unfold n; lia).
  assert (H3 : (Z.of_nat n + 3) / 2 = Z.of_nat m + 2) by (rewrite EN; replace (2 * Z.of_nat m + 1 + 3) with ((Z.of_nat m + 2) * 2) by ring; apply Z.div_mul; lia).
  assert (ODD : forall x t, 2 * x = Z.of_nat n * t -> exists u, x = Z.of_nat n * u).
  { intros x t E. exists (x - Z.of_nat m * t). rewrite EN in *. nia. }
  assert (PN : 0 < Z.of_nat n) by lia. assert (Pn : (0 < n)%nat) by lia.
  unfold odd_entry. rewrite H3. clear H3.
  split; [|split; [|split; [|split; [|split]]]].
  - intros i j I J. set (N := Z.of_nat n) in *.
    assert (A := Z.mod_pos_bound (Z.of_nat i + 1 + (Z.of_nat j + 1) - (Z.of_nat m + 2)) N PN). assert (B := Z.mod_pos_bound (Z.of_nat i + 1 + 2 * (Z.of_nat j + 1) - 2) N PN). nia.
  - intros i j i' j' I J I' J' E. set (N := Z.of_nat n) in *.
    set (x := Z.of_nat i + 1 + (Z.of_nat j + 1) - (Z.of_nat m + 2)) in *. set (y := Z.of_nat i + 1 + 2 * (Z.of_nat j + 1) - 2) in *.
    set (x' := Z.of_nat i' + 1 + (Z.of_nat j' + 1) - (Z.of_nat m + 2)) in *. set (y' := Z.of_nat i' + 1 + 2 * (Z.of_nat j' + 1) - 2) in *.
    assert (A := Z.mod_pos_bound x N PN). assert (B := Z.mod_pos_bound y N PN). assert (A' := Z.mod_pos_bound x' N PN). assert (B' := Z.mod_pos_bound y' N PN).
    assert (EX : x mod N = x' mod N) by nia. assert (EY : y mod N = y' mod N) by nia. apply mod_eq in EX; [|exact PN]. apply mod_eq in EY; [|exact PN]. destruct EX as [t T]. destruct EY as [u U].
    assert (K : Z.of_nat j - Z.of_nat j' = N * (u - t)) by (unfold x, x', y, y' in *; lia). apply small_mult in K; [|unfold N in *; lia|unfold N in *; lia].
    assert (K' : Z.of_nat i - Z.of_nat i' = N * t) by (unfold x, x', y, y' in *; lia). apply small_mult in K'; unfold N in *; lia.
  - intros i I. apply (sum_entry n (fun j => (Z.of_nat i + 1 + (Z.of_nat j + 1) - (Z.of_nat m + 2)) mod Z.of_nat n) (fun j => (Z.of_nat i + 1 + 2 * (Z.of_nat j + 1) - 2) mod Z.of_nat n)).
    + apply (residues n (fun j => Z.of_nat i + 1 + (Z.of_nat j + 1) - (Z.of_nat m + 2)) Pn). intros a b A B E. apply mod_eq in E; [|exact PN]. destruct E as [t E].
      assert (K : Z.of_nat a - Z.of_nat b = Z.of_nat n * t) by lia. apply small_mult in K; lia.
    + apply (residues n (fun j => Z.of_nat i + 1 + 2 * (Z.of_nat j + 1) - 2) Pn). intros a b A B E. apply mod_eq in E; [|exact PN]. destruct E as [t E].
      destruct (ODD (Z.of_nat a - Z.of_nat b) t) as [u K]; [lia|]. apply small_mult in K; lia.
  - intros j J. apply (sum_entry n (fun i => (Z.of_nat i + 1 + (Z.of_nat j + 1) - (Z.of_nat m + 2)) mod Z.of_nat n) (fun i => (Z.of_nat i + 1 + 2 * (Z.of_nat j + 1) - 2) mod Z.of_nat n)).
    + apply (residues n (fun i => Z.of_nat i + 1 + (Z.of_nat j + 1) - (Z.of_nat m + 2)) Pn). intros a b A B E. apply mod_eq in E; [|exact PN]. destruct E as [t E].
      assert (K : Z.of_nat a - Z.of_nat b = Z.of_nat n * t) by lia. apply small_mult in K; lia.
    + apply (residues n (fun i => Z.of_nat i + 1 + 2 * (Z.of_nat j + 1) - 2) Pn). intros a b A B E. apply mod_eq in E; [|exact PN]. destruct E as [t E].
      assert (K : Z.of_nat a - Z.of_nat b = Z.of_nat n * t) by lia. apply small_mult in K; lia.
  - apply (sum_entry n (fun i => (Z.of_nat i + 1 + (Z.of_nat i + 1) - (Z.of_nat m + 2)) mod Z.of_nat n) (fun i => (Z.of_nat i + 1 + 2 * (Z.of_nat i + 1) - 2) mod Z.of_nat n)).
    + apply (symmetric n (fun i => Z.of_nat i + 1 + (Z.of_nat i + 1) - (Z.of_nat m + 2)) (fun _ => 1) Pn). intros i I. lia.
    + apply (symmetric n (fun i => Z.of_nat i + 1 + 2 * (Z.of_nat i + 1) - 2) (fun _ => 3) Pn). intros i I. lia.
  - apply (sum_entry n (fun i => (Z.of_nat i + 1 + (Z.of_nat (n - 1 - i) + 1) - (Z.of_nat m + 2)) mod Z.of_nat n) (fun i => (Z.of_nat i + 1 + 2 * (Z.of_nat (n - 1 - i) + 1) - 2) mod Z.of_nat n)).
    + apply (symmetric n (fun i => Z.of_nat i + 1 + (Z.of_nat (n - 1 - i) + 1) - (Z.of_nat m + 2)) (fun _ => 1) Pn). intros i I. lia.
    + apply (symmetric n (fun i => Z.of_nat i + 1 + 2 * (Z.of_nat (n - 1 - i) + 1) - 2) (fun _ => 3) Pn). intros i I. lia.
Qed.

(* doubly even order *)
Definition even4_entry (n i j : nat) : Z :=
  let N := Z.of_nat n in let m := N * Z.of_nat i + Z.of_nat j + 1 in if quarter i =? quarter j then N * N + 1 - m else m.
Lemma quarter_add i t : quarter (4 * t + i) = quarter i.
Proof. unfold quarter. f_equal. replace (Z.of_nat (4 * t + i) + 1) with (Z.of_nat i + 1 + Z.of_nat t * 4) by lia. apply Z.mod_add. lia. Qed.
Lemma quarter_rev m i : (i < 4 * m)%nat -> quarter (4 * m - 1 - i) = quarter i.
Proof.
  intros I. assert (D := Nat.div_mod i 4 ltac:(lia)). assert (B := Nat.mod_upper_bound i 4 ltac:(lia)). set (t := (i / 4)%nat) in *. set (r := (i mod 4)%nat) in *.
  rewrite D at 2. rewrite quarter_add. replace (4 * m - 1 - i)%nat with (4 * (m - 1 - t) + (3 - r))%nat by lia. rewrite quarter_add.
  clear D. destruct r as [|[|[|[|r]]]]; try reflexivity. lia.
Qed.
Lemma quarter_01 i : quarter i = 0 \/ quarter i = 1.
Proof.
  assert (D := Nat.div_mod i 4 ltac:(lia)). assert (B := Nat.mod_upper_bound i 4 ltac:(lia)). rewrite D, quarter_add. destruct (i mod 4)%nat as [|[|[|[|r]]]]; try (left; reflexivity); try (right; reflexivity). lia.
Qed.
Lemma zs_four m f : zs (4 * m) f = zs m (fun t => f (4 * t)%nat + f (4 * t + 1)%nat + f (4 * t + 2)%nat + f (4 * t + 3)%nat).
Proof.
  induction m as [|m IH]; [reflexivity|]. replace (4 * S m)%nat with (4 * m + 4)%nat by lia. rewrite zs_split, IH. cbn [zs]. rewrite Nat.add_0_r. ring.
Qed.
Lemma even4_good m : (1 <= m)%nat -> good (4 * m) (even4_entry (4 * m)).
Proof.
  intros Hm. set (n := (4 * m)%nat). unfold good. cbv zeta. assert (EN : Z.of_nat n = 4 * Z.of_nat m) by (unfold n; lia). unfold even4_entry. set (N := Z.of_nat n) in *.
  assert (Q0 : forall t, quarter (4 * t) = 0) by (intros t; rewrite <- (Nat.add_0_r (4 * t)), quarter_add; reflexivity).
  assert (Q1 : forall t, quarter (4 * t + 1) = 1) by (intros t; rewrite quarter_add; reflexivity).
  assert (Q2 : forall t, quarter (4 * t + 2) = 1) by (intros t; rewrite quarter_add; reflexivity).
  assert (Q3 : forall t, quarter (4 * t + 3) = 0) by (intros t; rewrite quarter_add; reflexivity).
  assert (QR : forall i, (i < n)%nat -> quarter (n - 1 - i) = quarter i) by (intros i I; apply quarter_rev; exact I).
  split; [|split; [|split; [|split; [|split]]]].
  - intros i j I J. assert (Z.of_nat i < N) by (unfold N; lia). assert (Z.of_nat j < N) by (unfold N; lia). destruct (quarter i =? quarter j); nia.
  - intros i j i' j' I J I' J' E. assert (A : Z.of_nat i < N) by (unfold N; lia). assert (B : Z.of_nat j < N) by (unfold N; lia). assert (A' : Z.of_nat i' < N) by (unfold N; lia). assert (B' : Z.of_nat j' < N) by (unfold N; lia).
    destruct (Z.eqb_spec (quarter i) (quarter j)) as [S1|S1]; destruct (Z.eqb_spec (quarter i') (quarter j')) as [S2|S2].
    + assert (K : Z.of_nat i = Z.of_nat i') by nia. rewrite K in E. split; lia.
    + exfalso. assert (K : Z.of_nat i' = N - 1 - Z.of_nat i) by nia. assert (K2 : Z.of_nat j' = N - 1 - Z.of_nat j) by nia.
      apply S2. replace i' with (n - 1 - i)%nat by (unfold N in K; lia). replace j' with (n - 1 - j)%nat by (unfold N in K2; lia). rewrite !QR by assumption. exact S1.
    + exfalso. assert (K : Z.of_nat i = N - 1 - Z.of_nat i') by nia. assert (K2 : Z.of_nat j = N - 1 - Z.of_nat j') by nia.
      apply S1. replace i with (n - 1 - i')%nat by (unfold N in K; lia). replace j with (n - 1 - j')%nat by (unfold N in K2; lia). rewrite !QR by assumption. exact S2.
    + assert (K : Z.of_nat i = Z.of_nat i') by nia. rewrite K in E. split; lia.
  - intros i I. unfold n at 1. rewrite zs_four. rewrite (zs_ext m _ (fun _ => 2 * (N * N + 1))); [rewrite zs_const, EN; ring|]. intros t T. rewrite Q0, Q1, Q2, Q3.
    rewrite !Nat2Z.inj_add, Nat2Z.inj_mul. destruct (quarter_01 i) as [->| ->]; cbn [Z.eqb Pos.eqb]; change (Z.of_nat 1) with 1; change (Z.of_nat 2) with 2; change (Z.of_nat 3) with 3; ring.
  - intros j J. unfold n at 1. rewrite zs_four. rewrite (zs_ext m _ (fun _ => 2 * (N * N + 1))); [rewrite zs_const, EN; ring|]. intros t T. rewrite Q0, Q1, Q2, Q3.
    rewrite !Nat2Z.inj_add, Nat2Z.inj_mul. destruct (quarter_01 j) as [->| ->]; cbn [Z.eqb Pos.eqb]; change (Z.of_nat 1) with 1; change (Z.of_nat 2) with 2; change (Z.of_nat 3) with 3; ring.
  - set (g := fun i : nat => N * N + 1 - (N * Z.of_nat i + Z.of_nat i + 1)). rewrite (zs_ext n _ g) by (intros i I; rewrite Z.eqb_refl; reflexivity).
    replace (2 * zs n g) with (zs n g + zs n (fun i => g (n - 1 - i)%nat)) by (rewrite <- zs_rev; ring). rewrite <- zs_add.
    rewrite (zs_ext n _ (fun _ => N * N + 1)); [rewrite zs_const; reflexivity|]. intros i I. unfold g. replace (Z.of_nat (n - 1 - i)) with (N - 1 - Z.of_nat i) by (unfold N; lia). ring.
  - set (g := fun i : nat => N * N + 1 - (N * Z.of_nat i + (N - 1 - Z.of_nat i) + 1)). rewrite (zs_ext n _ g).
    + replace (2 * zs n g) with (zs n g + zs n (fun i => g (n - 1 - i)%nat)) by (rewrite <- zs_rev; ring). rewrite <- zs_add.
      rewrite (zs_ext n _ (fun _ => N * N + 1)); [rewrite zs_const; reflexivity|]. intros i I. unfold g. replace (Z.of_nat (n - 1 - i)) with (N - 1 - Z.of_nat i) by (unfold N; lia). ring.
    + intros i I. rewrite QR by exact I. rewrite Z.eqb_refl. unfold g. replace (Z.of_nat (n - 1 - i)) with (N - 1 - Z.of_nat i) by (unfold N; lia). reflexivity.
Qed.
