(* Magic squares of singly even order. *)
From Coq Require Import ZArith List Lia Bool.
From Verif Require Import Base MagicModel MagicSpec MagicProofs.
Import ListNotations.
Local Open Scope Z_scope.

Lemma put_length {A} (l : list A) i v : List.length (put l i v) = List.length l.
Proof. revert i. induction l as [|a l IH]; intros [|i]; cbn; try reflexivity. rewrite IH. reflexivity. Qed.
Lemma put_nth {A} (l : list A) i v k d : (i < List.length l)%nat -> nth k (put l i v) d = if (k =? i)%nat then v else nth k l d.
Proof.
  revert i k. induction l as [|a l IH]; intros i k H; cbn in H; [lia|]. destruct i as [|i]; destruct k as [|k]; cbn; try reflexivity. apply IH. lia.
Qed.
Definition square (n : nat) (M : matrix) : Prop := List.length M = n /\ forall i, (i < n)%nat -> List.length (nth i M []) = n.
Lemma square_put2 n M i j v : square n M -> (i < n)%nat -> square n (put2 M i j v).
Proof.
  intros [L R] I. split; [unfold put2; rewrite put_length; exact L|]. intros k K. unfold put2. rewrite put_nth by lia. destruct (k =? i)%nat; [rewrite put_length; apply R; exact I|apply R; exact K].
Qed.
Lemma get_put2 n M i j v a b : square n M -> (i < n)%nat -> (j < n)%nat -> get (put2 M i j v) a b = if ((a =? i) && (b =? j))%nat then v else get M a b.
Proof.
  intros [L R] I J. unfold get, put2. rewrite put_nth by lia. destruct (Nat.eqb_spec a i) as [->|N]; [|reflexivity]. rewrite put_nth by (rewrite R; lia). reflexivity.
Qed.
Lemma square_ext n M M' : square n M -> square n M' -> (forall i j, (i < n)%nat -> (j < n)%nat -> get M i j = get M' i j) -> M = M'.
Proof.
  intros [L R] [L' R'] H. apply (nth_ext _ _ [] []); [lia|]. intros i I. rewrite L in I. apply (nth_ext _ _ 0 0); [rewrite R, R'; lia|]. intros j J. rewrite R in J by exact I. apply H; assumption.
Qed.
Lemma square_table n f : square n (table n f).
Proof. split; [unfold table; rewrite map_length, seq_length; reflexivity|]. intros i I. unfold table. rewrite map_seq_nth by exact I. rewrite map_length, seq_length. reflexivity. Qed.

(* rows r and r + p are partners *)
Definition row (p a : nat) : nat := if (a <? p)%nat then a else (a - p)%nat.
Definition partner (p a : nat) : nat := if (a <? p)%nat then (a + p)%nat else (a - p)%nat.
Lemma row_partner p a : (a < 2 * p)%nat -> row p (partner p a) = row p a.
Proof. intros H. unfold row, partner. destruct (Nat.ltb_spec a p); destruct (Nat.ltb_spec (a + p) p); destruct (Nat.ltb_spec (a - p) p); lia. Qed.
Lemma partner_partner p a : (a < 2 * p)%nat -> partner p (partner p a) = a.
Proof. intros H. unfold partner. destruct (Nat.ltb_spec a p); destruct (Nat.ltb_spec (a + p) p); destruct (Nat.ltb_spec (a - p) p); lia. Qed.
Lemma partner_lt p a : (a < 2 * p)%nat -> (partner p a < 2 * p)%nat.
Proof. intros H. unfold partner. destruct (Nat.ltb_spec a p); lia. Qed.

Lemma swap_square p j i M : square (2 * p) M -> (i < p)%nat -> square (2 * p) (swap p j i M).
Proof. intros Sq I. unfold swap. apply square_put2; [apply square_put2; [exact Sq|lia]|lia]. Qed.
Lemma swap_get p j i M a b : square (2 * p) M -> (i < p)%nat -> (j < 2 * p)%nat -> (a < 2 * p)%nat ->
  get (swap p j i M) a b = if ((b =? j) && (row p a =? i))%nat then get M (partner p a) b else get M a b.
Proof.
  intros Sq I J A. unfold swap. rewrite (get_put2 (2 * p)) by (try apply square_put2; try assumption; lia). rewrite (get_put2 (2 * p)) by (try assumption; lia).
  unfold row, partner. destruct (Nat.eqb_spec b j) as [->|N]; [|rewrite !andb_false_r; reflexivity]. rewrite !andb_true_r. cbn [andb].
  destruct (Nat.ltb_spec a p) as [B|B]; destruct (Nat.eqb_spec a (i + p)) as [C|C]; try lia.
  - destruct (Nat.eqb_spec a i) as [->|D]; reflexivity.
  - destruct (Nat.eqb_spec (a - p) i); [|lia]. subst i. reflexivity.
  - destruct (Nat.eqb_spec a i); [lia|]. destruct (Nat.eqb_spec (a - p) i); [lia|]. reflexivity.
Qed.
Lemma swap'_square p j i M : square (2 * p) M -> (i < p)%nat -> square (2 * p) (swap' p j i M).
Proof. intros Sq I. unfold swap'. apply square_put2; [apply square_put2; [exact Sq|lia]|lia]. Qed.
Lemma swap'_get p j i M a b : square (2 * p) M -> (i < p)%nat -> (j < 2 * p)%nat -> (a < 2 * p)%nat ->
  get (swap' p j i M) a b = if ((b =? j) && (row p a =? i))%nat then get M (partner p a) b else get M a b.
Proof.
  intros Sq I J A. unfold swap'. rewrite (get_put2 (2 * p)) by (try apply square_put2; try assumption; lia). rewrite (get_put2 (2 * p)) by (try assumption; lia).
  unfold row, partner. destruct (Nat.eqb_spec b j) as [->|N]; [|rewrite !andb_false_r; reflexivity]. rewrite !andb_true_r. cbn [andb].
  destruct (Nat.ltb_spec a p) as [B|B]; destruct (Nat.eqb_spec a (i + p)) as [C|C]; try lia.
  - destruct (Nat.eqb_spec a i) as [->|D]; reflexivity.
  - destruct (Nat.eqb_spec a i); [lia|]. destruct (Nat.eqb_spec (a - p) i); [|lia]. subst i. reflexivity.
  - destruct (Nat.eqb_spec a i); [lia|]. destruct (Nat.eqb_spec (a - p) i); [lia|]. reflexivity.
Qed.

Definition mem (b : nat) (l : list nat) : bool := existsb (Nat.eqb b) l.
Lemma inner_loop p i js : (i < p)%nat -> NoDup js -> (forall j, In j js -> (j < 2 * p)%nat) -> forall M, square (2 * p) M ->
  let M' := fold_left (fun M j => swap p j i M) js M in
  square (2 * p) M' /\ forall a b, (a < 2 * p)%nat -> get M' a b = if (mem b js && (row p a =? i)%nat)%bool then get M (partner p a) b else get M a b.
Proof.
  intros I. induction js as [|j js IH]; intros D L M Sq; cbv zeta; cbn [fold_left]; [split; [exact Sq|]; reflexivity|]. inversion D as [|? ? NI D']; subst.
  assert (J : (j < 2 * p)%nat) by (apply L; left; reflexivity). assert (Sq' := swap_square p j i M Sq I).
  destruct (IH D' ltac:(intros; apply L; right; assumption) _ Sq') as [Q G]. split; [exact Q|]. intros a b A. rewrite G by exact A.
  rewrite !(swap_get p j i M) by (try assumption; apply partner_lt; exact A). rewrite row_partner by exact A. unfold mem. cbn [existsb]. fold (mem b js).
  destruct (Nat.eqb_spec b j) as [->|N]; cbn [orb andb].
  - assert (mem j js = false) as ->. { destruct (mem j js) eqn:E; [|reflexivity]. apply existsb_exists in E. destruct E as [x [X E]]. apply Nat.eqb_eq in E. subst x. contradiction. }
    cbn [andb]. reflexivity.
  - destruct (mem b js); reflexivity.
Qed.
Lemma outer_loop p js : NoDup js -> (forall j, In j js -> (j < 2 * p)%nat) -> forall m M, (m <= p)%nat -> square (2 * p) M ->
  let M' := fold_left (fun M i => fold_left (fun M j => swap p j i M) js M) (seq 0 m) M in
  square (2 * p) M' /\ forall a b, (a < 2 * p)%nat -> get M' a b = if (mem b js && (row p a <? m)%nat)%bool then get M (partner p a) b else get M a b.
Proof.
  intros D L. induction m as [|m IH]; intros M Hm Sq; cbv zeta; [cbn [seq fold_left]; split; [exact Sq|]; intros a b A; destruct (Nat.ltb_spec (row p a) 0); [lia|]; rewrite andb_false_r; reflexivity|].
  rewrite seq_S, fold_left_app. cbn [fold_left Nat.add]. destruct (IH M ltac:(lia) Sq) as [Q G].
  destruct (inner_loop p m js ltac:(lia) D L _ Q) as [Q' G']. split; [exact Q'|]. intros a b A. rewrite G' by exact A. rewrite !G by (try apply partner_lt; exact A). rewrite row_partner by exact A.
  destruct (mem b js); cbn [andb]; [|reflexivity]. destruct (Nat.eqb_spec (row p a) m) as [->|N].
  - destruct (Nat.ltb_spec m m); [lia|]. destruct (Nat.ltb_spec m (S m)); [reflexivity|lia].
  - destruct (Nat.ltb_spec (row p a) m); destruct (Nat.ltb_spec (row p a) (S m)); try lia; reflexivity.
Qed.

(* which cells are exchanged in the end *)
Definition toggled (p k r b : nat) : bool := if (r =? k)%nat then ((1 <=? b) && (b <=? k))%nat || (2 * p - k + 1 <=? b)%nat else (b <? k)%nat || (2 * p - k + 1 <=? b)%nat.
Definition block (p : nat) (f : nat -> nat -> Z) (a b : nat) : Z :=
  let q := Z.of_nat p * Z.of_nat p in
  if (a <? p)%nat then (if (b <? p)%nat then f a b else f a (b - p)%nat + 2 * q) else (if (b <? p)%nat then f (a - p)%nat b + 3 * q else f (a - p)%nat (b - p)%nat + q).
Definition even_entry (p k : nat) (f : nat -> nat -> Z) (a b : nat) : Z := block p f (if toggled p k (row p a) b then partner p a else a) b.

Lemma nth_map_rows {A B} (g : A -> B) l i d d' : (i < List.length l)%nat -> nth i (map g l) d' = g (nth i l d).
Proof. intros H. rewrite (nth_indep _ d' (g d)) by (rewrite map_length; exact H). apply map_nth. Qed.
Lemma shifted_get n M c i j : square n M -> (i < n)%nat -> (j < n)%nat -> get (shifted c M) i j = get M i j + c.
Proof.
  intros [L R] I J. unfold get, shifted. rewrite (nth_map_rows _ M i []) by lia. rewrite (nth_map_rows _ (nth i M []) j 0) by (rewrite R; lia). reflexivity.
Qed.
Lemma shifted_square n M c : square n M -> square n (shifted c M).
Proof. intros [L R]. unfold shifted. split; [rewrite map_length; exact L|]. intros i I. rewrite (nth_map_rows _ M i []) by lia. rewrite map_length. apply R. exact I. Qed.
Lemma even_table p k f : (1 <= k)%nat -> p = (2 * k + 1)%nat -> magic_even (2 * p) (table p f) = table (2 * p) (even_entry p k f).
Proof.
  intros K Ep. unfold magic_even. cbv zeta. replace (2 * p / 2)%nat with p by (rewrite Nat.mul_comm, Nat.div_mul; lia). replace ((2 * p - 2) / 4)%nat with k by (replace (2 * p - 2)%nat with (k * 4)%nat by lia; rewrite Nat.div_mul; lia).
  destruct (Nat.ltb_spec 2 (2 * p)) as [_|?]; [|lia]. set (M0 := table p f). set (q := Z.of_nat p * Z.of_nat p).
  set (M := map (fun ab => fst ab ++ snd ab) (combine (M0 ++ shifted (3 * q) M0) (shifted (2 * q) M0 ++ shifted q M0))).
  set (js := seq 0 k ++ seq (2 * p - k + 1) (2 * p - (2 * p - k + 1))).
  assert (S0 : square p M0) by apply square_table.
  assert (Ss : forall c, square p (shifted c M0)) by (intros c; apply shifted_square; exact S0).
  assert (APPL : forall (A B : matrix) i, List.length A = p -> (i < 2 * p)%nat -> nth i (A ++ B) [] = if (i <? p)%nat then nth i A [] else nth (i - p) B []).
  { intros A B i LA I. destruct (Nat.ltb_spec i p); [rewrite app_nth1 by lia; reflexivity|]. rewrite app_nth2 by lia. rewrite LA. reflexivity. }
  assert (LC : List.length (combine (M0 ++ shifted (3 * q) M0) (shifted (2 * q) M0 ++ shifted q M0)) = (2 * p)%nat).
  { rewrite combine_length, !app_length. rewrite (proj1 S0), !(proj1 (Ss _)). lia. }
  assert (NM : forall i, (i < 2 * p)%nat -> nth i M [] = (if (i <? p)%nat then nth i M0 [] ++ nth i (shifted (2 * q) M0) [] else nth (i - p) (shifted (3 * q) M0) [] ++ nth (i - p) (shifted q M0) [])).
  { intros i I. unfold M. rewrite (nth_map_rows _ _ i ([], [])) by lia. rewrite combine_nth by (rewrite !app_length, (proj1 S0), !(proj1 (Ss _)); reflexivity). cbn [fst snd].
    rewrite !APPL by (try exact (proj1 S0); try exact (proj1 (Ss _)); exact I). destruct (i <? p)%nat; reflexivity. }
  assert (SM : square (2 * p) M).
  { split; [unfold M; rewrite map_length; exact LC|]. intros i I. rewrite NM by exact I. destruct (Nat.ltb_spec i p); rewrite app_length.
    - rewrite (proj2 S0), (proj2 (Ss _)) by lia. lia.
    - rewrite !(proj2 (Ss _)) by lia. lia. }
  assert (GM : forall a b, (a < 2 * p)%nat -> (b < 2 * p)%nat -> get M a b = block p f a b).
  { intros a b A B. unfold get, block. rewrite NM by exact A. fold q. destruct (Nat.ltb_spec a p) as [A'|A']; destruct (Nat.ltb_spec b p) as [B'|B'].
    - rewrite app_nth1 by (rewrite (proj2 S0); lia). apply (table_get p f); assumption.
    - rewrite app_nth2 by (rewrite (proj2 S0); lia). rewrite (proj2 S0) by lia. change (get (shifted (2 * q) M0) a (b - p) = f a (b - p)%nat + 2 * q). rewrite (shifted_get p) by (try exact S0; lia). unfold M0. rewrite table_get by lia. reflexivity.
    - rewrite app_nth1 by (rewrite (proj2 (Ss _)); lia). change (get (shifted (3 * q) M0) (a - p) b = f (a - p)%nat b + 3 * q). rewrite (shifted_get p) by (try exact S0; lia). unfold M0. rewrite table_get by lia. reflexivity.
    - rewrite app_nth2 by (rewrite (proj2 (Ss _)); lia). rewrite (proj2 (Ss _)) by lia. change (get (shifted q M0) (a - p) (b - p) = f (a - p)%nat (b - p)%nat + q). rewrite (shifted_get p) by (try exact S0; lia). unfold M0. rewrite table_get by lia. reflexivity. }
  assert (DJ : NoDup js). { unfold js. apply nodup_app; [|apply seq_NoDup|apply seq_NoDup]. intros x X Y. apply in_seq in X, Y. lia. }
  assert (LJ : forall j, In j js -> (j < 2 * p)%nat). { intros j Hj. unfold js in Hj. apply in_app_iff in Hj. destruct Hj as [Hj|Hj]; apply in_seq in Hj; lia. }
  assert (MJ : forall b, (b < 2 * p)%nat -> mem b js = ((b <? k) || (2 * p - k + 1 <=? b))%nat).
  { intros b B. unfold mem, js. rewrite existsb_app. f_equal.
    - apply eq_true_iff_eq. rewrite existsb_exists, Nat.ltb_lt. split; [intros [x [X E]]; apply in_seq in X; apply Nat.eqb_eq in E; lia|]. intros H. exists b. split; [apply in_seq; lia|apply Nat.eqb_refl].
    - apply eq_true_iff_eq. rewrite existsb_exists, Nat.leb_le. split; [intros [x [X E]]; apply in_seq in X; apply Nat.eqb_eq in E; lia|]. intros H. exists b. split; [apply in_seq; lia|apply Nat.eqb_refl]. }
  destruct (outer_loop p js DJ LJ p M ltac:(lia) SM) as [Q G]. set (L := fold_left (fun (M : matrix) (i : nat) => fold_left (fun (M0 : matrix) (j : nat) => swap p j i M0) js M) (seq 0 p) M) in *.
  assert (Q1 := swap_square p 0 k L Q ltac:(lia)). assert (Q2 := swap'_square p k k _ Q1 ltac:(lia)).
  apply (square_ext (2 * p)); [exact Q2|apply square_table|]. intros a b A B. rewrite table_get by assumption.
  rewrite swap'_get by (try assumption; lia). rewrite !swap_get by (try assumption; try lia; apply partner_lt; exact A). rewrite !G by (repeat apply partner_lt; assumption).
  rewrite !row_partner by (repeat apply partner_lt; assumption).
  rewrite MJ by exact B. rewrite !partner_partner by (repeat apply partner_lt; exact A). assert (PA := partner_lt p a A).
  assert (R : (row p a < p)%nat) by (unfold row; destruct (Nat.ltb_spec a p); lia). destruct (Nat.ltb_spec (row p a) p) as [_|?]; [|lia]. rewrite andb_true_r. rewrite !GM by assumption.
  unfold even_entry, toggled. destruct (Nat.eqb_spec (row p a) k) as [E|E].
  - rewrite !andb_true_r. destruct (Nat.eqb_spec b k) as [->|N1].
    + destruct (Nat.eqb_spec k 0); [lia|]. destruct (Nat.ltb_spec k k); [lia|]. destruct (Nat.leb_spec (2 * p - k + 1) k); [lia|]. destruct (Nat.leb_spec 1 k); [|lia]. rewrite Nat.leb_refl. reflexivity.
    + destruct (Nat.eqb_spec b 0) as [->|N0].
      * destruct (Nat.ltb_spec 0 k); [|lia]. cbn [orb]. destruct (Nat.leb_spec (2 * p - k + 1) 0); [lia|]. reflexivity.
      * destruct (Nat.ltb_spec b k); destruct (Nat.leb_spec b k); try lia; destruct (Nat.leb_spec 1 b); try lia; cbn [andb orb]; destruct (2 * p - k + 1 <=? b)%nat; reflexivity.
  - rewrite !andb_false_r. destruct ((b <? k) || (2 * p - k + 1 <=? b))%nat; reflexivity.
Qed.
