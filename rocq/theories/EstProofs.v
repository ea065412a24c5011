From Coq Require Import Reals List ZArith Bool Lia Lra Arith Sorted.
From Verif Require Import Base KdeModel ProcModel PolyModel SlopesProofs3 HistModel ArSpec ArProofs2 CsimProofs EstModel EstSpec.
Import ListNotations.
Local Open Scope R_scope.

(* matrices *)
Definition dims (n : nat) (M : mat) : Prop := List.length M = n /\ forall r, In r M -> List.length r = n.
Lemma upd_nth_gen {A} (l : list A) i v j d : (i < List.length l)%nat -> nth j (upd l i v) d = if (j =? i)%nat then v else nth j l d.
Proof.
  intros H. unfold upd. assert (F : List.length (firstn i l) = i) by (rewrite firstn_length; lia).
  destruct (Nat.eqb_spec j i) as [->|N].
  - rewrite app_nth2 by lia. replace (i - List.length (firstn i l))%nat with 0%nat by lia. reflexivity.
  - destruct (Nat.lt_ge_cases j i) as [L|L].
    + rewrite app_nth1 by lia. rewrite <- (firstn_skipn i l) at 2. rewrite app_nth1 by lia. reflexivity.
    + rewrite app_nth2 by lia. rewrite F. destruct (j - i)%nat as [|k] eqn:E; [lia|]. cbn [nth].
      rewrite <- (firstn_skipn (S i) l) at 2. rewrite app_nth2; rewrite firstn_length, Nat.min_l by lia; [|lia]. f_equal. lia.
Qed.
Lemma upd_in {A} (l : list A) i v r : In r (upd l i v) -> r = v \/ In r l.
Proof.
  unfold upd. intros I. apply in_app_or in I. destruct I as [I|[I|I]]; [right|left; auto|right].
  - rewrite <- (firstn_skipn i l). apply in_or_app. auto.
  - rewrite <- (firstn_skipn (S i) l). apply in_or_app. auto.
Qed.
Lemma dims_row n M i : dims n M -> (i < n)%nat -> List.length (nth i M []) = n.
Proof. intros [L R] H. apply R. apply nth_In. lia. Qed.
Lemma put_dims n M i j v : dims n M -> (i < n)%nat -> (j < n)%nat -> dims n (put M i j v).
Proof.
  intros D I J. pose proof (dims_row n M i D I) as RL. destruct D as [L R]. unfold put. split; [rewrite upd_length; lia|].
  intros r H. apply upd_in in H. destruct H as [->|H]; [|auto]. rewrite upd_length; lia.
Qed.
Lemma put_cell n M i j v a b : dims n M -> (i < n)%nat -> (j < n)%nat -> cell (put M i j v) a b = if ((a =? i) && (b =? j))%nat%bool then v else cell M a b.
Proof.
  intros D I J. pose proof (dims_row n M i D I) as RL. destruct D as [L R]. unfold put, cell. rewrite upd_nth_gen by lia.
  destruct (Nat.eqb_spec a i) as [->|N]; cbn [andb]; [|reflexivity]. rewrite upd_nth by lia. reflexivity.
Qed.
Lemma zeros_dims n : dims n (zeros n).
Proof. unfold zeros. split; [apply repeat_length|]. intros r H. apply repeat_spec in H. subst. apply repeat_length. Qed.
Lemma nth_rep {A} (d : A) n : forall i, nth i (repeat d n) d = d.
Proof. induction n as [|n IH]; intros [|i]; cbn; auto. Qed.
Lemma zeros_cell n a b : cell (zeros n) a b = 0.
Proof.
  unfold cell, zeros. destruct (Nat.lt_ge_cases a n) as [H|H].
  - rewrite (nth_indep _ [] (repeat 0 n)) by (rewrite repeat_length; lia). rewrite nth_rep. apply nth_rep.
  - rewrite (nth_overflow (repeat (repeat 0 n) n)) by (rewrite repeat_length; lia). destruct b; reflexivity.
Qed.
Lemma negate_dims n M : dims n M -> dims n (negate M).
Proof. intros [L R]. split; [unfold negate; rewrite map_length; exact L|]. intros r H. apply in_map_iff in H. destruct H as [x [<- H]]. rewrite map_length. auto. Qed.
Lemma negate_cell M a b : cell (negate M) a b = - cell M a b.
Proof.
  unfold cell, negate. change (@nil R) with (map Ropp []) at 1. rewrite map_nth. rewrite <- Ropp_0 at 1. rewrite map_nth. reflexivity.
Qed.
Lemma matrix_dims n M A : is_matrix n M A <-> dims n M /\ forall i j, (i < n)%nat -> (j < n)%nat -> cell M i j = A i j.
Proof. unfold is_matrix, dims, cell. tauto. Qed.

(* the finite differences *)
Definition diag_diff (f : list R -> R) (th : list R) (d : R) (i : nat) : R :=
  (f (upd th i (at_R th i + d)) - 2 * f th + f (upd th i (at_R th i - d))) / d ^ 2.
Definition two (th : list R) (i j : nat) (x y : R) : list R := upd (upd th i (at_R th i + x)) j (at_R th j + y).
Definition cross_diff (f : list R -> R) (th : list R) (d : R) (i j : nat) : R :=
  (f (two th i j d d) + f (two th i j (- d) (- d)) - (f (two th i j (- d) d) + f (two th i j d (- d)))) / (4 * d ^ 2).
Lemma list_eq (a b : list R) : List.length a = List.length b -> (forall i, (i < List.length a)%nat -> nth i a 0 = nth i b 0) -> a = b.
Proof. intros L H. apply (nth_ext a b 0 0); auto. Qed.
Ltac updeq := apply list_eq; [rewrite ?upd_length; auto; rewrite ?upd_length; auto; try lia|
  let k := fresh "k" in let K := fresh "K" in intros k K; rewrite ?upd_length in K by (rewrite ?upd_length; auto; lia);
  rewrite ?upd_nth by (rewrite ?upd_length; auto; rewrite ?upd_length; auto; lia)].
Lemma row_spec f th d i n : n = List.length th -> (i < n)%nat ->
  forall js sp H, NoDup js -> (forall j, In j js -> (i < j < n)%nat) -> dims n H ->
  List.length sp = n -> (forall k, (k < n)%nat -> k <> i -> nth k sp 0 = nth k th 0) ->
  dims n (hessian_row f th d i js sp H) /\
  forall a b, cell (hessian_row f th d i js sp H) a b =
    if ((a =? i) && existsb (Nat.eqb b) js)%nat%bool then cross_diff f th d i b
    else if ((b =? i) && existsb (Nat.eqb a) js)%nat%bool then cross_diff f th d i a else cell H a b.
Proof.
  intros N I. induction js as [|j js IH]; intros sp H ND J D L S; cbn [hessian_row].
  { split; [exact D|]. intros a b. cbn [existsb]. rewrite !andb_false_r. reflexivity. }
  assert (Ij : (i < j < n)%nat) by (apply J; left; reflexivity).
  set (sp1 := upd (upd sp i (at_R th i + d)) j (at_R th j + d)).
  set (sp2 := upd sp1 j (at_R th j - d)). set (sp3 := upd sp2 i (at_R th i - d)). set (sp4 := upd sp3 j (at_R th j + d)).
  assert (L1 : List.length sp1 = n) by (unfold sp1; rewrite !upd_length; try lia; rewrite upd_length; lia).
  assert (L2 : List.length sp2 = n) by (unfold sp2; rewrite upd_length; lia).
  assert (L3 : List.length sp3 = n) by (unfold sp3; rewrite upd_length; lia).
  assert (L4 : List.length sp4 = n) by (unfold sp4; rewrite upd_length; lia).
  assert (LT : forall x y, List.length (two th i j x y) = n) by (intros x y; unfold two; rewrite !upd_length; try lia; rewrite upd_length; lia).
  assert (NT : forall x y k, nth k (two th i j x y) 0 = if (k =? j)%nat then at_R th j + y else if (k =? i)%nat then at_R th i + x else nth k th 0).
  { intros x y k. unfold two. rewrite !upd_nth by (rewrite ?upd_length; lia). reflexivity. }
  assert (N1 : forall k, nth k sp1 0 = if (k =? j)%nat then at_R th j + d else if (k =? i)%nat then at_R th i + d else nth k sp 0).
  { intros k. unfold sp1. rewrite !upd_nth by (rewrite ?upd_length; lia). reflexivity. }
  assert (N2 : forall k, nth k sp2 0 = if (k =? j)%nat then at_R th j - d else nth k sp1 0) by (intros k; unfold sp2; rewrite upd_nth by lia; reflexivity).
  assert (N3 : forall k, nth k sp3 0 = if (k =? i)%nat then at_R th i - d else nth k sp2 0) by (intros k; unfold sp3; rewrite upd_nth by lia; reflexivity).
  assert (N4 : forall k, nth k sp4 0 = if (k =? j)%nat then at_R th j + d else nth k sp3 0) by (intros k; unfold sp4; rewrite upd_nth by lia; reflexivity).
  assert (E1 : sp1 = two th i j d d).
  { apply list_eq; [rewrite LT; exact L1|]. intros k K. rewrite N1, NT. destruct (Nat.eqb_spec k j); [reflexivity|]. destruct (Nat.eqb_spec k i); [reflexivity|]. apply S; lia. }
  assert (E2 : sp2 = two th i j d (- d)).
  { apply list_eq; [rewrite LT; exact L2|]. intros k K. rewrite N2, N1, NT. destruct (Nat.eqb_spec k j); [lra|]. destruct (Nat.eqb_spec k i); [reflexivity|]. apply S; lia. }
  assert (E3 : sp3 = two th i j (- d) (- d)).
  { apply list_eq; [rewrite LT; exact L3|]. intros k K. rewrite N3, N2, N1, NT. destruct (Nat.eqb_spec k j) as [Ej|Ej]; destruct (Nat.eqb_spec k i) as [Ei|Ei]; try lra; try lia. apply S; lia. }
  assert (E4 : sp4 = two th i j (- d) d).
  { apply list_eq; [rewrite LT; exact L4|]. intros k K. rewrite N4, N3, N2, N1, NT. destruct (Nat.eqb_spec k j) as [Ej|Ej]; destruct (Nat.eqb_spec k i) as [Ei|Ei]; try lra; try lia. apply S; lia. }
  cbv zeta. rewrite E1, E2, E3, E4. change ((f (two th i j d d) + f (two th i j (- d) (- d)) - (f (two th i j (- d) d) + f (two th i j d (- d)))) / (4 * d ^ 2)) with (cross_diff f th d i j).
  inversion ND as [|? ? NI ND']; subst.
  assert (D2 : dims (List.length th) (put (put H i j (cross_diff f th d i j)) j i (cross_diff f th d i j))) by (apply put_dims; [apply put_dims; auto; lia|lia|lia]).
  destruct (IH (upd (two th i j (- d) d) j (at_R th j)) (put (put H i j (cross_diff f th d i j)) j i (cross_diff f th d i j)) ND') as [D' C].
  { intros k K. apply J. right. exact K. }
  { exact D2. }
  { rewrite upd_length; rewrite LT; lia. }
  { intros k K Ki. rewrite upd_nth by (rewrite LT; lia). rewrite NT. destruct (Nat.eqb_spec k j) as [->|Ej]; [reflexivity|]. destruct (Nat.eqb_spec k i); [lia|reflexivity]. }
  split; [exact D'|]. intros a b. rewrite C. rewrite (put_cell (List.length th)) by (try apply put_dims; auto; lia). rewrite (put_cell (List.length th)) by (auto; lia).
  cbn [existsb]. assert (NE : forall k, In k js -> k <> j) by (intros k K ->; contradiction).
  assert (Ex : forall k, existsb (Nat.eqb k) js = true -> In k js) by (intros k K; apply existsb_exists in K; destruct K as [x [K1 K2]]; apply Nat.eqb_eq in K2; subst; exact K1).
  assert (Ji : forall k, In k js -> (i < k)%nat) by (intros k K; apply J; right; exact K).
  destruct (Nat.eqb_spec a i) as [->|Ai]; cbn [andb].
  - destruct (Nat.eqb_spec b j) as [->|Bj]; cbn [orb].
    + destruct (Nat.eqb_spec i j); [lia|]. destruct (existsb (Nat.eqb j) js) eqn:X; [apply Ex in X; contradiction|]. cbn [andb].
      destruct (Nat.eqb_spec j i); [lia|]. reflexivity.
    + destruct (existsb (Nat.eqb b) js) eqn:X; [reflexivity|]. destruct (Nat.eqb_spec b i) as [->|Bi]; cbn [andb].
      * destruct (Nat.eqb_spec i j); [lia|]. cbn [orb andb]. destruct (existsb (Nat.eqb i) js) eqn:Y; [apply Ex in Y; apply Ji in Y; lia|]. reflexivity.
      * destruct (Nat.eqb_spec i j); [lia|]. cbn [andb]. reflexivity.
  - destruct (Nat.eqb_spec b i) as [->|Bi]; cbn [andb].
    + destruct (Nat.eqb_spec a j) as [->|Aj]; cbn [orb andb].
      * destruct (existsb (Nat.eqb j) js) eqn:X; [apply Ex in X; contradiction|]. reflexivity.
      * destruct (existsb (Nat.eqb a) js); reflexivity.
    + rewrite andb_false_r. reflexivity.
Qed.
Definition entry (f : list R -> R) (th : list R) (d : R) (a b : nat) : R :=
  if (a =? b)%nat then diag_diff f th d a else if (a <? b)%nat then cross_diff f th d a b else cross_diff f th d b a.
Lemma existsb_seq k a m : existsb (Nat.eqb k) (seq a m) = ((a <=? k) && (k <? a + m))%nat%bool.
Proof.
  destruct (existsb (Nat.eqb k) (seq a m)) eqn:E.
  - apply existsb_exists in E. destruct E as [x [I Q]]. apply Nat.eqb_eq in Q. subst x. apply in_seq in I. symmetry. apply andb_true_iff. split; [apply Nat.leb_le|apply Nat.ltb_lt]; lia.
  - symmetry. apply not_true_is_false. intros Q. apply andb_true_iff in Q. destruct Q as [Q1 Q2]. apply Nat.leb_le in Q1. apply Nat.ltb_lt in Q2.
    assert (existsb (Nat.eqb k) (seq a m) = true); [|congruence]. apply existsb_exists. exists k. split; [apply in_seq; lia|apply Nat.eqb_refl].
Qed.
Lemma loop_spec f th d n : n = List.length th -> forall m i0 H, (i0 + m = n)%nat -> dims n H ->
  dims n (hessian_loop f th d (seq i0 m) H) /\
  forall a b, (a < n)%nat -> (b < n)%nat -> cell (hessian_loop f th d (seq i0 m) H) a b = if ((i0 <=? a) && (i0 <=? b))%nat%bool then entry f th d a b else cell H a b.
Proof.
  intros N. induction m as [|m IH]; intros i0 H E D; cbn [seq hessian_loop].
  { split; [exact D|]. intros a b A B. destruct (Nat.leb_spec i0 a); [lia|]. reflexivity. }
  cbv zeta. assert (I : (i0 < n)%nat) by lia.
  assert (L1 : List.length (upd th i0 (at_R th i0 + d)) = n) by (rewrite upd_length; lia).
  assert (E2 : upd (upd th i0 (at_R th i0 + d)) i0 (at_R th i0 - d) = upd th i0 (at_R th i0 - d)).
  { apply list_eq; [rewrite !upd_length; lia|]. intros k K. rewrite !upd_nth by lia. destruct (k =? i0)%nat; reflexivity. }
  rewrite E2. change ((f (upd th i0 (at_R th i0 + d)) - 2 * f th + f (upd th i0 (at_R th i0 - d))) / d ^ 2) with (diag_diff f th d i0).
  destruct (row_spec f th d i0 n N I (seq (i0 + 1) (List.length th - (i0 + 1))) (upd th i0 (at_R th i0 - d)) (put H i0 i0 (diag_diff f th d i0))) as [D1 C1].
  { apply seq_NoDup. } { intros j J. apply in_seq in J. lia. } { apply put_dims; auto. } { rewrite upd_length; lia. }
  { intros k K Ki. rewrite upd_nth by lia. destruct (Nat.eqb_spec k i0); [lia|reflexivity]. }
  specialize (IH (S i0) (hessian_row f th d i0 (seq (i0 + 1) (List.length th - (i0 + 1))) (upd th i0 (at_R th i0 - d)) (put H i0 i0 (diag_diff f th d i0)))).
  destruct IH as [D2 C2]; [lia|exact D1|]. split; [exact D2|]. intros a b A B. rewrite C2 by assumption. rewrite C1. rewrite !existsb_seq. rewrite (put_cell n) by (auto; lia).
  unfold entry.
  repeat match goal with |- context [(?x <=? ?y)%nat] => destruct (Nat.leb_spec x y) end;
  repeat match goal with |- context [(?x <? ?y)%nat] => destruct (Nat.ltb_spec x y) end;
  repeat match goal with |- context [(?x =? ?y)%nat] => destruct (Nat.eqb_spec x y) end; cbn [andb]; subst; try lia; reflexivity.
Qed.
Lemma hessian_entries f th eps : let n := List.length th in let d := match eps with Some e => e | None => / 2 ^ 13 end in
  dims n (hessian f th eps) /\ forall a b, (a < n)%nat -> (b < n)%nat -> cell (hessian f th eps) a b = - entry f th d a b.
Proof.
  intros n d. unfold hessian. fold d. replace (d + 2 - 2) with d by ring.
  destruct (loop_spec f th d n eq_refl n 0 (zeros n) eq_refl (zeros_dims n)) as [D C]. split; [apply negate_dims; exact D|].
  intros a b A B. change (map (map Ropp)) with negate. rewrite negate_cell, C by assumption. reflexivity.
Qed.
