(* Lemmas on the histogram polygon. *)
From Coq Require Import Reals List ZArith Lra Lia Bool.
From Verif Require Import Base KdeModel ProcModel ProcProofs HistModel HistSpec.
Import ListNotations.
Local Open Scope R_scope.

Lemma in_bin_iff e i x : in_bin_b e i x = true <-> in_bin e i x.
Proof.
  unfold in_bin_b, in_bin. rewrite andb_true_iff. destruct (Nat.eqb_spec (i + 2) (List.length e)) as [E|E].
  - destruct (Rle_dec (nth i e 0) x) as [A|A], (Rle_dec x (nth (i + 1) e 0)) as [B|B]; split; intros [P Q]; try discriminate; try (exfalso; lra).
    + split; [exact A|]. destruct (Req_dec x (nth (i + 1) e 0)); [right; split; assumption|left; lra].
    + split; reflexivity.
  - destruct (Rle_dec (nth i e 0) x) as [A|A], (Rlt_dec x (nth (i + 1) e 0)) as [B|B]; split; intros [P Q]; try discriminate; try (exfalso; lra).
    + split; [exact A|left; exact B].
    + split; reflexivity.
    + exfalso. destruct Q as [Q|[Q _]]; [lra|lia].
Qed.
Lemma weight_filter (P : R -> Prop) (p : R -> bool) : (forall x, p x = true <-> P x) -> forall X W, List.length X = List.length W ->
  weight_of P X W (npsum (map snd (filter (fun q => p (fst q)) (combine X W)))).
Proof.
  intros H X. induction X as [|x X IH]; intros [|w W] L; try discriminate; [constructor|]. cbn [combine filter fst]. destruct (p x) eqn:E.
  - cbn [map npsum fold_right snd]. apply w_in; [apply H; exact E|]. apply IH. cbn in L. lia.
  - apply w_out; [intros C; apply H in C; congruence|]. apply IH. cbn in L. lia.
Qed.
Lemma weight_unique P X W s t : weight_of P X W s -> weight_of P X W t -> s = t.
Proof. intros A. revert t. induction A; intros t B; inversion B; subst; try contradiction; [reflexivity|f_equal; auto|auto]. Qed.
Lemma bars_points e h : e <> [] -> (List.length h + 1 = List.length e)%nat -> let (xx, yy) := make_bars e h in
  List.length xx = (3 * List.length h + 1)%nat /\ List.length yy = (3 * List.length h + 1)%nat /\
  (forall i, (i < List.length h)%nat -> nth (3 * i) xx 0 = nth i e 0 /\ nth (3 * i) yy None = Some 0 /\ nth (3 * i + 1) xx 0 = nth i e 0 /\ nth (3 * i + 1) yy None = nth i h None /\ nth (3 * i + 2) xx 0 = nth (i + 1) e 0 /\ nth (3 * i + 2) yy None = nth i h None) /\
  nth (3 * List.length h) xx 0 = last e 0 /\ nth (3 * List.length h) yy None = Some 0.
Proof.
  intros N L. unfold make_bars. destruct e as [|a e]; [contradiction|]. clear N. cbn [repeat3 flat_map app tl]. revert a e L. induction h as [|b h IH]; intros a e L.
  - destruct e; [|cbn in L; lia]. cbn. repeat split; intros; lia.
  - destruct e as [|a' e]; [cbn in L; lia|]. assert (L' : (List.length h + 1 = List.length (a' :: e))%nat) by (cbn in *; lia).
    specialize (IH a' e L'). destruct IH as [I1 [I2 [I3 [I4 I5]]]].
    assert (X : removelast (a :: a :: flat_map (fun a0 => [a0; a0; a0]) (a' :: e)) = a :: a :: a' :: removelast (a' :: a' :: flat_map (fun a0 => [a0; a0; a0]) e)) by reflexivity.
    cbn [flat_map app] in X |- *. rewrite X. cbn [List.length] in *. split; [lia|]. split; [lia|]. split; [|split].
    + intros [|i] Hi; [repeat split; reflexivity|]. destruct (I3 i ltac:(lia)) as [J1 [J2 [J3 [J4 [J5 J6]]]]].
      replace (3 * S i)%nat with (S (S (S (3 * i)))) by lia. cbn [Nat.add nth]. repeat split; assumption.
    + replace (3 * S (List.length h))%nat with (S (S (S (3 * List.length h)))) by lia. cbn [nth]. rewrite I4. reflexivity.
    + replace (3 * S (List.length h))%nat with (S (S (S (3 * List.length h)))) by lia. cbn [nth]. exact I5.
Qed.
Lemma bars_shift a e b h : bars_area (a :: e) (b :: h) = b * (nth 0 e 0 - a) + bars_area e h.
Proof.
  unfold bars_area. cbn [List.length seq map total fold_right]. f_equal. f_equal. rewrite <- seq_shift, map_map. reflexivity.
Qed.
Lemma bars_polygon e h : e <> [] -> (List.length h + 1 = List.length e)%nat -> exists yy, snd (make_bars e (map Some h)) = map Some yy /\ area (fst (make_bars e (map Some h))) yy = bars_area e h.
Proof.
  intros N L. unfold make_bars. cbn [fst snd]. exists (flat_map (fun b => [0; b; b]) h ++ [0]). split.
  - rewrite map_app. f_equal. clear N L. induction h as [|b h IH]; [reflexivity|]. cbn [map flat_map app]. rewrite IH. reflexivity.
  - destruct e as [|a e]; [contradiction|]. clear N. cbn [repeat3 flat_map app tl]. revert a e L. induction h as [|b h IH]; intros a e L.
    + destruct e; [|cbn in L; lia]. cbn. reflexivity.
    + destruct e as [|a' e]; [cbn in L; lia|]. assert (L' : (List.length h + 1 = List.length (a' :: e))%nat) by (cbn in *; lia). specialize (IH a' e L').
      assert (X : removelast (a :: a :: flat_map (fun a0 => [a0; a0; a0]) (a' :: e)) = a :: a :: a' :: removelast (a' :: a' :: flat_map (fun a0 => [a0; a0; a0]) e)) by reflexivity.
      rewrite X. rewrite bars_shift. cbn [nth]. rewrite <- IH. cbn [flat_map app].
      assert (Y : exists z, removelast (a' :: a' :: flat_map (fun a0 => [a0; a0; a0]) e) = a' :: z) by (destruct e; eexists; reflexivity). destruct Y as [z Y]. rewrite Y.
      assert (V : exists u, flat_map (fun b0 => [0; b0; b0]) h ++ [0] = 0 :: u) by (destruct h; eexists; reflexivity). destruct V as [u V]. rewrite V.
      change (area (a :: a :: a' :: a' :: z) (0 :: b :: b :: 0 :: u)) with ((a - a) * (0 + b) / 2 + ((a' - a) * (b + b) / 2 + ((a' - a') * (b + 0) / 2 + area (a' :: z) (0 :: u)))). field.
Qed.
Lemma monotonic_spec e : monotonic e = true <-> ascending e.
Proof.
  unfold ascending. induction e as [|a e IH]; [split; [intros _ i H; cbn in H; lia|reflexivity]|]. destruct e as [|b e]; [split; [intros _ i H; cbn in H; lia|reflexivity]|].
  change (monotonic (a :: b :: e)) with ((if Rle_dec a b then true else false) && monotonic (b :: e))%bool. rewrite andb_true_iff, IH. split.
  - intros [A B] [|i] H; [cbn; destruct (Rle_dec a b); [assumption|discriminate]|]. cbn [nth Nat.add]. apply B. cbn in *. lia.
  - intros H. split; [destruct (Rle_dec a b) as [C|C]; [reflexivity|]; exfalso; apply C; apply (H 0%nat); cbn; lia|]. intros i Hi. apply (H (S i)). cbn in *. lia.
Qed.
Lemma linspace_length a b n : List.length (linspace a b n) = n. Proof. unfold linspace. now rewrite map_length, seq_length. Qed.
Lemma linspace_nth a b n i : (i < n)%nat -> nth i (linspace a b n) 0 = a + INR i * ((b - a) / INR (n - 1)).
Proof. intros H. unfold linspace. rewrite nth_indep with (d' := a + INR 0 * ((b - a) / INR (n - 1))) by (rewrite map_length, seq_length; lia). rewrite (map_nth (fun i => a + INR i * ((b - a) / INR (n - 1)))). now rewrite seq_nth by lia. Qed.
Lemma linspace_strictly a b n : a < b -> (1 <= n)%nat -> strictly (linspace a b (n + 1)).
Proof.
  intros AB N i H. rewrite linspace_length in H. rewrite !linspace_nth by lia. rewrite plus_INR. change (INR 1) with 1. replace (n + 1 - 1)%nat with n by lia.
  assert (0 < (b - a) / INR n) by (apply Rdiv_lt_0_compat; [lra|apply lt_0_INR; lia]). lra.
Qed.
Lemma strictly_ascending e : strictly e -> ascending e. Proof. intros H i L. specialize (H i L). lra. Qed.
(* the bins partition [first, last] *)
Lemma between e : ascending e -> forall i j, (i <= j < List.length e)%nat -> nth i e 0 <= nth j e 0.
Proof. intros A i j [H L]. induction H as [|j H IH]; [lra|]. specialize (A j ltac:(lia)). replace (j + 1)%nat with (S j) in A by lia. specialize (IH ltac:(lia)). lra. Qed.
Lemma one_bin e x : ascending e -> (2 <= List.length e)%nat -> (exists i, (i + 1 < List.length e)%nat /\ in_bin e i x) <-> nth 0 e 0 <= x <= last e 0.
Proof.
  intros A L. assert (LN : last e 0 = nth (List.length e - 1) e 0). { clear. induction e as [|a e IH]; [reflexivity|]. destruct e; [reflexivity|]. change (last (a :: r :: e) 0) with (last (r :: e) 0). rewrite IH. cbn [List.length]. replace (S (S (List.length e)) - 1)%nat with (S (S (List.length e) - 1)) by lia. reflexivity. }
  rewrite LN. split.
  - intros [i [Hi [P Q]]]. pose proof (between e A 0 i ltac:(lia)). pose proof (between e A (i + 1) (List.length e - 1) ltac:(lia)). lra.
  - intros [P Q]. assert (S : forall k, (k + 1 < List.length e)%nat -> (exists i, (i + 1 < List.length e)%nat /\ in_bin e i x) \/ nth (k + 1) e 0 <= x).
    { induction k as [|k IH]; intros Hk.
      - destruct (Rle_dec (nth (0 + 1) e 0) x); [right; assumption|left; exists 0%nat]. split; [exact Hk|]. split; [exact P|left; lra].
      - destruct IH as [IH|IH]; [lia|left; exact IH|]. destruct (Rle_dec (nth (S k + 1) e 0) x); [right; assumption|left; exists (S k)]. split; [exact Hk|]. replace (k + 1)%nat with (S k) in IH by lia. split; [exact IH|left; lra]. }
    destruct (S (List.length e - 2)%nat ltac:(lia)) as [H|H]; [exact H|]. replace (List.length e - 2 + 1)%nat with (List.length e - 1)%nat in H by lia.
    exists (List.length e - 2)%nat. split; [lia|]. split.
    + pose proof (between e A (List.length e - 2) (List.length e - 1) ltac:(lia)). lra.
    + right. split; [lia|]. replace (List.length e - 2 + 1)%nat with (List.length e - 1)%nat by lia. lra.
Qed.
Lemma disjoint e x i j : ascending e -> (i < j)%nat -> (j + 1 < List.length e)%nat -> in_bin e i x -> in_bin e j x -> False.
Proof. intros A H L [_ [P|[P _]]] [Q _]; [|lia]. pose proof (between e A (i + 1) j ltac:(lia)). lra. Qed.
