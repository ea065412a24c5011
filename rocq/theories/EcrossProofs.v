From Coq Require Import Reals Lra.
From Verif Require Import Base EcrossModel.
Local Open Scope R_scope.

(* value at s of the straight line through (t0, f0) and (t1, f1) *)
Definition line (t0 f0 t1 f1 s : R) : R := f0 + (f1 - f0) * ((s - t0) / (t1 - t0)).

Lemma ecross1_line t f v i ti tj fi fj :
  nth_error t i = Some ti -> nth_error t (S i) = Some tj ->
  nth_error f i = Some fi -> nth_error f (S i) = Some fj ->
  fi <> fj -> ti <> tj ->
  exists s, ecross1 t f v i = Ok s /\ line ti fi tj fj s = v /\
    (forall s', line ti fi tj fj s' = v -> s' = s) /\
    (ti < tj -> (fi <= v <= fj \/ fj <= v <= fi) -> ti <= s <= tj).
Proof.
  intros H1 H2 H3 H4 Hf Ht. unfold ecross1, geti. rewrite Nat.add_1_r, H1, H2, H3, H4.
  cbn [bind]. eexists. split; [reflexivity|]. unfold line.
  assert (fj - fi <> 0) by lra. assert (tj - ti <> 0) by lra.
  split; [field; auto|]. split.
  - intros s' <-. field; auto.
  - intros Hlt Hv.
    assert (E : 0 <= (v - fi) / (fj - fi) <= 1).
    { assert (Hs : (v - fi) / (fj - fi) = (fi - v) / (fi - fj)) by (field; lra).
      assert (Hkey : forall a b, 0 < b -> 0 <= a <= b -> 0 <= a / b <= 1).
      { intros a b Hb Hab. split.
        - apply Rmult_le_pos; [lra|]. left. apply Rinv_0_lt_compat. lra.
        - apply (Rmult_le_reg_r b); [lra|]. unfold Rdiv. rewrite Rmult_assoc, Rinv_l by lra. lra. }
      destruct Hv as [Hv|Hv]; [apply Hkey; lra|rewrite Hs; apply Hkey; lra]. }
    replace ((v - fi) * (tj - ti) / (fj - fi)) with ((v - fi) / (fj - fi) * (tj - ti)) by (field; lra).
    assert (0 <= (v - fi) / (fj - fi) * (tj - ti)) by (apply Rmult_le_pos; lra).
    assert ((v - fi) / (fj - fi) * (tj - ti) <= 1 * (tj - ti)) by (apply Rmult_le_compat_r; lra).
    lra.
Qed.

Lemma ecross_map t f v : forall ind r, ecross t f ind v = Ok r ->
  length r = length ind /\
  forall k, (k < length ind)%nat -> ecross1 t f v (nth k ind 0%nat) = Ok (nth k r 0).
Proof.
  induction ind as [|i ind IH]; simpl; intros r H.
  - injection H as <-. split; auto. intros; lia.
  - destruct (ecross1 t f v i) as [a|e] eqn:E; [|discriminate]. cbn [bind] in H.
    destruct (ecross t f ind v) as [r'|e]; [|discriminate]. injection H as <-.
    destruct (IH r' eq_refl) as [H1 H2]. split; [simpl; lia|].
    intros [|k] Hk; [exact E|]. apply H2. lia.
Qed.

Lemma ecross_out_of_range t f v i : length t = length f ->
  (length t <= S i)%nat -> ecross1 t f v i = Err IndexError.
Proof.
  intros Hl Hi. unfold ecross1, geti. rewrite Nat.add_1_r.
  rewrite (proj2 (nth_error_None t (S i))) by lia.
  destruct (nth_error t i); [|reflexivity]. cbn [bind]. destruct (nth_error f i); reflexivity.
Qed.
