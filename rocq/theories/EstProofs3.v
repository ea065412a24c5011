From Coq Require Import Reals List ZArith Bool Lia Lra Arith Sorted.
From Verif Require Import Base KdeModel ProcModel PolyModel SlopesProofs3 HistModel ArSpec ArProofs2 CsimProofs EstModel EstSpec EstProofs EstProofs2.
Import ListNotations.
Local Open Scope R_scope.

(* increasing lists *)
Lemma sorted_unique : forall l1 l2 : list nat, StronglySorted lt l1 -> StronglySorted lt l2 -> (forall x, In x l1 <-> In x l2) -> l1 = l2.
Proof.
  induction l1 as [|a l1 IH]; intros [|b l2] S1 S2 E; auto.
  - exfalso. apply (proj2 (E b)). left. reflexivity.
  - exfalso. apply (proj1 (E a)). left. reflexivity.
  - inversion S1 as [|? ? S1' F1]; inversion S2 as [|? ? S2' F2]; subst. rewrite Forall_forall in F1, F2.
    assert (a = b).
    { destruct (proj1 (E a) (or_introl eq_refl)) as [|I]; [auto|]. destruct (proj2 (E b) (or_introl eq_refl)) as [|J]; [auto|]. apply F2 in I. apply F1 in J. lia. }
    subst b. f_equal. apply IH; auto. intros x. split; intros I.
    + destruct (proj1 (E x) (or_intror I)) as [->|]; [|auto]. apply F1 in I. lia.
    + destruct (proj2 (E x) (or_intror I)) as [->|]; [|auto]. apply F2 in I. lia.
Qed.
Lemma order_sorted : forall l : list nat, (forall a b, (a < b < List.length l)%nat -> (nth a l 0 < nth b l 0)%nat) -> StronglySorted lt l.
Proof.
  induction l as [|x l IH]; intros H; constructor.
  - apply IH. intros a b [A B]. apply (H (S a) (S b)). cbn. lia.
  - apply Forall_forall. intros y I. apply (In_nth _ _ 0%nat) in I. destruct I as [k [K <-]]. apply (H 0%nat (S k)). cbn. lia.
Qed.
Lemma seq_sorted : forall m a, StronglySorted lt (seq a m).
Proof. induction m as [|m IH]; intros a; cbn; constructor; [apply IH|]. apply Forall_forall. intros x I. apply in_seq in I. lia. Qed.
Lemma filter_sorted {A} (p : A -> bool) R : forall l, StronglySorted R l -> StronglySorted R (filter p l).
Proof.
  induction l as [|x l IH]; intros S; cbn; [exact S|]. inversion S as [|? ? S' F]; subst. destruct (p x); [|auto]. constructor; [auto|].
  rewrite Forall_forall in *. intros y I. apply filter_In in I. apply F. tauto.
Qed.
Lemma sorted_nodup : forall l : list nat, StronglySorted lt l -> NoDup l.
Proof. induction l as [|x l IH]; intros S; constructor; inversion S as [|? ? S' F]; subst; auto. rewrite Forall_forall in F. intros I. apply F in I. lia. Qed.
Lemma free_unique n fx l1 l2 : free_of n fx l1 -> StronglySorted lt l2 -> (forall i, In i l2 <-> (i < n)%nat /\ ~ In i fx) -> l1 = l2.
Proof. intros [I O] S E. apply sorted_unique; [apply order_sorted; exact O|exact S|]. intros x. rewrite I, E. reflexivity. Qed.

(* which parameters are fixed *)
Lemma mark_spec par : forall fx l, (forall i, In i fx -> (i < List.length par)%nat) -> List.length l = List.length par ->
  exists pf, mark par fx l = Ok pf /\ List.length pf = List.length par /\
    forall i, nth i pf None = if in_dec Nat.eq_dec i fx then Some (at_R par i) else nth i l None.
Proof.
  induction fx as [|k fx IH]; intros l F L; cbn [mark].
  { exists l. split; [reflexivity|split; [exact L|]]. intros i. destruct (in_dec Nat.eq_dec i []) as [[]|]. reflexivity. }
  pose proof (F k (or_introl eq_refl)) as K. destruct (Nat.ltb_spec k (List.length par)); [|lia].
  destruct (IH (upd l k (Some (at_R par k)))) as [pf [M [Lp N]]]; [intros i I; apply F; right; exact I|rewrite upd_length; lia|].
  exists pf. split; [exact M|split; [exact Lp|]]. intros i. rewrite N, upd_nth_gen by lia.
  destruct (in_dec Nat.eq_dec i fx) as [I|I]; destruct (in_dec Nat.eq_dec i (k :: fx)) as [J|J]; auto.
  - exfalso. apply J. right. exact I.
  - destruct J as [->|J]; [|contradiction]. rewrite Nat.eqb_refl. reflexivity.
  - destruct (Nat.eqb_spec i k) as [->|]; [exfalso; apply J; left; reflexivity|reflexivity].
Qed.
Lemma mark_error par : forall fx l, (exists i, In i fx /\ (List.length par <= i)%nat) -> mark par fx l = Err IndexError.
Proof.
  induction fx as [|k fx IH]; intros l [i [I O]]; [contradiction|]. cbn [mark]. destruct (Nat.ltb_spec k (List.length par)) as [H|H]; [|reflexivity].
  apply IH. destruct I as [->|I]; [lia|]. eauto.
Qed.

(* storing a block *)
Lemma put_row_spec n : forall cols v M i, dims n M -> (i < n)%nat -> NoDup cols -> (forall c, In c cols -> (c < n)%nat) -> List.length v = List.length cols ->
  dims n (put_row M i cols v) /\ (forall c, (c < List.length cols)%nat -> cell (put_row M i cols v) i (nth c cols 0%nat) = nth c v 0) /\
  forall a b, a <> i \/ ~ In b cols -> cell (put_row M i cols v) a b = cell M a b.
Proof.
  induction cols as [|c cols IH]; intros [|x v] M i D I ND C L; cbn [List.length] in L; try discriminate; cbn [put_row].
  { split; [exact D|split; [cbn; lia|auto]]. }
  inversion ND as [|? ? NI ND']; subst. assert (Cc : (c < n)%nat) by (apply C; left; reflexivity).
  destruct (IH v (put M i c x) i (put_dims n M i c x D I Cc) I ND') as [D' [E F]]; [intros k K; apply C; right; exact K|lia|].
  split; [exact D'|split].
  - intros [|k] K; cbn [nth].
    + rewrite F by auto. rewrite (put_cell n) by assumption. rewrite !Nat.eqb_refl. reflexivity.
    + apply E. cbn in K. lia.
  - intros a b H. rewrite F by (destruct H as [H|H]; [left; exact H|right; intros J; apply H; right; exact J]). rewrite (put_cell n) by assumption.
    destruct (Nat.eqb_spec a i) as [->|]; [|reflexivity]. destruct (Nat.eqb_spec b c) as [->|]; [|reflexivity]. exfalso. destruct H as [H|H]; [lia|apply H; left; reflexivity].
Qed.
Lemma put_row_zero n : forall cols v M i, dims n M -> (i < n)%nat -> (forall c, In c cols -> (c < n)%nat) ->
  dims n (put_row M i cols v) /\ forall a b, a <> i \/ ~ In b cols -> cell (put_row M i cols v) a b = cell M a b.
Proof.
  induction cols as [|c cols IH]; intros v M i D I C; destruct v as [|x v]; cbn [put_row]; try (split; [exact D|auto]; fail).
  assert (Cc : (c < n)%nat) by (apply C; left; reflexivity).
  destruct (IH v (put M i c x) i (put_dims n M i c x D I Cc) I) as [D' F]; [intros k K; apply C; right; exact K|].
  split; [exact D'|]. intros a b H. rewrite F by (destruct H as [H|H]; [left; exact H|right; intros J; apply H; right; exact J]). rewrite (put_cell n) by assumption.
  destruct (Nat.eqb_spec a i) as [->|]; [|reflexivity]. destruct (Nat.eqb_spec b c) as [->|]; [|reflexivity]. exfalso. destruct H as [H|H]; [lia|apply H; left; reflexivity].
Qed.
Lemma put_rows_zero n cols : (forall c, In c cols -> (c < n)%nat) -> forall rows P M, dims n M -> (forall r, In r rows -> (r < n)%nat) ->
  dims n (put_rows M rows cols P) /\ forall a b, ~ In a rows \/ ~ In b cols -> cell (put_rows M rows cols P) a b = cell M a b.
Proof.
  intros C. induction rows as [|i rows IH]; intros [|v P] M D Rw; cbn [put_rows]; try (split; [exact D|auto]; fail).
  assert (I : (i < n)%nat) by (apply Rw; left; reflexivity). destruct (put_row_zero n cols v M i D I C) as [D1 F1].
  destruct (IH P (put_row M i cols v) D1) as [D2 F2]; [intros r K; apply Rw; right; exact K|]. split; [exact D2|]. intros a b H.
  rewrite F2 by (destruct H as [H|H]; [left; intros J; apply H; right; exact J|right; exact H]). apply F1.
  destruct H as [H|H]; [left; intros ->; apply H; left; reflexivity|right; exact H].
Qed.
Lemma put_rows_spec n cols : NoDup cols -> (forall c, In c cols -> (c < n)%nat) -> forall rows P M, dims n M -> NoDup rows -> (forall r, In r rows -> (r < n)%nat) ->
  List.length P = List.length rows -> (forall v, In v P -> List.length v = List.length cols) ->
  forall r c, (r < List.length rows)%nat -> (c < List.length cols)%nat -> cell (put_rows M rows cols P) (nth r rows 0%nat) (nth c cols 0%nat) = cell P r c.
Proof.
  intros NC C. induction rows as [|i rows IH]; intros [|v P] M D ND Rw L V r c Hr Hc; cbn [List.length] in *; try lia; cbn [put_rows].
  assert (I : (i < n)%nat) by (apply Rw; left; reflexivity). inversion ND as [|? ? NI ND']; subst.
  destruct (put_row_spec n cols v M i D I NC C) as [D1 [E1 F1]]; [apply V; left; reflexivity|].
  destruct r as [|r]; cbn [nth].
  - destruct (put_rows_zero n cols C rows P (put_row M i cols v) D1) as [_ F2]; [intros r K; apply Rw; right; exact K|]. rewrite F2 by auto. rewrite E1 by exact Hc. reflexivity.
  - change (cell (v :: P) (S r) c) with (cell P r c). apply IH; auto; try lia; [intros k K; apply Rw; right; exact K|intros w K; apply V; right; exact K].
Qed.
Lemma block_matrix H l : is_matrix (List.length l) (block H l) (fun a b => cell H (nth a l 0%nat) (nth b l 0%nat)).
Proof.
  unfold block. split; [apply map_length|]. split.
  - intros r I. apply in_map_iff in I. destruct I as [i [<- _]]. apply map_length.
  - intros i j I J. rewrite (nth_indep _ [] (map (fun j => cell H 0 j) l)) by (rewrite map_length; lia).
    rewrite (map_nth (fun i => map (fun j => cell H i j) l)). rewrite (nth_indep _ 0 (cell H (nth i l 0%nat) 0)) by (rewrite map_length; lia). rewrite (map_nth (fun j => cell H (nth i l 0%nat) j)). reflexivity.
Qed.
Lemma inverse_neg n A B : inverse_of n (fun i j => - A i j) B -> inverse_of n A (fun i j => - B i j).
Proof.
  intros I i j Hi Hj. destruct (I i j Hi Hj) as [I1 I2]. split; [rewrite <- I1|rewrite <- I2]; apply sum_ext; intros k K; ring.
Qed.
Lemma inverse_ext n A A' B : (forall i j, (i < n)%nat -> (j < n)%nat -> A i j = A' i j) -> inverse_of n A B -> inverse_of n A' B.
Proof.
  intros E I i j Hi Hj. destruct (I i j Hi Hj) as [I1 I2]. split; [rewrite <- I1|rewrite <- I2]; apply sum_ext; intros k K; rewrite E by assumption; reflexivity.
Qed.
Lemma seq_free n : free_of n [] (seq 0 n).
Proof. split; [intros i; rewrite in_seq; cbn; lia|]. intros a b H. rewrite seq_length in H. rewrite !seq_nth by lia. lia. Qed.

Lemma covariance_ok : forall pinv f par fixedn free, (forall i, In i fixedn -> (i < List.length par)%nat) -> free_of (List.length par) fixedn free ->
  exists H cov, is_matrix (List.length par) (hessian f par None) H /\ compute_cov pinv f par (Some fixedn) = Ok cov /\
    (forall i j, (i < List.length par)%nat -> (j < List.length par)%nat -> In i fixedn \/ In j fixedn -> nth j (nth i cov []) 0 = 0) /\
    forall B, inverts (List.length free) pinv -> inverse_of (List.length free) (fun r c => - H (nth r free 0%nat) (nth c free 0%nat)) B ->
      forall r c, (r < List.length free)%nat -> (c < List.length free)%nat -> nth (nth c free 0%nat) (nth (nth r free 0%nat) cov []) 0 = B r c.
Proof.
  intros pinv f par fx free F FR. set (n := List.length par). set (H := hessian f par None). exists (cell H).
  assert (HM : is_matrix n H (cell H)) by (destruct (hessian_entries f par None) as [D _]; apply matrix_dims; split; [exact D|reflexivity]).
  assert (HD : dims n H) by (apply (proj1 (matrix_dims _ _ _)) in HM; tauto).
  unfold compute_cov. fold H. destruct fx as [|k fx].
  { cbn [get_fixed_par bind]. eexists. split; [exact HM|split; [reflexivity|split; [intros i j _ _ [[]|[]]|]]].
    intros B IV IB r c Hr Hc. assert (E : free = seq 0 n) by (apply (free_unique n [] free (seq 0 n) FR (seq_sorted n 0)); intros i; rewrite in_seq; cbn; lia). subst free.
    rewrite seq_length in *. rewrite !seq_nth by assumption. cbn [Nat.add]. cbn [invert_hessian].
    assert (IB' : inverse_of n (cell H) (fun i j => - B i j)) by (apply inverse_neg; refine (inverse_ext n _ _ B _ IB); intros i j Hi Hj; rewrite !seq_nth by assumption; reflexivity).
    destruct (IV H (cell H) _ HM IB') as [_ [_ E]]. change (nth c (nth r (negate (pinv H)) []) 0) with (cell (negate (pinv H)) r c). rewrite negate_cell. unfold cell. rewrite E by assumption. ring. }
  destruct (mark_spec par (k :: fx) (repeat None n) F (repeat_length _ _)) as [pf [M [Lp N]]].
  assert (N' : forall i, nth i pf None = if in_dec Nat.eq_dec i (k :: fx) then Some (at_R par i) else None) by (intros i; rewrite N; destruct (in_dec Nat.eq_dec i (k :: fx)); [reflexivity|apply nth_rep]).
  unfold get_fixed_par. fold n. rewrite M. cbn [bind].
  set (nf := positions (fun v => negb (is_fixed v)) pf).
  assert (NFin : forall i, In i nf <-> (i < n)%nat /\ ~ In i (k :: fx)).
  { intros i. unfold nf, positions. rewrite filter_In, in_seq, N', Lp. fold n. destruct (in_dec Nat.eq_dec i (k :: fx)) as [I|I]; cbn [is_fixed negb]; split; intros Q; [destruct Q as [_ Q]; discriminate|tauto|split; [lia|exact I]|split; [lia|reflexivity]]. }
  assert (NFs : StronglySorted lt nf) by (apply filter_sorted, seq_sorted).
  assert (E : free = nf) by (apply (free_unique n (k :: fx) free nf FR NFs NFin)). subst free.
  assert (EX : existsb is_fixed pf = true).
  { apply existsb_exists. exists (Some (at_R par k)). split; [|reflexivity]. pose proof (F k (or_introl eq_refl)) as Kn.
    replace (Some (at_R par k)) with (nth k pf None) by (rewrite N'; destruct (in_dec Nat.eq_dec k (k :: fx)) as [_|J]; [reflexivity|exfalso; apply J; left; reflexivity]). apply nth_In. lia. }
  unfold invert_hessian. rewrite EX. assert (LH : List.length H = n) by (destruct HD; assumption).
  destruct (forallb is_fixed pf) eqn:AF.
  { eexists. split; [exact HM|split; [reflexivity|]]. rewrite LH. split.
    - intros i j _ _ _. apply zeros_cell.
    - intros B _ _ r c Hr _. exfalso. pose proof (nth_In nf 0%nat Hr) as I. set (i := nth r nf 0%nat) in *. apply NFin in I. destruct I as [I1 I2].
      rewrite forallb_forall in AF. assert (Ip : (i < List.length pf)%nat) by (rewrite Lp; exact I1). specialize (AF (nth i pf None) (nth_In pf None Ip)). rewrite N' in AF. destruct (in_dec Nat.eq_dec i (k :: fx)); [contradiction|discriminate]. }
  eexists. split; [exact HM|split; [reflexivity|]]. rewrite LH.
  assert (NFn : forall c, In c nf -> (c < n)%nat) by (intros c I; apply NFin in I; tauto). split.
  - intros i j _ _ FX. destruct (put_rows_zero n nf NFn nf (negate (pinv (block H nf))) (zeros n) (zeros_dims n) NFn) as [_ Z].
    fold (cell (put_rows (zeros n) nf nf (negate (pinv (block H nf)))) i j). rewrite Z; [apply zeros_cell|]. rewrite !NFin. destruct FX; [left|right]; tauto.
  - intros B IV IB r c Hr Hc. pose proof (IV (block H nf) _ _ (block_matrix H nf) (inverse_neg _ _ _ IB)) as PM.
    pose proof (proj1 (proj1 (matrix_dims _ _ _) PM)) as PD. destruct PM as [_ [_ PE]].
    pose proof (negate_dims _ _ PD) as [ND1 ND2].
    fold (cell (put_rows (zeros n) nf nf (negate (pinv (block H nf)))) (nth r nf 0%nat) (nth c nf 0%nat)).
    rewrite (put_rows_spec n nf (sorted_nodup nf NFs) NFn nf (negate (pinv (block H nf))) (zeros n) (zeros_dims n) (sorted_nodup nf NFs) NFn ND1 ND2 r c Hr Hc).
    rewrite negate_cell. unfold cell. rewrite PE by assumption. ring.
Qed.
Lemma covariance_errors : forall pinv f par fixedn, compute_cov pinv f par None = Err TypeError /\
  ((exists i, In i fixedn /\ (List.length par <= i)%nat) -> compute_cov pinv f par (Some fixedn) = Err IndexError).
Proof.
  intros pinv f par fx. split; [reflexivity|]. intros E. unfold compute_cov, get_fixed_par. destruct fx as [|k fx]; [destruct E as [i [[] _]]|]. rewrite mark_error by exact E. reflexivity.
Qed.
(* a quadratic function: the covariance is the inverse of the curvature of the free parameters *)
Lemma covariance_quadratic : forall pinv f par fixedn free A B, (forall i, In i fixedn -> (i < List.length par)%nat) -> free_of (List.length par) fixedn free ->
  symmetric (List.length par) A -> nearly_quadratic f par (/ 2 ^ 13) 0 A -> inverts (List.length free) pinv ->
  inverse_of (List.length free) (fun r c => A (nth r free 0%nat) (nth c free 0%nat)) B ->
  exists cov, compute_cov pinv f par (Some fixedn) = Ok cov /\
    (forall i j, (i < List.length par)%nat -> (j < List.length par)%nat -> In i fixedn \/ In j fixedn -> nth j (nth i cov []) 0 = 0) /\
    forall r c, (r < List.length free)%nat -> (c < List.length free)%nat -> nth (nth c free 0%nat) (nth (nth r free 0%nat) cov []) 0 = B r c.
Proof.
  intros pinv f par fx free A B F FR SY NQ IV IB. destruct (covariance_ok pinv f par fx free F FR) as [H [cov [HM [E [Z V]]]]]. exists cov. split; [exact E|split; [exact Z|]].
  apply V; [exact IV|]. refine (inverse_ext _ _ _ B _ IB). intros i j Hi Hj.
  assert (P : forall r, (r < List.length free)%nat -> (nth r free 0 < List.length par)%nat) by (intros r Hr; apply (proj1 FR (nth r free 0%nat)), nth_In, Hr).
  destruct HM as [_ [_ HE]]. rewrite <- HE by auto. destruct (hessian_entries f par None) as [_ EE]. cbv zeta in EE. unfold cell in EE. rewrite EE by auto. rewrite Ropp_involutive.
  pose proof (entry_near f par (/ 2 ^ 13) 0 A ltac:(apply Rinv_0_lt_compat, pow_lt; lra) SY NQ (nth i free 0%nat) (nth j free 0%nat) (P i Hi) (P j Hj)) as N.
  replace ((if (nth i free 0 =? nth j free 0)%nat then 4 else 1) * 0 / (/ 2 ^ 13) ^ 2) with 0 in N by (unfold Rdiv; ring).
  unfold Rabs in N. destruct (Rcase_abs _) in N; lra.
Qed.
