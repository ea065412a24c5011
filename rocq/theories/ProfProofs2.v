(* The points of a profile, its bounds from end to end, and the search for the ends. *)
From Coq Require Import Reals ZArith List Bool String Lra Lia Sorted Permutation.
From Verif Require Import Base CrossModel CrossSpec ListFacts CrossProofs EcrossModel KdeModel FilterModel FilterProofs2 HistProofs2 ProfModel ProfSpec ProfProofs.
Import ListNotations.
Local Open Scope R_scope.

Lemma ascends_sorted l : ascends l <-> StronglySorted Rlt l.
Proof.
  split.
  - induction l as [|x l IH]; intros A; constructor.
    + apply IH. intros i j H. apply (A (S i) (S j)). cbn. lia.
    + apply Forall_forall. intros y Y. destruct (In_nth l y 0 Y) as (j & J & <-). apply (A 0%nat (S j)). cbn. lia.
  - induction 1 as [|x l S0 IH F]; intros i j H; cbn in H; [lia|]. destruct j as [|j]; [lia|]. destruct i as [|i]; cbn.
    + rewrite Forall_forall in F. apply F, nth_In. lia.
    + apply IH. lia.
Qed.
Lemma dedup_in : forall l x, In x (dedup l) <-> In x l.
Proof.
  induction l as [|y l IH]; intros x; [reflexivity|]. cbn [dedup]. destruct l as [|z l']; [reflexivity|]. destruct (Req_EM_T y z) as [->|N].
  - rewrite IH. cbn. tauto.
  - cbn [In]. rewrite IH. reflexivity.
Qed.
Lemma dedup_sorted : forall l, StronglySorted Rle l -> StronglySorted Rlt (dedup l).
Proof.
  induction l as [|y l IH]; intros S0; [constructor|]. apply StronglySorted_inv in S0. destruct S0 as [S0 F]. cbn [dedup]. destruct l as [|z l']; [constructor; constructor|]. destruct (Req_EM_T y z) as [->|N].
  - apply IH, S0.
  - constructor; [apply IH, S0|]. apply Forall_forall. intros w W. apply (proj1 (dedup_in _ _)) in W. rewrite Forall_forall in F. assert (y < z) by (pose proof (F z (or_introl eq_refl)); lra).
    destruct W as [<-|W]; [assumption|]. apply StronglySorted_inv in S0. destruct S0 as [_ F']. rewrite Forall_forall in F'. specialize (F' w W). lra.
Qed.
Lemma unique_in l x : In x (unique l) <-> In x l.
Proof. unfold unique. rewrite dedup_in. split; intros H; [eapply Permutation_in; [symmetry; apply sortR_perm|exact H]|eapply Permutation_in; [apply sortR_perm|exact H]]. Qed.
Lemma unique_ascends l : ascends (unique l). Proof. apply ascends_sorted. apply dedup_sorted, sortR_sorted. Qed.
Lemma lin_bounds a b n x : a <= b -> In x (linspace1 a b n) -> a <= x <= b.
Proof.
  intros AB H. destruct n as [|[|n]]; [destruct H|destruct H as [<-|[]]; lra|]. unfold linspace1 in H. apply In_nth with (d := 0) in H. destruct H as (i & I & <-). rewrite linspace_length in I. rewrite linspace_nth by assumption.
  replace (S (S n) - 1)%nat with (S n) by lia. assert (P : 0 < INR (S n)) by (apply lt_0_INR; lia). pose proof (pos_INR i). assert (INR i <= INR (S n)) by (apply le_INR; lia).
  replace (INR i * ((b - a) / INR (S n))) with ((b - a) * (INR i / INR (S n))) by (field; lra).
  assert (0 <= INR i / INR (S n)) by (apply Rmult_le_pos; [assumption|apply Rlt_le, Rinv_0_lt_compat; assumption]).
  assert (INR i / INR (S n) <= 1) by (apply (Rmult_le_reg_r (INR (S n))); [assumption|]; unfold Rdiv; rewrite Rmult_assoc, Rinv_l by lra; lra). nra.
Qed.
Lemma lin_first a b n : (1 <= n)%nat -> In a (linspace1 a b n).
Proof. intros H. destruct n as [|[|n]]; [lia|left; reflexivity|]. unfold linspace1, linspace. cbn [seq map]. left. change (INR 0) with 0. ring. Qed.
Lemma lin_last a b n : (2 <= n)%nat -> In b (linspace1 a b n).
Proof.
  intros H. destruct n as [|[|n]]; [lia|lia|]. unfold linspace1.
  assert (E : nth (S n) (linspace a b (S (S n))) 0 = b). { rewrite linspace_nth by lia. replace (S (S n) - 1)%nat with (S n) by lia. assert (0 < INR (S n)) by (apply lt_0_INR; lia). field. lra. }
  assert (I : In (nth (S n) (linspace a b (S (S n))) 0) (linspace a b (S (S n)))) by (apply nth_In; rewrite linspace_length; lia). rewrite E in I. exact I.
Qed.
Lemma grid_points n p_opt pmin pmax : (4 <= n)%nat -> pmin <= p_opt <= pmax -> let pvec := adaptive_pvec n p_opt pmin pmax in
  ascends pvec /\ In pmin pvec /\ In p_opt pvec /\ In pmax pvec /\ forall p, In p pvec -> pmin <= p <= pmax.
Proof.
  intros N H pvec. split; [apply unique_ascends|]. unfold pvec, adaptive_pvec. set (a := p_opt - (p_opt - pmin) / 5). set (b := p_opt + (pmax - p_opt) / 5). set (q := (n / 4)%nat).
  assert (Q : (1 <= q)%nat) by (unfold q; apply Nat.div_le_lower_bound; lia).
  assert (AB : pmin <= a /\ a <= p_opt /\ p_opt <= b /\ b <= pmax) by (unfold a, b; repeat split; lra). destruct AB as (A1 & A2 & A3 & A4).
  split; [|split; [|split]].
  - apply unique_in, in_or_app. left. apply lin_first. lia.
  - apply unique_in, in_or_app. right. apply in_or_app. left. left. reflexivity.
  - apply unique_in, in_or_app. right. apply in_or_app. right. apply in_or_app. right. apply lin_last. lia.
  - intros p P. apply (proj1 (unique_in _ _)) in P. apply in_app_or in P. destruct P as [P|P]; [apply lin_bounds in P; lra|]. apply in_app_or in P. destruct P as [P|P]; [destruct P as [<-|[]]; lra|].
    apply in_app_or in P. destruct P as [P|P]; apply lin_bounds in P; lra.
Qed.
(* five points for n = 4 *)
Lemma too_many : (List.length (adaptive_pvec 4 0 (-5) 5) > 4)%nat.
Proof.
  assert (I : incl [-5; -1; 0; 1; 5] (adaptive_pvec 4 0 (-5) 5)).
  { unfold adaptive_pvec. change (4 / 4)%nat with 1%nat. change (4 - 2 * 1)%nat with 2%nat. change (1 + 1)%nat with 2%nat. intros x X. apply unique_in. rewrite !in_app_iff.
    destruct X as [<-|[<-|[<-|[<-|[<-|[]]]]]].
    - left. apply lin_first. lia.
    - left. replace (-1) with (0 - (0 - -5) / 5) at 1 by field. apply lin_last. lia.
    - right. left. left. reflexivity.
    - right. right. left. replace 1 with (0 + (5 - 0) / 5) at 1 by field. apply lin_last. lia.
    - right. right. right. apply lin_last. lia. }
  assert (ND : NoDup [-5; -1; 0; 1; 5]) by (repeat constructor; cbn; intros H; repeat (destruct H as [H|H]; [lra|]); exact H).
  pose proof (NoDup_incl_length ND I). change (List.length [-5; -1; 0; 1; 5]) with 5%nat in H. lia.
Qed.
Lemma walk_prefix prof level : forall l, exists n, (n <= List.length l)%nat /\ walk prof level l = map (fun p => (p, prof p)) (firstn n l) /\
  ((n < List.length l)%nat -> (0 < n)%nat /\ prof (nth (n - 1) l 0) < level) /\ (forall i, (S i < n)%nat -> level <= prof (nth i l 0)).
Proof.
  induction l as [|p l (n & N & E & B & C)]; [exists 0%nat; cbn; repeat split; lia|]. cbn [walk]. destruct (Rlt_dec (prof p) level) as [Q|Q].
  - exists 1%nat. cbn. split; [lia|]. split; [reflexivity|]. split; [intros; split; [lia|assumption]|]. intros; lia.
  - exists (S n). cbn [firstn map List.length]. split; [lia|]. split; [rewrite E; reflexivity|]. split.
    + intros H. destruct (B ltac:(lia)) as [B1 B2]. split; [lia|]. replace (S n - 1)%nat with (S (n - 1)) by lia. exact B2.
    + intros [|i] H; cbn; [lra|]. apply C. lia.
Qed.
Lemma first_split p_opt : forall l i j, first_from p_opt l i = Some j -> exists B p A, l = B ++ p :: A /\ j = (i + List.length B)%nat /\ p_opt <= p /\ Forall (fun b => b < p_opt) B.
Proof.
  induction l as [|p l IH]; intros i j H; [discriminate|]. cbn in H. destruct (Rle_dec p_opt p) as [Q|Q].
  - injection H as <-. exists [], p, l. cbn. repeat split; [lia|assumption|constructor].
  - destruct (IH _ _ H) as (B & q & A & -> & -> & P & F). exists (p :: B), q, A. cbn. repeat split; [lia|assumption|]. constructor; [lra|assumption].
Qed.
Lemma first_none p_opt : forall l i, first_from p_opt l i = None -> Forall (fun b => b < p_opt) l.
Proof. induction l as [|p l IH]; intros i H; [constructor|]. cbn in H. destruct (Rle_dec p_opt p); [discriminate|]. constructor; [lra|]. eapply IH, H. Qed.
Lemma start_split pvec p_opt : ascends pvec -> In p_opt pvec -> exists B A, pvec = B ++ p_opt :: A /\ start_index pvec p_opt = List.length B.
Proof.
  intros Asc I. unfold start_index. destruct (first_from p_opt pvec 0) as [j|] eqn:E.
  - destruct (first_split _ _ _ _ E) as (B & p & A & -> & -> & P & F). exists B, A. split; [|reflexivity]. f_equal. f_equal.
    apply in_app_or in I. destruct I as [I|[I|I]]; [|exact I|].
    + rewrite Forall_forall in F. specialize (F _ I). lra.
    + apply ascends_sorted in Asc. clear -Asc I P. exfalso. induction B as [|b B IH]; cbn in Asc; apply StronglySorted_inv in Asc; destruct Asc as [S0 F].
      * rewrite Forall_forall in F. specialize (F _ I). lra.
      * apply IH, S0.
  - apply first_none in E. rewrite Forall_forall in E. specialize (E _ I). lra.
Qed.
Lemma skip_last {A} (B l : list A) p : skipn (S (List.length B)) (B ++ p :: l) = l. Proof. induction B; [reflexivity|assumption]. Qed.
(* the profile is a piece of the grid around the estimate; what is left out is below the level *)
Lemma profile_piece prof alpha_range p_opt pvec : ascends pvec -> In p_opt pvec -> exists pre B A post,
  pvec = pre ++ B ++ p_opt :: A ++ post /\ get_profile prof alpha_range p_opt pvec = Ok (map (fun p => (p, prof p)) (B ++ p_opt :: A)) /\
  (pre <> [] -> exists q B', B = q :: B' /\ prof q < prof p_opt - alpha_range) /\ (post <> [] -> exists A' q, A = A' ++ [q] /\ prof q < prof p_opt - alpha_range).
Proof.
  intros Asc I. destruct (start_split pvec p_opt Asc I) as (B & A & E & S0). unfold get_profile. rewrite S0, E.
  assert (G : geti (B ++ p_opt :: A) (List.length B) = Ok p_opt) by (unfold geti; rewrite nth_error_app2, Nat.sub_diag by lia; reflexivity). rewrite G. cbn [bind]. clear G.
  rewrite firstn_app, firstn_all, Nat.sub_diag, firstn_O, app_nil_r, skip_last. set (level := prof p_opt - alpha_range).
  destruct (walk_prefix prof level (rev B)) as (n & N & W & X & _). destruct (walk_prefix prof level A) as (n' & N' & W' & X' & _). rewrite rev_length in *. rewrite W, W', firstn_rev, map_rev, rev_involutive.
  exists (firstn (List.length B - n) B), (skipn (List.length B - n) B), (firstn n' A), (skipn n' A). split; [|split; [|split]].
  - rewrite app_assoc, !firstn_skipn. reflexivity.
  - f_equal. rewrite map_app. cbn. reflexivity.
  - intros P. assert (n < List.length B)%nat. { apply Nat.nle_gt. intros Q. apply P. replace (List.length B - n)%nat with 0%nat by lia. reflexivity. }
    destruct (X H) as [X1 X2]. rewrite rev_nth in X2 by lia. replace (List.length B - S (n - 1))%nat with (List.length B - n)%nat in X2 by lia.
    destruct (skipn (List.length B - n) B) as [|q B'] eqn:K; [apply (f_equal (@List.length R)) in K; rewrite skipn_length in K; cbn in K; lia|]. exists q, B'. split; [reflexivity|].
    replace q with (nth (List.length B - n) B 0); [exact X2|]. rewrite <- (firstn_skipn (List.length B - n) B) at 2. rewrite K. rewrite app_nth2; rewrite firstn_length_le by lia; [|lia]. rewrite Nat.sub_diag. reflexivity.
  - intros P. assert (n' < List.length A)%nat. { apply Nat.nle_gt. intros Q. apply P. apply skipn_all2. assumption. } destruct (X' H) as [X1 X2].
    exists (firstn (n' - 1) A), (nth (n' - 1) A 0). split; [|exact X2]. replace n' with (S (n' - 1)) at 1 by lia. clear -H X1. set (k := (n' - 1)%nat). assert (K : (k < List.length A)%nat) by lia. clearbody k. clear H X1.
    revert k K. induction A as [|a A IH]; intros k K; [cbn in K; lia|]. destruct k as [|k]; [reflexivity|]. cbn [firstn nth app]. f_equal. apply IH. cbn in K. lia.
Qed.
