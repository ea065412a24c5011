(* The covariances of the simulated series if the embedding is not positive definite. *)
From Coq Require Import Reals List ZArith Lra Lia Bool Classical_Prop.
From Verif Require Import Base PolyModel KdeModel SpectModel SpectProofs7 CovModel ArSpec ArProofs2 CsimModel CsimSpec CsimProofs CsimProofs2 CsimProofs3.
Import ListNotations.
Local Open Scope R_scope.

Lemma find_seq : forall (f : nat -> bool) n a, match find f (seq a n) with
  | None => forall k, (a <= k < a + n)%nat -> f k = false
  | Some i => (a <= i < a + n)%nat /\ f i = true /\ forall k, (a <= k < i)%nat -> f k = false end.
Proof.
  intros f. induction n as [|n IH]; intros a; cbn [seq find]; [intros k H; lia|].
  destruct (f a) eqn:E; [split; [lia|split; [exact E|intros k H; lia]]|].
  specialize (IH (S a)). destruct (find f (seq (S a) n)) as [i|].
  - destruct IH as (H & F & G). split; [lia|]. split; [exact F|]. intros k K. destruct (Nat.eq_dec k a) as [->|]; [exact E|apply G; lia].
  - intros k K. destruct (Nat.eq_dec k a) as [->|]; [exact E|apply IH; lia].
Qed.
Lemma nth_map_seq : forall (f : nat -> R) n m, (m < n)%nat -> nth m (map f (seq 0 n)) 0 = f m.
Proof. intros f n m H. rewrite (nth_indep _ 0 (f 0%nat)) by (rewrite map_length, seq_length; exact H). rewrite (map_nth f (seq 0 n) 0%nat m), seq_nth by exact H. reflexivity. Qed.
Lemma nth_clip : forall s m, nth m (map (fun v => if neg v then 0 else v) s) 0 = if neg (nth m s 0) then 0 else nth m s 0.
Proof.
  intros s m. assert ((if neg 0 then 0 else 0) = 0) as K by (destruct (neg 0); reflexivity).
  rewrite <- K at 1. apply (map_nth (fun v => if neg v then 0 else v)).
Qed.
(* which values are kept *)
Lemma no_negative_kept : forall s m, s <> [] -> (m < List.length s)%nat -> let i := argmaxR s in
  let out := nth m s 0 < 0 \/ exists k, (2 * i < k)%nat /\ nth k s 0 < 0 /\ (k <= m < List.length s - k)%nat in
  (out -> nth m (no_negative s) 0 = 0) /\ (~ out -> nth m (no_negative s) 0 = nth m s 0).
Proof.
  intros s m NE Hm i out. unfold no_negative. fold i. destruct (existsb neg s) eqn:EX.
  - pose proof (find_seq (fun k => neg (at_R s k) && (2 * i <? k)%nat) (List.length s) 0) as F. cbn [Nat.add] in F.
    destruct (find _ _) as [i0|].
    + destruct F as ([_ L] & T & B). apply andb_true_iff in T as [T1 T2]. apply neg_spec in T1. apply Nat.ltb_lt in T2. unfold at_R in T1.
      rewrite nth_map_seq by exact Hm. unfold at_R. rewrite nth_clip.
      destruct (Nat.leb_spec i0 m) as [A|A]; [destruct (Nat.ltb_spec m (List.length s - i0)) as [C|C]|]; cbn [andb].
      * split; [reflexivity|]. intros H. exfalso. apply H. right. exists i0. repeat split; assumption.
      * destruct (neg (nth m s 0)) eqn:G; [split; [reflexivity|intros H; exfalso; apply H; left; apply neg_spec, G]|].
        split; [|reflexivity]. intros [H|(k & K1 & K2 & K3)]; [apply neg_spec in H; congruence|].
        exfalso. assert (i0 <= k)%nat as Q; [|lia]. destruct (le_lt_dec i0 k) as [|U]; [assumption|].
        assert (neg (at_R s k) && (2 * i <? k)%nat = false) as W by (apply B; lia).
        rewrite (proj2 (neg_spec (at_R s k)) K2) in W. rewrite (proj2 (Nat.ltb_lt (2 * i) k) K1) in W. discriminate.
      * destruct (neg (nth m s 0)) eqn:G; [split; [reflexivity|intros H; exfalso; apply H; left; apply neg_spec, G]|].
        split; [|reflexivity]. intros [H|(k & K1 & K2 & K3)]; [apply neg_spec in H; congruence|].
        exfalso. assert (neg (at_R s k) && (2 * i <? k)%nat = false) as W by (apply B; lia).
        rewrite (proj2 (neg_spec (at_R s k)) K2) in W. rewrite (proj2 (Nat.ltb_lt (2 * i) k) K1) in W. discriminate.
    + rewrite nth_clip. destruct (neg (nth m s 0)) eqn:G; [split; [reflexivity|intros H; exfalso; apply H; left; apply neg_spec, G]|].
      split; [|reflexivity]. intros [H|(k & K1 & K2 & K3)]; [apply neg_spec in H; congruence|].
      exfalso. assert (neg (at_R s k) && (2 * i <? k)%nat = false) as W by (apply F; lia).
      rewrite (proj2 (neg_spec (at_R s k)) K2) in W. rewrite (proj2 (Nat.ltb_lt (2 * i) k) K1) in W. discriminate.
  - split; [|reflexivity]. assert (forall k, (k < List.length s)%nat -> ~ nth k s 0 < 0) as NN.
    { intros k Hk H. apply neg_spec in H. assert (existsb neg s = true); [|congruence]. apply existsb_exists. exists (nth k s 0). split; [apply nth_In, Hk|exact H]. }
    intros [H|(k & _ & H & K)]; exfalso; [exact (NN m Hm H)|apply (NN k); [lia|exact H]].
Qed.
Lemma classic_neg : forall x : R, x < 0 \/ ~ x < 0.
Proof. intros x. destruct (Rlt_dec x 0); [left|right]; assumption. Qed.
Lemma out_dec : forall s i m, let out := nth m s 0 < 0 \/ exists k, (2 * i < k)%nat /\ nth k s 0 < 0 /\ (k <= m < List.length s - k)%nat in out \/ ~ out.
Proof. intros s i m out. apply Classical_Prop.classic. Qed.
Lemma truncated_kept : forall s m, s <> [] -> (m < List.length s)%nat -> let i := argmaxR s in
  (left_out (List.length s) (fun k => nth k s 0) i m -> nth m (truncated s) 0 = 0) /\
  (~ left_out (List.length s) (fun k => nth k s 0) i m -> nth m (truncated s) 0 = nth m s 0).
Proof.
  intros s m NE Hm i. destruct (argmaxR_spec s NE) as (L & M & _). fold i in L, M. unfold truncated. fold i. rewrite nth_map_seq by exact Hm.
  destruct (no_negative_kept s m NE Hm) as [A B]. destruct (no_negative_kept s i NE L) as [Ai Bi]. fold i in A, B, Ai, Bi. unfold at_R in *.
  set (out m := nth m s 0 < 0 \/ exists k, (2 * i < k)%nat /\ nth k s 0 < 0 /\ (k <= m < List.length s - k)%nat) in *.
  change (out m -> nth m (no_negative s) 0 = 0) in A. change (~ out m -> nth m (no_negative s) 0 = nth m s 0) in B.
  change (~ out i -> nth i (no_negative s) 0 = nth i s 0) in Bi. change (out i -> nth i (no_negative s) 0 = 0) in Ai.
  destruct (classic_neg (nth i s 0)) as [NI|NI].
  - (* all are negative *)
    assert (nth m s 0 < 0) as Nm by (pose proof (M m Hm); lra). assert (out m) as Om by (left; exact Nm). rewrite (A Om).
    split; [intros _; destruct (_ && _); reflexivity|]. intros H. exfalso. apply H. left. exact Nm.
  - assert (~ out i) as Oi by (intros [H|(k & K & _ & Q)]; [contradiction|lia]). rewrite (Bi Oi).
    destruct (out_dec s i m) as [Om|Om].
    + rewrite (A Om). split; [intros _; destruct (_ && _); reflexivity|]. intros H. exfalso. apply H. destruct Om as [O|O]; [left; exact O|right; left; exact O].
    + rewrite (B Om). destruct (Nat.eqb_spec i 0) as [E|E]; cbn [negb andb].
      * split; [|reflexivity]. intros [H|[H|(H & _)]]; [exfalso; apply Om; left; exact H|exfalso; apply Om; right; exact H|lia].
      * destruct (Nat.leb_spec i m) as [P|P]; cbn [andb]; [destruct (Nat.ltb_spec m (List.length s - i)) as [Q|Q]; cbn [andb]|].
        -- destruct (Rlt_dec (nth m s 0) (nth i s 0 * (1 / 100000))) as [G|G].
           ++ split; [reflexivity|]. intros H. exfalso. apply H. right. right. repeat split; try assumption; [lia|lra].
           ++ split; [|reflexivity]. intros [H|[H|(_ & _ & H)]]; [exfalso; apply Om; left; exact H|exfalso; apply Om; right; exact H|lra].
        -- split; [|reflexivity]. intros [H|[H|(_ & H & _)]]; [exfalso; apply Om; left; exact H|exfalso; apply Om; right; exact H|lia].
        -- split; [|reflexivity]. intros [H|[H|(_ & H & _)]]; [exfalso; apply Om; left; exact H|exfalso; apply Om; right; exact H|lia].
Qed.

(* the covariances are those of the eigenvalues that are kept *)
Lemma sim_kept : forall eps data args ns cases i t, (2 <= List.length data)%nat -> (2 <= List.length args)%nat -> (2 <= ns)%nat -> (forall k, (k < List.length data)%nat -> nth k data 0 <= nth 0 data 0) -> 0 < nth 0 data 0 -> eps < Rabs (last data 0) ->
  let N := pow2_above (Nat.max (2 * List.length data - 1) (2 * ns)) in let ev := eigenvalue N (fun k => nth k data 0) in
  peak_at N ev i -> (forall m, (m < N)%nat -> left_out N ev i m -> t m = 0) -> (forall m, (m < N)%nat -> ~ left_out N ev i m -> t m = ev m) ->
  forall a b p q, (a < cases)%nat -> (b < cases)%nat -> (p < ns)%nat -> (q < ns)%nat ->
  covariance3 N ((cases + 1) / 2) (fun d => value a p (sim eps data args (Some ns) cases d)) (fun d => value b q (sim eps data args (Some ns) cases d)) =
  if (a =? b)%nat then sum_to N (fun m => t m * cos (2 * PI * INR (m * distance p q) / INR N)) / INR N else 0.
Proof.
  intros eps data args ns cases i t LD LA LN MX P0 HE N ev (PK1 & PK2 & PK3) T0 T1 a b p q A B P Q.
  pose proof (sim_cov eps data args ns cases a b p q LD LA LN MX P0 A B P Q) as C.
  destruct (spectrum_facts eps data ns LD P0) as [F1 [F2 [F3 [F4 [F5 [F6 F7]]]]]].
  assert (fst (embed eps data ns) = N) as EN by (unfold embed; destruct (Rlt_dec eps (Rabs (last data 0))); [reflexivity|contradiction]).
  assert (forall m, eigenvalue N (target eps data) m = ev m) as ET.
  { intros m. unfold ev, eigenvalue, target. destruct (Rlt_dec eps (Rabs (last data 0))); [reflexivity|contradiction]. }
  cbn zeta in C. rewrite EN in C, F1, F2, F3, F4, F5, F6, F7. set (s := spectrum N (snd (embed eps data ns))) in *.
  etransitivity; [exact C|]. destruct (a =? b)%nat; [|reflexivity]. f_equal. apply sum_ext. intros m Hm. unfold ang. f_equal.
  destruct (argmaxR_spec s F3) as (S1 & S2 & S3). rewrite F2 in S1, S2.
  assert (forall k, (k < N)%nat -> nth k s 0 = ev k) as NE by (intros k Hk; rewrite F6 by exact Hk; apply ET).
  assert (argmaxR s = i) as EI.
  { apply (first_unique ev N); try assumption.
    - intros k Hk. pose proof (S2 k Hk) as W. unfold at_R in W. rewrite !NE in W by assumption. exact W.
    - intros k Hk. pose proof (S3 k Hk) as W. unfold at_R in W. rewrite !NE in W by lia. exact W. }
  destruct (truncated_kept s m F3 ltac:(rewrite F2; exact Hm)) as [K0 K1]. rewrite F2, EI in K0, K1.
  assert (left_out N (fun k => nth k s 0) i m <-> left_out N ev i m) as LO.
  { unfold left_out. rewrite (NE m Hm), (NE i PK1). split; (intros [H|[(k & U & V & W)|H]]; [left; exact H| |right; right; exact H]); right; left; exists k; repeat split; try lia; [rewrite <- NE by lia|rewrite NE by lia]; exact V. }
  destruct (classic (left_out N ev i m)) as [H|H].
  - rewrite (T0 m Hm H). apply K0, LO, H.
  - rewrite (T1 m Hm H), <- (NE m Hm). apply K1. rewrite LO. exact H.
Qed.
