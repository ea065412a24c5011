From Coq Require Import Reals ZArith List Bool Lia Lra Arith.
From Verif Require Import Base CrossModel CrossSpec CrossProofs EcrossModel KdeModel ProfModel ProfSpec ProfProofs.
Import ListNotations.
Local Open Scope R_scope.

Lemma first_above f L k : L < nth k f 0 -> exists u, (u <= k)%nat /\ L < nth u f 0 /\ forall m, (m < u)%nat -> nth m f 0 <= L.
Proof.
  induction k as [k IH] using (well_founded_induction lt_wf). intros H. destruct (existsb (fun m => if Rlt_dec L (nth m f 0) then true else false) (seq 0 k)) eqn:E.
  - apply existsb_exists in E. destruct E as (m & Hm & E). apply in_seq in Hm. destruct (Rlt_dec L (nth m f 0)) as [G|G]; [|discriminate]. destruct (IH m ltac:(lia) G) as (u & U & V). exists u. split; [lia|exact V].
  - exists k. split; [lia|]. split; [exact H|]. intros m Hm. destruct (Rlt_dec L (nth m f 0)) as [G|G]; [|lra]. exfalso. assert (X : existsb (fun m => if Rlt_dec L (nth m f 0) then true else false) (seq 0 k) = true); [|congruence]. apply existsb_exists. exists m. split; [apply in_seq; lia|]. destruct (Rlt_dec L (nth m f 0)); [reflexivity|lra].
Qed.
(* the first point below after k, where k is the last one above the level *)
Lemma last_above f L n : forall k, (k + n < List.length f)%nat -> L < nth k f 0 -> nth (k + n) f 0 < L ->
  exists k1 d, (k <= k1 <= d)%nat /\ (S d <= k + n)%nat /\ L < nth k1 f 0 /\ nth (S d) f 0 < L /\ forall m, (k1 < m <= d)%nat -> nth m f 0 = L.
Proof.
  induction n as [n IH] using (well_founded_induction lt_wf). intros k Hn H B. destruct n as [|n]; [rewrite Nat.add_0_r in B; lra|].
  (* the smallest number of equal values after k *)
  assert (S1 : forall j, (j <= n)%nat -> (forall m, (k < m <= k + j)%nat -> nth m f 0 = L) -> exists k1 d, (k <= k1 <= d)%nat /\ (S d <= k + S n)%nat /\ L < nth k1 f 0 /\ nth (S d) f 0 < L /\ forall m, (k1 < m <= d)%nat -> nth m f 0 = L).
  { intros j Hj. remember (n - j)%nat as r eqn:Er. revert j Hj Er. induction r as [|r IHr]; intros j Hj Er E.
    - exists k, (k + j)%nat. replace j with n in * by lia. split; [lia|]. split; [lia|]. split; [exact H|]. split; [replace (S (k + n))%nat with (k + S n)%nat by lia; exact B|exact E].
    - destruct (Rtotal_order (nth (k + S j) f 0) L) as [G|[G|G]].
      + exists k, (k + j)%nat. split; [lia|]. split; [lia|]. split; [exact H|]. split; [replace (S (k + j))%nat with (k + S j)%nat by lia; exact G|exact E].
      + apply (IHr (S j)); [lia|lia|]. intros m Hm. destruct (Nat.eq_dec m (k + S j)) as [->|]; [exact G|apply E; lia].
      + destruct (IH (S n - S j)%nat ltac:(lia) (k + S j)%nat) as (k1 & d & P1 & P2 & P3 & P4 & P5); [lia|exact G|replace (k + S j + (S n - S j))%nat with (k + S n)%nat by lia; exact B|].
        exists k1, d. split; [lia|]. split; [lia|]. split; [exact P3|]. split; [exact P4|exact P5]. }
  apply (S1 0%nat); [lia|]. intros m Hm. lia.
Qed.
Lemma increasing_first l i0 r i : increasing l -> l = i0 :: r -> In i l -> (i0 <= i)%nat.
Proof. intros I -> H. apply In_nth with (d := 0%nat) in H. destruct H as (j & Hj & <-). destruct j as [|j]; [cbn; lia|]. specialize (I 0%nat (S j) ltac:(lia)). cbn [nth] in I |- *. lia. Qed.
Lemma last_nth (r : list nat) d : r <> [] -> last r d = nth (List.length r - 1) r 0%nat.
Proof. induction r as [|x r IH]; intros N; [congruence|]. destruct r as [|y r]; [reflexivity|]. change (last (x :: y :: r) d) with (last (y :: r) d). rewrite IH by discriminate. cbn [List.length nth]. now replace (S (S (List.length r)) - 1)%nat with (S (List.length (y :: r) - 1)) by (cbn; lia). Qed.
Lemma increasing_last l d i : increasing l -> In i l -> (i <= last l d)%nat.
Proof.
  intros I H. assert (N : l <> []) by (intros ->; destruct H). rewrite last_nth by exact N. apply In_nth with (d := 0%nat) in H. destruct H as (j & Hj & <-). destruct (Nat.eq_dec j (List.length l - 1)) as [->|]; [lia|]. apply Nat.lt_le_incl, I. lia.
Qed.
Lemma bounds_wide m chi2isf p alpha : List.length (args p) = List.length (data p) -> ascends (args p) -> let L := profile_max p - 1 / 2 * chi2isf alpha in
  nth 0 (data p) 0 < L -> nth (List.length (data p) - 1) (data p) 0 < L -> (exists k, L < nth k (data p) 0 /\ (k < List.length (data p))%nat) ->
  exists a b, get_bounds m chi2isf p alpha = Ok (Some a, Some b) /\ a < b /\ (forall i, (i < List.length (data p))%nat -> L < nth i (data p) 0 -> a <= nth i (args p) 0 <= b) /\
    (exists i, (S i < List.length (data p))%nat /\ nth i (args p) 0 <= a < nth (S i) (args p) 0 /\ nth i (data p) 0 <= L < nth (S i) (data p) 0) /\
    (exists j, (S j < List.length (data p))%nat /\ nth j (args p) 0 <= b < nth (S j) (args p) 0 /\ nth (S j) (data p) 0 < L <= nth j (data p) 0).
Proof.
  intros EL A L B0 B1 (k & Hk & Lk). unfold get_bounds. fold L. unfold findcrossR. set (x := map (fun a => signR (a - L)) (data p)).
  destruct (findcross_exact m x 0) as (l & E & I & C). { unfold x. intros Y. apply (f_equal (@List.length Z)) in Y. rewrite map_length in Y. cbn in Y. lia. }
  rewrite E. cbn [bind].
  (* the first crossing is upward, the last one downward *)
  destruct (first_above (data p) L k Hk) as (u1 & U1 & U2 & U3). destruct u1 as [|u]; [lra|].
  destruct (last_above (data p) L (List.length (data p) - 1 - k) k) as (k1 & d & D1 & D2 & D3 & D4 & D5); [lia|exact Hk|replace (k + (List.length (data p) - 1 - k))%nat with (List.length (data p) - 1)%nat by lia; exact B1|].
  assert (Iu : In u l). { apply C. left. apply up_iff. split; [lia|]. split; [exact U2|]. intros j Hj _. apply U3. lia. }
  assert (Id : In d l). { apply C. right. apply down_iff. split; [lia|]. split; [exact D4|]. intros j Hj Z. destruct (Nat.lt_trichotomy j k1) as [G|[G|G]]; [|subst; lra|rewrite D5 by lia; lra]. exfalso. specialize (Z k1 ltac:(lia)). lra. }
  assert (F0 : forall i, In i l -> (u <= i)%nat).
  { intros i Hi. apply C in Hi. destruct (le_lt_dec u i) as [G|G]; [exact G|exfalso]. destruct Hi as [Hi|Hi]; [apply up_iff in Hi; destruct Hi as (P1 & P2 & _); specialize (U3 (S i) ltac:(lia)); lra|].
    apply down_iff in Hi. destruct Hi as (P1 & P2 & P3).
    (* going back from i the values are L until one is below: the first value is *)
    assert (Q : forall n, (n <= i)%nat -> forall m, (i - n <= m <= i)%nat -> nth m (data p) 0 = L).
    { induction n as [|n IHn]; intros Hn m0 Hm.
      - assert (m0 = i) by lia. subst m0. specialize (P3 i (le_n i)). specialize (U3 i ltac:(lia)). assert (L <= nth i (data p) 0) by (apply P3; intros; lia). lra.
      - destruct (Nat.eq_dec m0 (i - S n)) as [->|]; [|apply IHn; lia]. specialize (U3 (i - S n)%nat ltac:(lia)). assert (L <= nth (i - S n) (data p) 0) by (apply P3; [lia|intros; apply (IHn ltac:(lia)); lia]). lra. }
    specialize (Q i (le_n i) 0%nat ltac:(lia)). lra. }
  (* the last crossing *)
  set (j := last l 0%nat). assert (Nl : l <> []) by (intros ->; destruct Iu). assert (Ij : In j l) by (unfold j; rewrite last_nth by exact Nl; apply nth_In; destruct l; [congruence|cbn; lia]).
  assert (Dj : (d <= j)%nat) by (apply increasing_last; assumption). assert (Ju : (u < d)%nat) by lia.
  assert (FJ : (S j < List.length (data p))%nat /\ nth (S j) (data p) 0 < L <= nth j (data p) 0 /\ forall i, (j < i < List.length (data p))%nat -> nth i (data p) 0 <= L).
  { assert (Tail : forall i, (j < i < List.length (data p))%nat -> nth i (data p) 0 <= L).
    { intros i Hi. destruct (Rle_dec (nth i (data p) 0) L) as [G|G]; [exact G|exfalso]. apply Rnot_le_lt in G. destruct (last_above (data p) L (List.length (data p) - 1 - i) i) as (k2 & d2 & E1 & E2 & E3 & E4 & E5); [lia|exact G|replace (i + (List.length (data p) - 1 - i))%nat with (List.length (data p) - 1)%nat by lia; exact B1|].
      assert (In d2 l). { apply C. right. apply down_iff. split; [lia|]. split; [exact E4|]. intros j2 Hj Z. destruct (Nat.lt_trichotomy j2 k2) as [G2|[G2|G2]]; [|subst; lra|rewrite E5 by lia; lra]. exfalso. specialize (Z k2 ltac:(lia)). lra. }
      pose proof (increasing_last l 0%nat d2 I H). fold j in H0. lia. }
    apply C in Ij. destruct Ij as [Ij|Ij]; [apply up_iff in Ij; destruct Ij as (P1 & P2 & _); specialize (Tail (S j) ltac:(lia)); lra|]. apply down_iff in Ij. destruct Ij as (P1 & P2 & P3). split; [exact P1|]. split; [split; [exact P2|]|exact Tail]. apply (P3 j (le_n j)). intros; lia. }
  destruct FJ as (J1 & J2 & J3).
  assert (HU : nth u (data p) 0 <= L < nth (S u) (data p) 0) by (split; [apply U3; lia|exact U2]).
  destruct (cross_rise (args p) (data p) L u (A u (S u) ltac:(lia)) HU) as [CU _]. pose proof (cross_fall (args p) (data p) L j (A j (S j) ltac:(lia)) J2) as CJ.
  exists (cross (args p) (data p) L u), (cross (args p) (data p) L j). split; [|split; [|split; [|split]]].
  - destruct l as [|i0 r]; [congruence|]. assert (i0 = u) by (pose proof (F0 i0 (or_introl eq_refl)); pose proof (increasing_first _ _ _ u I eq_refl Iu); lia). subst i0.
    destruct r as [|j0 r]; [unfold j in *; cbn in *; lia|]. destruct r as [|j1 r].
    + unfold j in *. cbn [last] in *. cbn [ecross]. rewrite !ecross1_cross by (assumption || lia). reflexivity.
    + unfold check_bounds. replace (last (j0 :: j1 :: r) u) with j by (unfold j; change (last (u :: j0 :: j1 :: r) 0%nat) with (last (j0 :: j1 :: r) 0%nat); rewrite !last_nth by discriminate; reflexivity). cbn [ecross]. rewrite !ecross1_cross by (assumption || lia). reflexivity.
  - pose proof (ascends_le (args p) (S u) j A ltac:(lia)). lra.
  - intros i Hi Gi. split.
    + assert (S u <= i)%nat by (destruct (le_lt_dec (S u) i) as [G|G]; [exact G|specialize (U3 i ltac:(lia)); lra]). pose proof (ascends_le (args p) (S u) i A ltac:(lia)). lra.
    + assert (i <= j)%nat by (destruct (le_lt_dec i j) as [G|G]; [exact G|specialize (J3 i ltac:(lia)); lra]). pose proof (ascends_le (args p) i j A ltac:(lia)). lra.
  - exists u. split; [lia|]. split; [exact CU|exact HU].
  - exists j. split; [exact J1|]. split; [exact CJ|exact J2].
Qed.
(* two hills *)
Lemma two_hills m : let p := Profile [0; 1; 2; 3; 4] [-2; 0; -2; 0; -2] 0 (Some (-1)) (Some 5) in List.length (args p) = List.length (data p) /\ ascends (args p) /\ exists a b, get_bounds m (fun _ => 2) p (5 / 100) = Ok (Some a, Some b) /\ 0 <= a <= 1 /\ 3 <= b <= 4.
Proof.
  intros p. assert (A : ascends (args p)). { intros i j H. cbn in H. destruct i as [|[|[|[|[|i]]]]]; destruct j as [|[|[|[|[|j]]]]]; try lia; cbn; lra. }
  split; [reflexivity|]. split; [exact A|]. destruct (bounds_wide m (fun _ => 2) p (5 / 100) eq_refl A) as (a & b & E & _ & I & (i & Hi & Ai & _) & (j & Hj & Aj & _)); try (cbn; lra); [exists 1%nat; cbn; split; [lra|lia]|].
  exists a, b. split; [exact E|]. pose proof (I 1%nat ltac:(cbn; lia) ltac:(cbn; lra)) as I1. pose proof (I 3%nat ltac:(cbn; lia) ltac:(cbn; lra)) as I3. cbn in I1, I3. cbn in Hi, Hj.
  split; split; try lra.
  - destruct i as [|[|[|[|i]]]]; [| | | |lia]; cbn in Ai; lra.
  - destruct j as [|[|[|[|j]]]]; [| | | |lia]; cbn in Aj; lra.
Qed.
