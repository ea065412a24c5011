From Coq Require Import Reals List ZArith Lra Lia Bool String Sorting.
From Verif Require Import Base KdeModel ProcModel ProcSpec ProcProofs DiscModel DiscSpec DiscProofs DiscProofs3 SlopesModel ResaModel ResaSpec.
Import ListNotations.
Local Open Scope R_scope.
Set Bullet Behavior "Strict Subproofs".

Lemma gtb_true a b : b < a -> gtb a b = true.
Proof. intros H. unfold gtb. destruct (Rlt_dec b a); [reflexivity|contradiction]. Qed.
Lemma gtb_false a b : a <= b -> gtb a b = false.
Proof. intros H. unfold gtb. destruct (Rlt_dec b a); [lra|reflexivity]. Qed.
Lemma leb_true a b : a <= b -> leb a b = true.
Proof. intros H. unfold leb. destruct (Rle_dec a b); [reflexivity|contradiction]. Qed.

(* ---- lists ---- *)
Lemma diff_nth w i : (S i < List.length w)%nat -> nth i (diff w) 0 = nth (S i) w 0 - nth i w 0.
Proof.
  revert i. induction w as [|a w IH]; intros i Hi; [cbn in Hi; lia|]. destruct w as [|b w]; [cbn in Hi; lia|].
  destruct i as [|i]; [reflexivity|]. change (diff (a :: b :: w)) with ((b - a) :: diff (b :: w)). cbn [nth]. rewrite IH by (cbn in Hi |- *; lia). reflexivity.
Qed.
Lemma diff_length w : List.length (diff w) = (List.length w - 1)%nat.
Proof. unfold diff. rewrite map_length, combine_length. destruct w as [|a w]; [reflexivity|]. cbn [tl List.length]. lia. Qed.
Lemma min_diff_spec w : (2 <= List.length w)%nat -> exists d, min_diff w = Ok d /\ smallest_gap w d.
Proof.
  intros H. exists (minR (diff w)). assert (N : diff w <> []). { intros E. pose proof (diff_length w) as L. rewrite E in L. cbn in L. lia. }
  split; [unfold min_diff; destruct (diff w); [contradiction|reflexivity]|].
  destruct (ProcProofs.minR_spec (diff w) N) as [A B]. split.
  - intros i Hi. rewrite <- diff_nth by exact Hi. apply B. apply nth_In. rewrite diff_length. lia.
  - destruct (In_nth _ _ 0 A) as [i [Hi E]]. rewrite diff_length in Hi. exists i. split; [lia|]. rewrite <- diff_nth by lia. symmetry. exact E.
Qed.
Lemma gap_unique w d d' : smallest_gap w d -> smallest_gap w d' -> d = d'.
Proof. intros [A [i [Hi E]]] [A' [j [Hj E']]]. pose proof (A j Hj). pose proof (A' i Hi). lra. Qed.
Lemma gap_pos w d : increasing w -> smallest_gap w d -> 0 < d.
Proof. intros I [_ [i [Hi E]]]. pose proof (I i Hi). lra. Qed.
Lemma grid_gap a b m : (1 <= m)%nat -> min_diff (grid a b m) = Ok ((b - a) / INR m).
Proof.
  intros Hm. destruct (min_diff_spec (grid a b m)) as [d [E [A [i [Hi D]]]]]; [rewrite grid_length; lia|]. rewrite E. f_equal. rewrite grid_length in Hi.
  rewrite D, !grid_nth by lia. rewrite S_INR. ring.
Qed.
Lemma last_nth (l : list R) : last l 0 = nth (List.length l - 1) l 0.
Proof. apply last_at. Qed.

(* ---- the loop ---- *)
Lemma doublings_spec q dt nmax : forall fuel nfft, (1 <= nfft)%Z -> (nmax - nfft < Z.of_nat fuel)%Z -> (1 <= fuel)%nat -> (exists k, (0 <= k)%Z /\ nfft = 2 ^ k)%Z ->
  exists r, doublings fuel q dt nmax nfft = Ok r /\ (nfft <= r)%Z /\ (exists k, (0 <= k)%Z /\ r = 2 ^ k)%Z /\ (q / IZR r <= dt \/ (nmax <= r + 1)%Z) /\
    (r = nfft \/ ((r < 2 * (nmax - 1))%Z /\ dt < 2 * q / IZR r)).
Proof.
  induction fuel as [|fuel IH]; intros nfft H1 H2 H3 H4; [lia|]. cbn [doublings].
  destruct (Rle_lt_dec (q / IZR nfft) dt) as [A|A].
  - rewrite gtb_false by exact A. exists nfft. split; [reflexivity|]. split; [lia|]. split; [exact H4|]. split; [now left|now left].
  - rewrite gtb_true by exact A. cbn [andb]. destruct (Z.ltb_spec nfft (nmax - 1)) as [B|B].
    + destruct H4 as [k [K0 K]]. destruct (IH (nfft * 2)%Z) as [r [E [L [P [S T]]]]]; try lia.
      { exists (k + 1)%Z. split; [lia|]. rewrite K, Z.pow_add_r by lia. reflexivity. }
      exists r. split; [exact E|]. split; [lia|]. split; [exact P|]. split; [exact S|]. right. destruct T as [->|T]; [|exact T].
      split; [lia|]. rewrite mult_IZR. assert (0 < IZR nfft) by (apply IZR_lt; lia). replace (2 * q / (IZR nfft * 2)) with (q / IZR nfft) by (field; lra). exact A.
    + exists nfft. split; [reflexivity|]. split; [lia|]. split; [exact H4|]. split; [right; lia|now left].
Qed.
Lemma pow2_up_pow k : (0 <= k)%Z -> pow2_up (2 ^ k) = (2 ^ k)%Z.
Proof. intros H. unfold pow2_up. now rewrite Z.log2_up_pow2. Qed.
Lemma pow2_up_spec n : (0 <= n)%Z -> (n <= pow2_up n)%Z /\ exists k, (0 <= k)%Z /\ pow2_up n = (2 ^ k)%Z.
Proof.
  intros H. split; [|exists (Z.log2_up n); split; [apply Z.log2_up_nonneg|reflexivity]]. unfold pow2_up.
  destruct (Z.le_gt_cases n 1) as [A|A]; [assert (n = 0 \/ n = 1)%Z as [->| ->] by lia; cbn; lia|]. apply Z.log2_up_spec. lia.
Qed.
Lemma pow2_up_less n : (2 <= n)%Z -> (pow2_up n < 2 * n)%Z.
Proof. intros H. unfold pow2_up. pose proof (Z.log2_up_spec n ltac:(lia)) as [A _]. pose proof (Z.log2_up_pos n ltac:(lia)). replace (Z.log2_up n) with (Z.succ (Z.pred (Z.log2_up n))) by lia. rewrite Z.pow_succ_r by lia. lia. Qed.

(* ---- padding ---- *)
Record padded_ok (w s w' s' : list R) (new : R) (zeros : nat) : Prop := {
  po_len : List.length w' = (List.length w + zeros)%nat;
  po_lens : List.length s' = List.length w';
  po_inc : increasing w';
  po_first : nth 0 w' 0 = 0;
  po_last : last w' 0 = Rmax (last w 0) new;
  po_off : exists k, (k + List.length w <= List.length w')%nat /\ (forall i, (i < List.length w)%nat -> nth (k + i) w' 0 = nth i w 0 /\ nth (k + i) s' 0 = nth i s 0) }.
Lemma nth_mid (l : list R) u v i : (i < List.length l)%nat -> nth (List.length u + i) (u ++ l ++ v) 0 = nth i l 0.
Proof. intros H. rewrite app_nth2_plus. now rewrite app_nth1. Qed.
Lemma increasing_snoc w v : increasing w -> (w <> [] -> last w 0 < v) -> increasing (w ++ [v]).
Proof.
  intros I L i Hi. rewrite app_length in Hi. cbn in Hi. destruct (Nat.eq_dec (S i) (List.length w)) as [E|E].
  - rewrite app_nth1 by lia. rewrite app_nth2 by lia. replace (S i - List.length w)%nat with 0%nat by lia. cbn [nth].
    assert (N : w <> []) by (intros ->; cbn in E; lia). specialize (L N). rewrite last_nth in L. replace (List.length w - 1)%nat with i in L by lia. exact L.
  - rewrite !app_nth1 by lia. apply I. lia.
Qed.
Lemma increasing_cons v w : increasing w -> (w <> [] -> v < nth 0 w 0) -> increasing (v :: w).
Proof.
  intros I L i Hi. cbn [List.length] in Hi. destruct i as [|i]; cbn [nth]; [apply L; intros ->; cbn in Hi; lia|]. apply I. lia.
Qed.
Lemma pad_spec w s new dw : (2 <= List.length w)%nat -> List.length s = List.length w -> increasing w -> 0 <= nth 0 w 0 -> smallest_gap w dw -> 0 < new ->
  exists w1 s1 w' s', pad_above w s (last w 0) new dw = (w1, s1) /\ pad_below w1 s1 dw = (w', s') /\
    padded_ok w s w' s' new (zeros_for (new - last w 0)%R dw + zeros_for (nth 0 w 0)%R dw)%nat /\
    w' = (if Rlt_dec 0 (nth 0 w 0) then if Rlt_dec dw (nth 0 w 0) then [0; nth 0 w 0 - dw] else [0] else []) ++ w ++ (if Rlt_dec 0 (new - last w 0) then if Rlt_dec dw (new - last w 0) then [last w 0 + dw; new] else [new] else []) /\
    s' = repeat 0 (zeros_for (nth 0 w 0) dw) ++ s ++ repeat 0 (zeros_for (new - last w 0) dw).
Proof.
  intros Hn Ls I Z0 G Np. pose proof (gap_pos w dw I G) as Dp.
  set (up := if Rlt_dec 0 (new - last w 0) then if Rlt_dec dw (new - last w 0) then [last w 0 + dw; new] else [new] else []).
  set (zu := zeros_for (new - last w 0) dw). set (lo := if Rlt_dec 0 (nth 0 w 0) then if Rlt_dec dw (nth 0 w 0) then [0; nth 0 w 0 - dw] else [0] else []). set (zl := zeros_for (nth 0 w 0) dw).
  assert (Lu : List.length up = zu) by (unfold up, zu, zeros_for; destruct (Rlt_dec 0 (new - last w 0)); [destruct (Rlt_dec dw (new - last w 0))|]; reflexivity).
  assert (Ll : List.length lo = zl) by (unfold lo, zl, zeros_for; destruct (Rlt_dec 0 (nth 0 w 0)); [destruct (Rlt_dec dw (nth 0 w 0))|]; reflexivity).
  assert (Wn : w <> []) by (destruct w; [cbn in Hn; lia|discriminate]).
  assert (H0 : forall v, nth 0 (w ++ v) 0 = nth 0 w 0) by (intros v; rewrite app_nth1; [reflexivity|lia]).
  assert (Hh : forall v, hd 0 (w ++ v) = nth 0 w 0) by (intros v; destruct w; [contradiction|reflexivity]).
  exists (w ++ up), (s ++ repeat 0 zu), (lo ++ w ++ up), (repeat 0 zl ++ s ++ repeat 0 zu).
  split. { unfold pad_above, up, zu, zeros_for, gtb. destruct (Rlt_dec 0 (new - last w 0)); [destruct (Rlt_dec dw (new - last w 0)); reflexivity|]. cbn. now rewrite !app_nil_r. }
  split. { unfold pad_below. rewrite Hh. unfold lo, zl, zeros_for, gtb. destruct (Rlt_dec 0 (nth 0 w 0)); [destruct (Rlt_dec dw (nth 0 w 0))|]; reflexivity. }
  split; [|split; reflexivity].
  assert (Iu : increasing (w ++ up)).
  { unfold up. destruct (Rlt_dec 0 (new - last w 0)); [|now rewrite app_nil_r]. destruct (Rlt_dec dw (new - last w 0)).
    - change [last w 0 + dw; new] with ([last w 0 + dw] ++ [new]). rewrite app_assoc. apply increasing_snoc; [apply increasing_snoc; [exact I|intros; lra]|]. intros _. rewrite last_last. lra.
    - apply increasing_snoc; [exact I|intros; lra]. }
  assert (Nu : w ++ up <> []) by (destruct w; [contradiction|discriminate]).
  constructor.
  - rewrite !app_length, Lu, Ll. lia.
  - rewrite !app_length, !repeat_length, Lu, Ll, Ls. reflexivity.
  - unfold lo. destruct (Rlt_dec 0 (nth 0 w 0)); [|exact Iu]. destruct (Rlt_dec dw (nth 0 w 0)).
    + cbn [app]. apply increasing_cons; [apply increasing_cons; [exact Iu|]|].
      * intros _. rewrite H0. lra.
      * intros _. cbn [nth]. lra.
    + cbn [app]. apply increasing_cons; [exact Iu|]. intros _. rewrite H0. lra.
  - unfold lo. destruct (Rlt_dec 0 (nth 0 w 0)); [destruct (Rlt_dec dw (nth 0 w 0)); reflexivity|]. cbn [app]. rewrite H0. lra.
  - assert (E : last (lo ++ w ++ up) 0 = last (w ++ up) 0).
    { clear -Nu. induction lo as [|a l IH]; [reflexivity|]. cbn [app]. destruct (l ++ w ++ up) as [|r l0] eqn:E; [apply app_eq_nil in E; tauto|]. change (last (r :: l0) 0 = last (w ++ up) 0). exact IH. }
    rewrite E. unfold up. destruct (Rlt_dec 0 (new - last w 0)).
    + rewrite Rmax_right by lra. destruct (Rlt_dec dw (new - last w 0)); [change [last w 0 + dw; new] with ([last w 0 + dw] ++ [new]); rewrite app_assoc|]; apply last_last.
    + rewrite app_nil_r, Rmax_left by lra. reflexivity.
  - exists zl. split; [rewrite !app_length, Ll; lia|]. intros i Hi. split.
    + rewrite <- Ll. now apply nth_mid.
    + replace zl with (List.length (repeat 0 zl)) at 1 by apply repeat_length. apply nth_mid. lia.
Qed.
