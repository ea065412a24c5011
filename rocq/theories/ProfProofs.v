(* The bounds of a profile with one hill. *)
From Coq Require Import Reals ZArith List Bool String Lra Lia.
From Verif Require Import Base CrossModel CrossSpec ListFacts CrossProofs EcrossModel ProfModel ProfSpec.
Import ListNotations.
Local Open Scope R_scope.

Lemma sign_pos x : (0 < signR x)%Z <-> 0 < x. Proof. unfold signR. destruct (Rlt_dec 0 x); [split; [auto|lia]|]. destruct (Rlt_dec x 0); split; try lia; lra. Qed.
Lemma sign_neg x : (signR x < 0)%Z <-> x < 0. Proof. unfold signR. destruct (Rlt_dec 0 x); [split; [lia|lra]|]. destruct (Rlt_dec x 0); split; try lia; lra. Qed.
Lemma sign_zero x : signR x = 0%Z <-> x = 0. Proof. unfold signR. destruct (Rlt_dec 0 x); [split; [lia|lra]|]. destruct (Rlt_dec x 0); split; try lia; try lra; reflexivity. Qed.
Lemma at_sign f L i : (i < List.length f)%nat -> at_ (map (fun a => signR (a - L)) f) i = signR (nth i f 0 - L).
Proof. intros H. unfold at_. rewrite nth_indep with (d' := signR (0 - L)) by (rewrite map_length; lia). apply (map_nth (fun a => signR (a - L))). Qed.
Lemma up_iff f L i : UpCross (map (fun a => signR (a - L)) f) 0 i <->
  (S i < List.length f)%nat /\ L < nth (S i) f 0 /\ forall k, (k <= i)%nat -> (forall m, (k < m <= i)%nat -> nth m f 0 = L) -> nth k f 0 <= L.
Proof.
  unfold UpCross. rewrite map_length. split; intros (A & B & C); (split; [exact A|]); (split; [rewrite at_sign in * by lia|]).
  - apply sign_pos in B. lra.
  - intros k K M. assert (D : (at_ (map (fun a => signR (a - L)) f) k <= 0)%Z). { apply C; [exact K|]. intros m H. rewrite at_sign by lia. apply sign_zero. rewrite (M m H). ring. }
    rewrite at_sign in D by lia. apply Rnot_lt_le. intros N. assert (Q : (0 < signR (nth k f 0%R - L))%Z) by (apply sign_pos; lra). lia.
  - apply sign_pos. lra.
  - intros k K M. rewrite at_sign by lia. apply Z.nlt_ge. intros N. apply sign_pos in N. assert (nth k f 0 <= L); [|lra]. apply C; [exact K|]. intros m H. specialize (M m H). rewrite at_sign in M by lia. apply sign_zero in M. lra.
Qed.
Lemma down_iff f L i : DownCross (map (fun a => signR (a - L)) f) 0 i <->
  (S i < List.length f)%nat /\ nth (S i) f 0 < L /\ forall k, (k <= i)%nat -> (forall m, (k < m <= i)%nat -> nth m f 0 = L) -> L <= nth k f 0.
Proof.
  unfold DownCross. rewrite map_length. split; intros (A & B & C); (split; [exact A|]); (split; [rewrite at_sign in * by lia|]).
  - apply sign_neg in B. lra.
  - intros k K M. assert (D : (0 <= at_ (map (fun a => signR (a - L)) f) k)%Z). { apply C; [exact K|]. intros m H. rewrite at_sign by lia. apply sign_zero. rewrite (M m H). ring. }
    rewrite at_sign in D by lia. apply Rnot_lt_le. intros N. assert (Q : (signR (nth k f 0%R - L) < 0)%Z) by (apply sign_neg; lra). lia.
  - apply sign_neg. lra.
  - intros k K M. rewrite at_sign by lia. apply Z.nlt_ge. intros N. apply sign_neg in N. assert (L <= nth k f 0); [|lra]. apply C; [exact K|]. intros m H. specialize (M m H). rewrite at_sign in M by lia. apply sign_zero in M. lra.
Qed.
Lemma same_list : forall l l', increasing l -> increasing l' -> (forall i, In i l <-> In i l') -> l = l'.
Proof.
  induction l as [|a l IH]; intros l' A B H.
  - destruct l' as [|b l']; [reflexivity|]. exfalso. apply (H b). left. reflexivity.
  - destruct l' as [|b l']; [exfalso; apply (H a); left; reflexivity|]. apply increasing_cons in A. apply increasing_cons in B. destruct A as [A A'], B as [B B'].
    assert (a = b).
    { destruct (proj1 (H a) (or_introl eq_refl)) as [E|E]; [auto|]. destruct (proj2 (H b) (or_introl eq_refl)) as [F|F]; [auto|]. pose proof (A _ F). pose proof (B _ E). lia. }
    subst b. f_equal. apply IH; [assumption|assumption|]. intros i. split; intros I.
    + destruct (proj1 (H i) (or_intror I)) as [E|E]; [|exact E]. pose proof (A _ I). lia.
    + destruct (proj2 (H i) (or_intror I)) as [E|E]; [|exact E]. pose proof (B _ I). lia.
Qed.
Lemma up_search f L k : nth 0 f 0 <= L -> L < nth k f 0 -> exists u, (u < k)%nat /\ nth u f 0 <= L < nth (S u) f 0.
Proof.
  induction k as [|k IH]; intros A B; [lra|]. destruct (Rle_dec (nth k f 0) L) as [C|C].
  - exists k. split; [lia|]. split; assumption.
  - destruct IH as (u & U & V); [assumption|lra|]. exists u. split; [lia|assumption].
Qed.
Lemma down_search f L k n : L < nth k f 0 -> nth (k + n) f 0 < L -> exists d, (k <= d < k + n)%nat /\ nth (S d) f 0 < L <= nth d f 0.
Proof.
  induction n as [|n IH]; intros A B; [rewrite Nat.add_0_r in B; lra|]. destruct (Rle_dec L (nth (k + n) f 0)) as [C|C].
  - exists (k + n)%nat. split; [lia|]. replace (S (k + n)) with (k + S n)%nat by lia. split; assumption.
  - destruct IH as (d & U & V); [assumption|lra|]. exists d. split; [lia|assumption].
Qed.
Definition rise (f : list R) (L : R) (k u : nat) : Prop := (u < k)%nat /\ nth u f 0 <= L < nth (S u) f 0.
Definition fall (f : list R) (L : R) (k d : nat) : Prop := (k <= d)%nat /\ (S d < List.length f)%nat /\ nth (S d) f 0 < L <= nth d f 0.
Lemma up_hill f L k i : hill f k -> L < nth k f 0 -> (UpCross (map (fun a => signR (a - L)) f) 0 i <-> rise f L k i).
Proof.
  intros (K & U & D) H. rewrite up_iff. unfold rise. split.
  - intros (A & B & C). assert (E : nth i f 0 <= L) by (apply C; [lia|intros; lia]). split; [|split; assumption]. apply Nat.nle_gt. intros N. specialize (D i (S i) ltac:(lia) ltac:(lia)). lra.
  - intros (A & B & C). split; [lia|]. split; [assumption|]. intros j J _. specialize (U j i ltac:(lia)). lra.
Qed.
Lemma down_hill f L k i : hill f k -> L < nth k f 0 -> (DownCross (map (fun a => signR (a - L)) f) 0 i <-> fall f L k i).
Proof.
  intros (K & U & D) H. rewrite down_iff. unfold fall. split.
  - intros (A & B & C). assert (E : L <= nth i f 0) by (apply C; [lia|intros; lia]). split; [|split; [assumption|split; assumption]]. apply Nat.nlt_ge. intros N. specialize (U i (S i) ltac:(lia)). lra.
  - intros (A & A' & B & C). split; [lia|]. split; [assumption|]. intros j J M. destruct (Nat.lt_ge_cases j k) as [N|N].
    + specialize (M k ltac:(lia)). lra.
    + specialize (D j i ltac:(lia) ltac:(lia)). lra.
Qed.
Lemma rise_unique f L k u u' : hill f k -> rise f L k u -> rise f L k u' -> u = u'.
Proof.
  intros (K & U & D) (A & B) (A' & B'). destruct (Nat.lt_trichotomy u u') as [C|[C|C]]; [|exact C|].
  - specialize (U (S u) u' ltac:(lia)). lra.
  - specialize (U (S u') u ltac:(lia)). lra.
Qed.
Lemma fall_unique f L k u u' : hill f k -> fall f L k u -> fall f L k u' -> u = u'.
Proof.
  intros (K & U & D) (A & A1 & B) (A' & A1' & B'). destruct (Nat.lt_trichotomy u u') as [C|[C|C]]; [|exact C|].
  - specialize (D (S u) u' ltac:(lia) ltac:(lia)). lra.
  - specialize (D (S u') u ltac:(lia) ltac:(lia)). lra.
Qed.
(* all crossings *)
Lemma crossings m f L k : hill f k -> L < nth k f 0 -> exists ups downs, findcrossR m f L = Ok (ups ++ downs) /\
  ((L < nth 0 f 0 /\ ups = []) \/ (exists u, rise f L k u /\ ups = [u])) /\ ((L <= nth (List.length f - 1) f 0 /\ downs = []) \/ (exists d, fall f L k d /\ downs = [d])).
Proof.
  intros Hh H. pose proof Hh as (K & U & D). unfold findcrossR. set (x := map (fun a => signR (a - L)) f).
  destruct (findcross_exact m x 0) as (l & E & I & C). { unfold x. intros Y. apply (f_equal (@List.length Z)) in Y. rewrite map_length in Y. cbn in Y. lia. }
  rewrite E. clear E. assert (C' : forall i, In i l <-> rise f L k i \/ fall f L k i) by (intros i; rewrite (C i); unfold Crossing, x; rewrite (up_hill f L k i Hh H), (down_hill f L k i Hh H); reflexivity). clear C.
  assert (A : exists ups, ((L < nth 0 f 0 /\ ups = []) \/ (exists u, rise f L k u /\ ups = [u])) /\ forall i, In i ups <-> rise f L k i).
  { destruct (Rlt_dec L (nth 0 f 0)) as [A|A].
    - exists []. split; [left; auto|]. intros i. split; [intros []|]. intros (P & Q & _). specialize (U 0%nat i ltac:(lia)). lra.
    - destruct (up_search f L k ltac:(lra) H) as (u & P & Q). assert (RU : rise f L k u) by (split; assumption). exists [u]. split; [right; eauto|]. intros i. split; [intros [<-|[]]; assumption|]. intros R'. left. apply (rise_unique f L k); assumption. }
  assert (B : exists downs, ((L <= nth (List.length f - 1) f 0 /\ downs = []) \/ (exists d, fall f L k d /\ downs = [d])) /\ forall i, In i downs <-> fall f L k i).
  { destruct (Rle_dec L (nth (List.length f - 1) f 0)) as [B|B].
    - exists []. split; [left; auto|]. intros i. split; [intros []|]. intros (P & P' & Q & _). specialize (D (S i) (List.length f - 1)%nat ltac:(lia) ltac:(lia)). lra.
    - destruct (down_search f L k (List.length f - 1 - k) H) as (d & P & Q); [replace (k + (List.length f - 1 - k))%nat with (List.length f - 1)%nat by lia; lra|].
      assert (RU : fall f L k d) by (split; [lia|]; split; [lia|assumption]). exists [d]. split; [right; eauto|]. intros i. split; [intros [<-|[]]; assumption|]. intros R'. left. apply (fall_unique f L k); assumption. }
  destruct A as (ups & A1 & A2), B as (downs & B1 & B2). exists ups, downs. split; [|split; assumption]. f_equal. apply same_list; [assumption| |].
  - destruct A1 as [[_ ->]|(u & RU & ->)], B1 as [[_ ->]|(d & RD & ->)]; cbn.
    + intros a b N. cbn in N. lia.
    + intros a b N. cbn in N. lia.
    + intros a b N. cbn in N. lia.
    + intros a b N. cbn in N. assert (a = 0%nat /\ b = 1%nat) as [-> ->] by lia. cbn. destruct RU, RD. lia.
  - intros i. rewrite in_app_iff, A2, B2. apply C'.
Qed.
Lemma geti_nth (l : list R) i : (i < List.length l)%nat -> geti l i = Ok (nth i l 0).
Proof. intros H. unfold geti. destruct (nth_error l i) as [x|] eqn:E; [rewrite (nth_error_nth l i 0 E); reflexivity|apply nth_error_None in E; lia]. Qed.
Definition cross (t f : list R) (L : R) (i : nat) : R := nth i t 0 + (L - nth i f 0) * (nth (S i) t 0 - nth i t 0) / (nth (S i) f 0 - nth i f 0).
Lemma ecross1_cross t f L i : List.length t = List.length f -> (S i < List.length f)%nat -> ecross1 t f L i = Ok (cross t f L i).
Proof. intros E H. unfold ecross1. rewrite Nat.add_1_r. rewrite !geti_nth by lia. reflexivity. Qed.
Definition lower (p : profile) (k : nat) (L lo a : R) : Prop := (L < nth 0 (data p) 0 /\ a = lo) \/ exists u, rise (data p) L k u /\ a = cross (args p) (data p) L u.
Definition upper (p : profile) (k : nat) (L hi b : R) : Prop := (L <= nth (List.length (data p) - 1) (data p) 0 /\ b = hi) \/ exists d, fall (data p) L k d /\ b = cross (args p) (data p) L d.
Lemma bounds_form m chi2isf p alpha k lo hi : sound p k lo hi -> profile_max p - 1 / 2 * chi2isf alpha < nth k (data p) 0 ->
  exists a b, get_bounds m chi2isf p alpha = Ok (Some a, Some b) /\ lower p k (profile_max p - 1 / 2 * chi2isf alpha) lo a /\ upper p k (profile_max p - 1 / 2 * chi2isf alpha) hi b.
Proof.
  intros [SL IG OH [Lm Lx] WL] H. unfold get_bounds. set (L := profile_max p - 1 / 2 * chi2isf alpha) in *.
  destruct (crossings m (data p) L k OH H) as (ups & downs & E & A & B). rewrite E. cbn [bind]. pose proof OH as (K & _).
  destruct A as [[A ->]|(u & RU & ->)], B as [[B ->]|(d & RD & ->)]; cbn.
  - exists lo, hi. rewrite Lm, Lx. split; [reflexivity|]. split; left; auto.
  - exists lo, (cross (args p) (data p) L d). destruct RD as (D1 & D2 & D3). rewrite ecross1_cross by (assumption || lia). cbn [bind]. rewrite Nat.add_1_r, !geti_nth by lia. cbn [bind first geti nth_error].
    destruct (Rlt_dec _ _) as [Q|Q]; [lra|]. rewrite Lm. cbn. split; [reflexivity|]. split; [left; auto|right]. exists d. split; [split; [assumption|split; [lia|assumption]]|reflexivity].
  - exists (cross (args p) (data p) L u), hi. destruct RU as (D1 & D3). rewrite ecross1_cross by (assumption || lia). cbn [bind]. rewrite Nat.add_1_r, !geti_nth by lia. cbn [bind first geti nth_error].
    destruct (Rlt_dec _ _) as [Q|Q]; [|lra]. rewrite Lx. cbn. split; [reflexivity|]. split; [right|left; auto]. exists u. split; [split; assumption|reflexivity].
  - exists (cross (args p) (data p) L u), (cross (args p) (data p) L d). destruct RU as (D1 & D3), RD as (F1 & F2 & F3). rewrite !ecross1_cross by (assumption || lia). cbn. split; [reflexivity|].
    split; right; [exists u|exists d]; (split; [|reflexivity]); [split; assumption|split; [assumption|split; assumption]].
Qed.
Lemma cross_rise t f L u : nth u t 0 < nth (S u) t 0 -> nth u f 0 <= L < nth (S u) f 0 -> nth u t 0 <= cross t f L u < nth (S u) t 0 /\ (nth u f 0 < L -> nth u t 0 < cross t f L u).
Proof.
  intros T F. unfold cross. set (a := nth u t 0) in *. set (b := nth (S u) t 0) in *. set (g := nth u f 0) in *. set (h := nth (S u) f 0) in *.
  assert (E : (L - g) * (b - a) / (h - g) = (b - a) * ((L - g) / (h - g))) by (field; lra). rewrite E.
  assert (0 <= (L - g) / (h - g)) by (apply Rmult_le_pos; [lra|apply Rlt_le, Rinv_0_lt_compat; lra]).
  assert ((L - g) / (h - g) < 1) by (apply (Rmult_lt_reg_r (h - g)); [lra|]; unfold Rdiv; rewrite Rmult_assoc, Rinv_l by lra; lra).
  split; [nra|]. intros S0. assert (0 < (L - g) / (h - g)) by (apply Rdiv_lt_0_compat; lra). nra.
Qed.
Lemma cross_fall t f L u : nth u t 0 < nth (S u) t 0 -> nth (S u) f 0 < L <= nth u f 0 -> nth u t 0 <= cross t f L u < nth (S u) t 0.
Proof.
  intros T F. unfold cross. set (a := nth u t 0) in *. set (b := nth (S u) t 0) in *. set (g := nth u f 0) in *. set (h := nth (S u) f 0) in *.
  assert (E : (L - g) * (b - a) / (h - g) = (b - a) * ((g - L) / (g - h))) by (field; lra). rewrite E.
  assert (0 <= (g - L) / (g - h)) by (apply Rmult_le_pos; [lra|apply Rlt_le, Rinv_0_lt_compat; lra]).
  assert ((g - L) / (g - h) < 1) by (apply (Rmult_lt_reg_r (g - h)); [lra|]; unfold Rdiv; rewrite Rmult_assoc, Rinv_l by lra; lra). nra.
Qed.
Lemma ascends_le t i j : ascends t -> (i <= j < List.length t)%nat -> nth i t 0 <= nth j t 0.
Proof. intros A H. destruct (Nat.eq_dec i j) as [->|N]; [lra|]. apply Rlt_le, A. lia. Qed.
(* where the profile is above the level the point is inside of the bounds, where it is below it is outside *)
Lemma bounds_exact m chi2isf p alpha k lo hi : sound p k lo hi -> profile_max p - 1 / 2 * chi2isf alpha < nth k (data p) 0 ->
  exists a b, get_bounds m chi2isf p alpha = Ok (Some a, Some b) /\ lo <= a /\ b <= hi /\ forall i, (i < List.length (args p))%nat ->
    (profile_max p - 1 / 2 * chi2isf alpha < nth i (data p) 0 -> a <= nth i (args p) 0 <= b) /\ (nth i (data p) 0 < profile_max p - 1 / 2 * chi2isf alpha -> nth i (args p) 0 < a \/ b < nth i (args p) 0).
Proof.
  intros Sd H. destruct (bounds_form m chi2isf p alpha k lo hi Sd H) as (a & b & E & A & B). exists a, b. split; [exact E|]. destruct Sd as [SL IG OH _ WL]. set (L := profile_max p - 1 / 2 * chi2isf alpha) in *. pose proof OH as (K & U & D).
  split; [|split].
  - destruct A as [[_ ->]|(u & (A1 & A2) & ->)]; [lra|]. destruct (cross_rise (args p) (data p) L u) as [C _]; [apply IG; lia|assumption|]. pose proof (WL u ltac:(lia)). lra.
  - destruct B as [[_ ->]|(d & (B1 & B2 & B3) & ->)]; [lra|]. pose proof (cross_fall (args p) (data p) L d ltac:(apply IG; lia) B3) as C. pose proof (WL (S d) ltac:(lia)). lra.
  - intros i I. split.
    + intros F. split.
      * destruct A as [[_ ->]|(u & (A1 & A2) & ->)]; [apply WL; assumption|]. destruct (cross_rise (args p) (data p) L u) as [C _]; [apply IG; lia|assumption|].
        assert (u < i)%nat. { apply Nat.nle_gt. intros N. specialize (U i u ltac:(lia)). lra. } pose proof (ascends_le (args p) (S u) i IG ltac:(lia)). lra.
      * destruct B as [[_ ->]|(d & (B1 & B2 & B3) & ->)]; [apply WL; assumption|]. pose proof (cross_fall (args p) (data p) L d ltac:(apply IG; lia) B3) as C.
        assert (i <= d)%nat. { apply Nat.nlt_ge. intros N. specialize (D (S d) i ltac:(lia) ltac:(lia)). lra. } pose proof (ascends_le (args p) i d IG ltac:(lia)). lra.
    + intros F. destruct (Nat.lt_ge_cases i k) as [N|N].
      * left. destruct A as [[A _]|(u & (A1 & A2) & ->)]; [specialize (U 0%nat i ltac:(lia)); lra|]. destruct (cross_rise (args p) (data p) L u) as [C C']; [apply IG; lia|assumption|].
        assert (i <= u)%nat. { apply Nat.nlt_ge. intros M. specialize (U (S u) i ltac:(lia)). lra. }
        destruct (Nat.eq_dec i u) as [->|Q]; [apply C'; assumption|]. pose proof (IG i u ltac:(lia)). lra.
      * right. destruct B as [[B _]|(d & (B1 & B2 & B3) & ->)]; [specialize (D i (List.length (data p) - 1)%nat ltac:(lia) ltac:(lia)); lra|]. pose proof (cross_fall (args p) (data p) L d ltac:(apply IG; lia) B3) as C.
        assert (d < i)%nat. { apply Nat.nle_gt. intros M. specialize (D i d ltac:(lia) ltac:(lia)). lra. } pose proof (ascends_le (args p) (S d) i IG ltac:(lia)). lra.
Qed.
(* a higher confidence gives a wider interval *)
Lemma bounds_nested m chi2isf p alpha alpha' k lo hi a b a' b' : sound p k lo hi -> profile_max p - 1 / 2 * chi2isf alpha < nth k (data p) 0 -> chi2isf alpha <= chi2isf alpha' ->
  get_bounds m chi2isf p alpha = Ok (Some a, Some b) -> get_bounds m chi2isf p alpha' = Ok (Some a', Some b') -> a' <= a /\ b <= b'.
Proof.
  intros Sd H Q E E'. destruct (bounds_form m chi2isf p alpha k lo hi Sd H) as (x & y & F & A & B). rewrite E in F. injection F as <- <-.
  destruct (bounds_form m chi2isf p alpha' k lo hi Sd) as (x' & y' & F & A' & B'); [lra|]. rewrite E' in F. injection F as <- <-.
  destruct Sd as [SL IG OH _ WL]. set (L := profile_max p - 1 / 2 * chi2isf alpha) in *. set (L' := profile_max p - 1 / 2 * chi2isf alpha') in *. assert (LL : L' <= L) by (unfold L, L'; lra). pose proof OH as (K & U & D). split.
  - destruct A as [[A ->]|(u & (A1 & A2) & ->)].
    + destruct A' as [[A' ->]|(u & (A1 & A2) & ->)]; [lra|]. specialize (U 0%nat u ltac:(lia)). lra.
    + destruct (cross_rise (args p) (data p) L u) as [C _]; [apply IG; lia|assumption|]. destruct A' as [[A' ->]|(u' & (A1' & A2') & ->)]; [pose proof (WL u ltac:(lia)); lra|].
      destruct (cross_rise (args p) (data p) L' u') as [C' _]; [apply IG; lia|assumption|].
      assert (u' <= u)%nat. { apply Nat.nlt_ge. intros N. specialize (U (S u) u' ltac:(lia)). lra. }
      destruct (Nat.eq_dec u' u) as [->|N]; [|pose proof (ascends_le (args p) (S u') u IG ltac:(lia)); lra].
      unfold cross. pose proof (IG u (S u) ltac:(lia)). apply Rplus_le_compat_l. unfold Rdiv. rewrite !Rmult_assoc. apply Rmult_le_compat_r; [|lra].
      apply Rmult_le_pos; [lra|]. apply Rlt_le, Rinv_0_lt_compat. lra.
  - destruct B as [[B ->]|(u & (A1 & A0 & A2) & ->)].
    + destruct B' as [[B' ->]|(u & (A1 & A0 & A2) & ->)]; [lra|]. specialize (D (S u) (List.length (data p) - 1)%nat ltac:(lia) ltac:(lia)). lra.
    + pose proof (cross_fall (args p) (data p) L u ltac:(apply IG; lia) A2) as C. destruct B' as [[B' ->]|(u' & (A1' & A0' & A2') & ->)]; [pose proof (WL (S u) ltac:(lia)); lra|].
      pose proof (cross_fall (args p) (data p) L' u' ltac:(apply IG; lia) A2') as C'.
      assert (u <= u')%nat. { apply Nat.nlt_ge. intros N. specialize (D (S u') u ltac:(lia) ltac:(lia)). lra. }
      destruct (Nat.eq_dec u' u) as [->|N]; [|pose proof (ascends_le (args p) (S u) u' IG ltac:(lia)); lra].
      unfold cross. pose proof (IG u (S u) ltac:(lia)). apply Rplus_le_compat_l.
      set (g := nth u (data p) 0) in *. set (h := nth (S u) (data p) 0) in *. set (s := nth (S u) (args p) 0 - nth u (args p) 0) in *.
      replace ((L - g) * s / (h - g)) with ((g - L) * (s / (g - h))) by (field; lra). replace ((L' - g) * s / (h - g)) with ((g - L') * (s / (g - h))) by (field; lra).
      apply Rmult_le_compat_r; [|lra]. apply Rmult_le_pos; [unfold s; lra|]. apply Rlt_le, Rinv_0_lt_compat. lra.
Qed.
