(* Proofs about findtc: troughs and crests between crossings. *)
From Coq Require Import String ZifyBool.
From Verif Require Import Base CrossModel CrossSpec ListFacts CrossProofs TpProofs.
Local Open Scope Z_scope.
Local Open Scope list_scope.

Lemma argbest_spec (better : Z -> Z -> bool) :
  (forall a b c, better a b = false -> better b c = false -> better a c = false) ->
  (forall a b, better a b = true -> better b a = false) ->
  forall l best ib i L,
  nth ib L 0 = best -> (ib < i)%nat -> (i + List.length l = List.length L)%nat ->
  (forall k, (k < List.length l)%nat -> nth (i + k) L 0 = nth k l 0) ->
  (forall k, (k < i)%nat -> better (nth k L 0) best = false) ->
  let r := argbest_from better best ib i l in
  (r < List.length L)%nat /\ forall k, (k < List.length L)%nat -> better (nth k L 0) (nth r L 0) = false.
Proof.
  intros Htr Hasym. induction l as [|a l IH]; intros best ib i L H1 H2 H3 H4 H5.
  - simpl in *. rewrite H1. split; [lia|]. intros k Hk. apply H5. lia.
  - simpl in H3. cbn [argbest_from].
    assert (Ha : nth i L 0 = a) by (specialize (H4 0%nat); rewrite Nat.add_0_r in H4; apply H4; simpl; lia).
    assert (H4' : forall k, (k < List.length l)%nat -> nth (S i + k) L 0 = nth k l 0).
    { intros k Hk. specialize (H4 (S k)). simpl in H4.
      replace (S i + k)%nat with (i + S k)%nat by lia. apply H4. lia. }
    destruct (better a best) eqn:E.
    + apply IH; auto; try lia. intros k Hk.
      destruct (Nat.eq_dec k i) as [->|]; [rewrite Ha|].
      * destruct (better a a) eqn:E2; auto. rewrite (Hasym _ _ E2) in E2. discriminate.
      * apply (Htr _ best); [apply H5; lia|]. apply Hasym. exact E.
    + apply IH; auto; try lia. intros k Hk.
      destruct (Nat.eq_dec k i) as [->|]; [rewrite Ha; exact E|apply H5; lia].
Qed.

Lemma arg_of_spec (is_min : bool) l : l <> [] ->
  exists a, arg_of is_min l = Ok a /\ (a < List.length l)%nat /\
  forall k, (k < List.length l)%nat ->
    if is_min then nth a l 0 <= nth k l 0 else nth k l 0 <= nth a l 0.
Proof.
  intros Hl. destruct l as [|x0 l]; [congruence|]. unfold arg_of, argmin, argmax.
  destruct is_min; eexists; (split; [reflexivity|]).
  - destruct (argbest_spec Z.ltb ltac:(intros; lia) ltac:(intros; lia) l x0 0 1 (x0 :: l)) as [H1 H2];
      auto; try (simpl; lia).
    + intros k Hk. assert (k = 0)%nat by lia. subst k. simpl. lia.
    + split; [exact H1|]. intros k Hk. specialize (H2 k Hk). lia.
  - destruct (argbest_spec Z.gtb ltac:(intros; lia) ltac:(intros; lia) l x0 0 1 (x0 :: l)) as [H1 H2];
      auto; try (simpl; lia).
    + intros k Hk. assert (k = 0)%nat by lia. subst k. simpl. lia.
    + split; [exact H1|]. intros k Hk. specialize (H2 k Hk). lia.
Qed.

Lemma slice_length {A} a b (x : list A) : (b <= List.length x)%nat ->
  List.length (slice a b x) = (b - a)%nat.
Proof. intros H. unfold slice. rewrite skipn_length, firstn_length. lia. Qed.

Lemma nth_skipn {A} (d : A) a l k : nth k (skipn a l) d = nth (a + k) l d.
Proof.
  revert l. induction a as [|a IH]; intros l; [reflexivity|].
  destruct l; [destruct k; reflexivity|]. simpl. apply IH.
Qed.

Lemma nth_firstn {A} (d : A) b l k : (k < b)%nat -> nth k (firstn b l) d = nth k l d.
Proof.
  revert b l. induction k as [|k IH]; intros [|b] [|z l] H; simpl; auto; try lia.
  apply IH. lia.
Qed.

Lemma slice_nth a b (x : list Z) k : (k < b - a)%nat ->
  nth k (slice a b x) 0 = at_ x (a + k).
Proof. intros H. unfold slice, at_. rewrite nth_skipn, nth_firstn by lia. reflexivity. Qed.

(* the segment after crossing number j *)
Definition seg_ok (x : list Z) (vi : list nat) (is_min : bool) (j a : nat) : Prop :=
  let e := (nth j vi 0 + a + 1)%nat in
  if is_min then LowestIn x (nth j vi 0%nat) (nth (S j) vi 0%nat) e
  else HighestIn x (nth j vi 0%nat) (nth (S j) vi 0%nat) e.

Lemma stretch_arg x vi is_min j : increasing vi ->
  (forall i, In i vi -> (S i < List.length x)%nat) -> (S j < List.length vi)%nat ->
  exists s a, stretch x vi j = Ok s /\ arg_of is_min s = Ok a /\ seg_ok x vi is_min j a.
Proof.
  intros Hinc Hlt Hj. unfold stretch, geti.
  rewrite (nth_error_nth' vi 0%nat) by lia. rewrite (nth_error_nth' vi 0%nat) by lia.
  cbn [bind]. set (A := nth j vi 0%nat). set (B := nth (S j) vi 0%nat).
  assert (HAB : (A < B)%nat) by (apply Hinc; lia).
  assert (HB : (S B < List.length x)%nat) by (apply Hlt; apply nth_In; lia).
  assert (Hlen : List.length (slice (S A) (S B) x) = (B - A)%nat) by (rewrite slice_length; lia).
  destruct (arg_of_spec is_min (slice (S A) (S B) x)) as [a [Ha [H1 H2]]].
  { intros E. rewrite E in Hlen. simpl in Hlen. lia. }
  exists (slice (S A) (S B) x), a. split; [reflexivity|]. split; [exact Ha|].
  unfold seg_ok. fold A B. rewrite Hlen in *.
  assert (Hk : forall k, (A < k <= B)%nat ->
    if is_min then at_ x (A + a + 1) <= at_ x k else at_ x k <= at_ x (A + a + 1)).
  { intros k Hk. specialize (H2 (k - S A)%nat ltac:(lia)).
    rewrite !slice_nth in H2 by lia.
    replace (S A + (k - S A))%nat with k in H2 by lia.
    replace (S A + a)%nat with (A + a + 1)%nat in H2 by lia. exact H2. }
  destruct is_min; (split; [lia|exact Hk]).
Qed.

Lemma tc_loop_spec x vi down : increasing vi ->
  (forall i, In i vi -> (S i < List.length x)%nat) ->
  forall n s, (2 * (s + n) < List.length vi)%nat ->
  exists r, tc_loop x vi down (seq s n) = Ok r /\ List.length r = (2 * n)%nat /\
  forall q, (q < 2 * n)%nat ->
    seg_ok x vi (if Nat.even q then down else negb down) (2 * s + q) (nth q r 0%nat).
Proof.
  intros Hinc Hlt. induction n as [|n IH]; intros s Hs.
  - exists []. simpl. repeat split; auto. intros; lia.
  - cbn [seq tc_loop].
    destruct (stretch_arg x vi down (2 * s) Hinc Hlt) as [s1 [a1 [E1 [E2 H1]]]]; [lia|].
    destruct (stretch_arg x vi (negb down) (S (2 * s)) Hinc Hlt) as [s2 [a2 [E3 [E4 H2]]]]; [lia|].
    rewrite E1. cbn [bind]. rewrite E2. cbn [bind]. rewrite E3. cbn [bind]. rewrite E4. cbn [bind].
    destruct (IH (S s)) as [r [Hr [Hlen Hq]]]; [lia|]. rewrite Hr. cbn [bind].
    eexists. split; [reflexivity|]. split; [simpl; lia|].
    intros [|[|q]] Hqq.
    + rewrite Nat.add_0_r. exact H1.
    + rewrite Nat.add_1_r. exact H2.
    + specialize (Hq q ltac:(lia)). cbn [nth Nat.even].
      replace (2 * s + S (S q))%nat with (2 * S s + q)%nat by lia. exact Hq.
Qed.

Lemma alternating_nth {A} (P Q : A -> Prop) l d : alternating P Q l ->
  forall j, (j < List.length l)%nat -> if Nat.even j then P (nth j l d) else Q (nth j l d).
Proof.
  revert P Q. induction l as [|a l IH]; intros P Q H j Hj; simpl in Hj; [lia|].
  destruct H as [H1 H2]. destruct j as [|j]; [exact H1|].
  specialize (IH _ _ H2 j ltac:(lia)). cbn [nth].
  rewrite Nat.even_succ, <- Nat.negb_even. destruct (Nat.even j); exact IH.
Qed.

(* crossings returned for any kind used by findtc *)
Definition alt_crossings (x : list Z) (v : Z) (vi : list nat) : Prop :=
  increasing vi /\
  (alternating (UpCross x v) (DownCross x v) vi \/ alternating (DownCross x v) (UpCross x v) vi).

Lemma alt_crossings_in x v vi i : alt_crossings x v vi -> In i vi -> (S i < List.length x)%nat.
Proof.
  intros [_ H] Hi. destruct (In_nth _ _ 0%nat Hi) as [j [Hj <-]].
  destruct H as [H|H]; pose proof (alternating_nth _ _ _ 0%nat H j Hj) as Hc;
    destruct (Nat.even j); destruct Hc as [Hc _]; exact Hc.
Qed.

Definition seg_good (x : list Z) (v : Z) (a b e : nat) : Prop :=
  (DownCross x v a -> LowestIn x a b e) /\ (UpCross x v a -> HighestIn x a b e).

Lemma combine_nth2 {A B} (l : list A) (l' : list B) a b n : List.length l = List.length l' ->
  nth n (combine l l') (a, b) = (nth n l a, nth n l' b).
Proof. intros. apply combine_nth. auto. Qed.

Lemma removelast_nth {A} (l : list A) j d : (S j < List.length l)%nat ->
  nth j (removelast l) d = nth j l d.
Proof.
  intros H. destruct l as [|a t]; [simpl in H; lia|].
  destruct (removelast_app_one (a :: t)) as [z Hz]; [discriminate|].
  rewrite Hz at 2. rewrite app_nth1; [reflexivity|].
  rewrite removelast_length. simpl in *. lia.
Qed.

Lemma findtc_spec m x v kind vi :
  findcross m x v kind = Ok vi -> alt_crossings x v vi -> (3 <= List.length vi)%nat ->
  exists itc, findtc m x v kind = Ok (itc, vi) /\
  List.length itc = (List.length vi - 1)%nat /\
  forall j, (S j < List.length vi)%nat ->
    (Nat.odd (List.length vi) = true \/ (S (S j) < List.length vi)%nat \/
     kind = None \/ kind = Some "tw"%string \/ kind = Some "cw"%string) ->
    seg_good x v (nth j vi 0%nat) (nth (S j) vi 0%nat) (nth j itc 0%nat).
Proof.
  intros Hf Halt Hn. pose proof Halt as [Hinc Hdir].
  assert (Hlt : forall i, In i vi -> (S i < List.length x)%nat)
    by (intros; eapply alt_crossings_in; eauto).
  unfold findtc. rewrite Hf. cbn [bind].
  set (nc := List.length vi) in *.
  replace (nc <=? 2)%nat with false by lia.
  set (ntc := ((nc - 1 - (if Nat.even nc then 1 else 0)) / 2)%nat).
  assert (Hntc : (2 * ntc = nc - 1 - (if Nat.even nc then 1 else 0))%nat).
  { unfold ntc. destruct (Nat.even nc) eqn:Ev.
    - apply Nat.even_spec in Ev. destruct Ev as [k Hk]. rewrite Hk.
      replace (2 * k - 1 - 1)%nat with ((k - 1) * 2)%nat by lia. rewrite Nat.div_mul; lia.
    - assert (Ho : Nat.odd nc = true) by (rewrite <- Nat.negb_even, Ev; reflexivity).
      apply Nat.odd_spec in Ho. destruct Ho as [k Hk]. rewrite Hk.
      replace (2 * k + 1 - 1 - 0)%nat with (k * 2)%nat by lia. rewrite Nat.div_mul; lia. }
  set (c0 := nth 0 vi 0%nat).
  assert (Hc0 : geti vi 0 = Ok c0).
  { unfold geti. rewrite (nth_error_nth' vi 0%nat) by (fold nc; lia). reflexivity. }
  assert (Hc0lt : (S c0 < List.length x)%nat) by (apply Hlt; apply nth_In; fold nc; lia).
  rewrite Hc0. cbn [bind]. rewrite (geti_at x c0), (geti_at x (S c0)) by lia. cbn [bind].
  set (down := at_ x c0 >? at_ x (S c0)).
  assert (Htype : forall j, (j < nc)%nat ->
    (DownCross x v (nth j vi 0%nat) -> (if Nat.even j then down else negb down) = true) /\
    (UpCross x v (nth j vi 0%nat) -> (if Nat.even j then down else negb down) = false)).
  { intros j Hj.
    assert (Hdown : forall P Q, alternating P Q vi -> P c0).
    { intros P Q H. apply (alternating_nth _ _ _ 0%nat H 0). fold nc. lia. }
    destruct Hdir as [Hd|Hd]; pose proof (alternating_nth _ _ _ 0%nat Hd j Hj) as Hc;
      pose proof (Hdown _ _ Hd) as H0.
    - assert (down = false).
      { destruct H0 as [_ [H1 H2]]. specialize (H2 c0 ltac:(lia) ltac:(intros; lia)).
        unfold down. lia. }
      destruct (Nat.even j); rewrite H; cbn [negb]; split; intros Hx; auto;
        exfalso; (exact (up_down_excl _ _ _ Hc Hx) || exact (up_down_excl _ _ _ Hx Hc)).
    - assert (down = true).
      { destruct H0 as [_ [H1 H2]]. specialize (H2 c0 ltac:(lia) ltac:(intros; lia)).
        unfold down. lia. }
      destruct (Nat.even j); rewrite H; cbn [negb]; split; intros Hx; auto;
        exfalso; (exact (up_down_excl _ _ _ Hc Hx) || exact (up_down_excl _ _ _ Hx Hc)). }
  destruct (tc_loop_spec x vi down Hinc Hlt ntc 0) as [r [Hr [Hrlen Hq]]].
  { fold nc. destruct (Nat.even nc); lia. }
  rewrite Hr. cbn [bind].
  assert (Hgood : forall j a, (S j < nc)%nat ->
     seg_ok x vi (if Nat.even j then down else negb down) j a ->
     seg_good x v (nth j vi 0%nat) (nth (S j) vi 0%nat) (nth j vi 0 + a + 1)%nat).
  { intros j a Hj Hs. destruct (Htype j ltac:(lia)) as [T1 T2]. unfold seg_ok in Hs.
    split; intros Hc.
    - rewrite (T1 Hc) in Hs. exact Hs.
    - rewrite (T2 Hc) in Hs. exact Hs. }
  assert (Hassemble : forall tail, List.length (r ++ tail) = (nc - 1)%nat ->
     (forall j, (S j < nc)%nat ->
       (Nat.odd nc = true \/ (S (S j) < nc)%nat \/
        kind = None \/ kind = Some "tw"%string \/ kind = Some "cw"%string) ->
       seg_ok x vi (if Nat.even j then down else negb down) j (nth j (r ++ tail) 0%nat)) ->
     exists itc, Ok (map (fun p : nat * nat => (fst p + snd p + 1)%nat)
                         (combine (removelast vi) (r ++ tail)), vi) = Ok (itc, vi) /\
       List.length itc = (nc - 1)%nat /\
       forall j, (S j < nc)%nat ->
        (Nat.odd nc = true \/ (S (S j) < nc)%nat \/
        kind = None \/ kind = Some "tw"%string \/ kind = Some "cw"%string) ->
        seg_good x v (nth j vi 0%nat) (nth (S j) vi 0%nat) (nth j itc 0%nat)).
  { intros tail Hlen Hseg.
    exists (map (fun p : nat * nat => (fst p + snd p + 1)%nat) (combine (removelast vi) (r ++ tail))).
    split; [reflexivity|].
    assert (Hl2 : List.length (removelast vi) = List.length (r ++ tail))
      by (rewrite removelast_length, Hlen; reflexivity).
    split; [rewrite map_length, combine_length, Hl2, Hlen; lia|].
    intros j Hj Hcond.
    rewrite (nth_indep (map _ _) 0%nat (fst (0%nat, 0%nat) + snd (0%nat, 0%nat) + 1)%nat)
      by (rewrite map_length, combine_length, Hl2, Hlen; lia).
    rewrite (map_nth (fun p : nat * nat => (fst p + snd p + 1)%nat)).
    rewrite combine_nth2 by exact Hl2. cbn [fst snd].
    rewrite removelast_nth by (fold nc; lia).
    apply Hgood; [exact Hj|]. apply Hseg; auto. }
  destruct (2 * ntc + 1 <? nc)%nat eqn:Etail.
  - assert (Hev : Nat.even nc = true) by (destruct (Nat.even nc); auto; lia).
    rewrite Hev in Hntc.
    destruct (match kind with None => true | Some k => string_in k ["tw"; "cw"]%string end) eqn:Ek.
    + destruct (stretch_arg x vi down (nc - 2) Hinc Hlt) as [s [a [E1 [E2 H1]]]]; [fold nc; lia|].
      rewrite E1. cbn [bind]. rewrite E2. cbn [bind].
      apply Hassemble; [rewrite app_length; simpl; lia|].
      intros j Hj _. destruct (Nat.eq_dec j (nc - 2)) as [->|].
      * replace (Nat.even (nc - 2)) with true.
        2:{ symmetry. apply Nat.even_spec. apply Nat.even_spec in Hev.
            destruct Hev as [k Hk]. exists (k - 1)%nat. lia. }
        rewrite app_nth2 by lia. replace (nc - 2 - List.length r)%nat with 0%nat by lia. exact H1.
      * rewrite app_nth1 by lia. apply (Hq j). lia.
    + cbn [bind]. apply Hassemble; [rewrite app_length; simpl; lia|].
      intros j Hj Hcond. rewrite app_nth1; [apply (Hq j)|].
      * destruct Hcond as [Ho|[Ho|[->|[->| ->]]]]; try lia; try discriminate.
        rewrite <- Nat.negb_even, Hev in Ho. discriminate.
      * destruct Hcond as [Ho|[Ho|[->|[->| ->]]]]; try lia; try discriminate.
        rewrite <- Nat.negb_even, Hev in Ho. discriminate.
  - cbn [bind]. apply Hassemble.
    + rewrite app_nil_r. destruct (Nat.even nc); lia.
    + intros j Hj _. rewrite app_nil_r. apply (Hq j). destruct (Nat.even nc); lia.
Qed.

Lemma findtc_few m x v kind vi :
  findcross m x v kind = Ok vi -> (List.length vi <= 2)%nat -> findtc m x v kind = Ok ([], []).
Proof.
  intros Hf Hn. unfold findtc. rewrite Hf. cbn [bind].
  replace (List.length vi <=? 2)%nat with true by lia. reflexivity.
Qed.

(* ---- the crossings findtc works on ------------------------------------------ *)
Lemma findcross_none_alt m x v : x <> [] ->
  exists vi, findcross m x v None = Ok vi /\ alt_crossings x v vi.
Proof.
  intros Hx. exists (scan_of x v). split; [apply findcross_none; auto|].
  split; [apply scan_of_increasing|apply scan_of_alternating].
Qed.

Lemma wave_kind w : string_in (wave_name w) ["dw"; "uw"; "tw"; "cw"]%string = true /\
  starts_down (wave_name w) = wave_starts_down w /\ wants_odd (wave_name w) = wave_odd w.
Proof. destruct w; repeat split; reflexivity. Qed.

Lemma findcross_wave_kind m x v w : x <> [] ->
  exists full l pre suf,
    findcross m x v None = Ok full /\ findcross m x v (Some (wave_name w)) = Ok l /\
    full = pre ++ l ++ suf /\
    alternating (wave_first w x v) (wave_second w x v) (l ++ suf) /\
    (List.length pre <= 1)%nat /\ (List.length suf <= 1)%nat /\
    (l <> [] -> Nat.odd (List.length l) = wave_odd w) /\
    (forall i, In i pre -> wave_second w x v i) /\
    (suf <> [] -> Nat.odd (List.length (l ++ suf)) <> wave_odd w).
Proof.
  intros Hx. destruct (wave_kind w) as [H1 [H2 H3]].
  destruct (findcross_wave m x v _ Hx H1) as
    (full & l & pre & suf & E1 & E2 & E3 & E4 & E5 & E6 & E7 & E8 & E9 & E10).
  rewrite H2, H3 in *. exists full, l, pre, suf. unfold wave_first, wave_second.
  split; [exact E1|]. split; [exact E2|]. split; [exact E3|]. split; [exact E4|].
  split; [exact E5|]. split; [exact E6|]. split; [exact E7|]. split; [|exact E10].
  intros i Hi. specialize (E9 i Hi). destruct (wave_starts_down w); exact E9.
Qed.

Lemma findcross_wave_alt m x v w : x <> [] ->
  exists vi, findcross m x v (Some (wave_name w)) = Ok vi /\ alt_crossings x v vi.
Proof.
  intros Hx. destruct (findcross_wave_kind m x v w Hx) as
    (full & l & pre & suf & E1 & E2 & E3 & E4 & _).
  exists l. split; [exact E2|]. split.
  - rewrite findcross_none in E1 by auto. injection E1 as <-.
    pose proof (scan_of_increasing x v) as Hinc. rewrite E3 in Hinc.
    apply increasing_app in Hinc. destruct Hinc as [_ [Hinc _]].
    apply increasing_app in Hinc. tauto.
  - apply alternating_app in E4. unfold wave_first, wave_second in E4.
    destruct (wave_starts_down w); auto.
Qed.

(* ---- wrappers used by the property file ---------------------------------------- *)
Lemma scan_length l : forall prev i, (List.length (scan prev i l) <= List.length l)%nat.
Proof.
  induction l as [|b l IH]; intros prev i; [simpl; lia|]. cbn [scan]. simpl List.length.
  destruct (b =? 0); [pose proof (IH prev (S i)); lia|].
  destruct (Z.sgn b =? prev); [pose proof (IH prev (S i)); lia|].
  simpl List.length. pose proof (IH (Z.sgn b) (S i)). lia.
Qed.

Lemma c_equals_python x v : x <> [] ->
  exists l, c_findcross x v = Ok l /\
            nb_findcross (signs x v) (List.length x) = Ok l /\
            (List.length l <= List.length x)%nat.
Proof.
  intros Hx. pose proof (raw_findcross_scan Numba x v Hx) as H. simpl in H.
  exists (scan_of x v). rewrite c_findcross_nb, H. rewrite <- (signs_length x v) at 1.
  split; [reflexivity|]. split; [exact H|].
  unfold scan_of. pose proof (signs_length x v) as Hl.
  destruct (signs x v) as [|y0 l]; [simpl; lia|].
  pose proof (scan_length l (Z.sgn y0) 0). simpl in Hl. lia.
Qed.

Lemma findtp0_neg m x kind : findtp0 m x true kind = Ok (Some (seq 0 (List.length x))).
Proof. reflexivity. Qed.

Lemma findtp0_turning_points m x ind : (2 <= List.length x)%nat ->
  findtp0 m x false None = Ok (Some ind) ->
  increasing ind /\ (3 <= List.length ind)%nat /\
  last ind 0%nat = (List.length x - 1)%nat /\
  (forall e, TurnsUp x e \/ TurnsDown x e -> In e ind) /\
  (forall e, In e ind -> e = 0%nat \/ e = (List.length x - 1)%nat \/ TurnsUp x e \/ TurnsDown x e) /\
  legs x false (tl ind) /\
  rising x (nth 0 ind 0%nat) (nth 1 ind 0%nat) /\
  at_ x (nth 0 ind 0%nat) <= at_ x (nth 1 ind 0%nat) /\
  (at_ x 0 <> at_ x 1 -> legs x true ind).
Proof.
  intros Hx H. apply findtp0_default in H; auto.
  apply (findtp_core_legs m x None ind); auto.
Qed.

Lemma findtp0_plateau :
  exists x ind, findtp0 Numba x false None = Ok (Some ind) /\
    (2 <= List.length x)%nat /\
    at_ x (nth 0 ind 0%nat) = at_ x (nth 1 ind 0%nat).
Proof.
  exists [5; 5; 1; 3; 2], [0; 1; 2; 3; 4]%nat. split; [reflexivity|].
  split; [simpl; lia|reflexivity].
Qed.

Lemma findtc_default m x v vi :
  findcross m x v None = Ok vi -> (3 <= List.length vi)%nat ->
  exists itc, findtc m x v None = Ok (itc, vi) /\
  List.length itc = (List.length vi - 1)%nat /\
  forall j, (S j < List.length vi)%nat ->
    let a := nth j vi 0%nat in let b := nth (S j) vi 0%nat in let e := nth j itc 0%nat in
    (DownCross x v a -> LowestIn x a b e) /\ (UpCross x v a -> HighestIn x a b e).
Proof.
  intros Hf Hn.
  assert (Hx : x <> []) by (intros ->; destruct m; discriminate).
  destruct (findcross_none_alt m x v Hx) as [vi' [E A]].
  rewrite Hf in E. injection E as <-.
  destruct (findtc_spec m x v None vi Hf A Hn) as [itc [H1 [H2 H3]]].
  exists itc. split; [exact H1|]. split; [exact H2|]. intros j Hj. apply H3; auto.
Qed.

Lemma findtc_wave m x v w vi :
  findcross m x v (Some (wave_name w)) = Ok vi -> (3 <= List.length vi)%nat ->
  exists itc, findtc m x v (Some (wave_name w)) = Ok (itc, vi) /\
  List.length itc = (List.length vi - 1)%nat /\
  forall j, (S j < List.length vi)%nat ->
    let a := nth j vi 0%nat in let b := nth (S j) vi 0%nat in let e := nth j itc 0%nat in
    (DownCross x v a -> LowestIn x a b e) /\ (UpCross x v a -> HighestIn x a b e).
Proof.
  intros Hf Hn.
  assert (Hx : x <> []) by (intros ->; destruct m; discriminate).
  destruct (findcross_wave_alt m x v w Hx) as [vi' [E A]].
  rewrite Hf in E. injection E as <-.
  destruct (findtc_spec m x v _ vi Hf A Hn) as [itc [H1 [H2 H3]]].
  exists itc. split; [exact H1|]. split; [exact H2|]. intros j Hj. apply H3; auto.
  destruct (findcross_wave_kind m x v w Hx) as
    (full & l & pre & suf & _ & E2 & _ & _ & _ & _ & E7 & _).
  rewrite Hf in E2. injection E2 as <-.
  assert (Ho : Nat.odd (List.length vi) = wave_odd w) by (apply E7; intros ->; simpl in Hn; lia).
  destruct w; auto.
Qed.

Lemma findtc_all_bad :
  exists x v itc vi j, findtc Numba x v (Some "all"%string) = Ok (itc, vi) /\
    (S j < List.length vi)%nat /\ DownCross x v (nth j vi 0%nat) /\
    ~ LowestIn x (nth j vi 0%nat) (nth (S j) vi 0%nat) (nth j itc 0%nat).
Proof.
  exists [3; 1; 0; 1; 4; 6; 5; 1; -1; 0; 3], 2, [2; 5; 7]%nat, [0; 3; 6; 9]%nat, 2%nat.
  split; [reflexivity|]. split; [simpl; lia|]. split.
  - split; [simpl; lia|]. split; [reflexivity|]. cbn. intros k Hk Hz.
    assert (H : k = 6%nat \/ (k < 6)%nat) by lia. destruct H as [->|H]; [vm_compute; discriminate|].
    specialize (Hz 6%nat ltac:(lia)). vm_compute in Hz. discriminate.
  - intros [_ H]. specialize (H 8%nat). cbn in H. assert (1 <= -1) by (apply H; lia). lia.
Qed.
