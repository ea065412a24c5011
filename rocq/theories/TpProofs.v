(* Proofs about wave definitions, extremes, turning points and trough/crests. *)
From Coq Require Import String ZifyBool.
From Verif Require Import Base CrossModel CrossSpec ListFacts CrossProofs.
Local Open Scope Z_scope.
Local Open Scope list_scope.

(* ---- wave definitions ------------------------------------------------------ *)
Definition starts_down (k : string) : bool := string_in k ["dw"; "tw"]%string.
Definition wants_odd (k : string) : bool := string_in k ["dw"; "uw"]%string.

Lemma alternating_tl {A} (P Q : A -> Prop) l : alternating P Q l -> alternating Q P (tl l).
Proof. destruct l; simpl; tauto. Qed.

Lemma alternating_app {A} (P Q : A -> Prop) l1 l2 :
  alternating P Q (l1 ++ l2) -> alternating P Q l1.
Proof.
  revert P Q. induction l1 as [|a l1 IH]; simpl; auto. intros P Q [H1 H2]. split; eauto.
Qed.

Lemma findcross_wave_eq m x v k : x <> [] ->
  string_in k ["dw"; "uw"; "tw"; "cw"]%string = true ->
  findcross m x v (Some k) =
  Ok (match scan_of x v with
      | [] => []
      | i0 :: r =>
        let ind1 := if xorb (at_ x (S i0) <? v) (starts_down k) then r else i0 :: r in
        if xorb (Nat.odd (List.length ind1)) (wants_odd k) then removelast ind1 else ind1
      end).
Proof.
  intros Hx Hk. unfold findcross. rewrite raw_findcross_scan by auto. cbn [bind].
  destruct (scan_of x v) as [|i0 r] eqn:E; [reflexivity|].
  destruct (first_dir x v i0 r E) as [Hlt Hdir].
  assert (Hk1 : string_in k ["du"; "all"]%string = false /\ String.eqb k "d" = false
                /\ String.eqb k "u" = false).
  { unfold string_in, existsb in Hk.
    destruct (String.eqb k "dw") eqn:E1; [apply String.eqb_eq in E1; subst k; repeat split; reflexivity|].
    destruct (String.eqb k "uw") eqn:E2; [apply String.eqb_eq in E2; subst k; repeat split; reflexivity|].
    destruct (String.eqb k "tw") eqn:E3; [apply String.eqb_eq in E3; subst k; repeat split; reflexivity|].
    destruct (String.eqb k "cw") eqn:E4; [apply String.eqb_eq in E4; subst k; repeat split; reflexivity|].
    discriminate. }
  destruct Hk1 as [-> [-> ->]]. rewrite Hk.
  rewrite Nat.add_1_r, !geti_signs by lia. cbn [bind tl].
  unfold starts_down, wants_odd.
  replace (Z.sgn (at_ x i0 - v) >? Z.sgn (at_ x (S i0) - v)) with (at_ x (S i0) <? v)
    by (destruct Hdir as [[_ [H1 [H2 _]]]|[_ [H1 [H2 _]]]]; lia).
  reflexivity.
Qed.

Lemma findcross_wave m x v k : x <> [] ->
  string_in k ["dw"; "uw"; "tw"; "cw"]%string = true ->
  exists full l pre suf,
    findcross m x v None = Ok full /\ findcross m x v (Some k) = Ok l /\
    full = pre ++ l ++ suf /\
    alternating (if starts_down k then DownCross x v else UpCross x v)
                (if starts_down k then UpCross x v else DownCross x v) (l ++ suf) /\
    (List.length pre <= 1)%nat /\ (List.length suf <= 1)%nat /\
    (l <> [] -> Nat.odd (List.length l) = wants_odd k) /\
    (wants_odd k = false -> Nat.even (List.length l) = true) /\
    (forall i, In i pre -> if starts_down k then UpCross x v i else DownCross x v i) /\
    (suf <> [] -> Nat.odd (List.length (l ++ suf)) <> wants_odd k).
Proof.
  intros Hx Hk. rewrite findcross_none, findcross_wave_eq by auto.
  exists (scan_of x v).
  destruct (scan_of x v) as [|i0 r] eqn:E.
  - exists [], [], []. simpl. repeat split; auto; try tauto.
  - cbv zeta.
    destruct (first_dir x v i0 r E) as [Hlt Hdir].
    set (ind1 := if xorb (at_ x (S i0) <? v) (starts_down k) then r else i0 :: r).
    set (pre := if xorb (at_ x (S i0) <? v) (starts_down k) then [i0] else []).
    assert (Hfull : i0 :: r = pre ++ ind1).
    { unfold pre, ind1. destruct (xorb _ _); reflexivity. }
    assert (Hpre : (List.length pre <= 1)%nat).
    { unfold pre. destruct (xorb _ _); simpl; lia. }
    assert (Halt : alternating (if starts_down k then DownCross x v else UpCross x v)
                (if starts_down k then UpCross x v else DownCross x v) ind1 /\
            forall i, In i pre -> if starts_down k then UpCross x v i else DownCross x v i).
    { unfold ind1, pre. rewrite E in Hdir.
      destruct Hdir as [[Hc [H1 [H2 H3]]]|[Hc [H1 [H2 H3]]]].
      - replace (at_ x (S i0) <? v) with false by lia. destruct (starts_down k); simpl in *.
        + split; [tauto|]. intros i [<-|[]]. auto.
        + split; [tauto|]. intros i [].
      - replace (at_ x (S i0) <? v) with true by lia. destruct (starts_down k); simpl in *.
        + split; [tauto|]. intros i [].
        + split; [tauto|]. intros i [<-|[]]. auto. }
    destruct Halt as [Halt Hin].
    destruct (xorb (Nat.odd (List.length ind1)) (wants_odd k)) eqn:Ep.
    + destruct ind1 as [|j0 r1] eqn:Ei.
      * exists [], pre, []. simpl. repeat split; auto; try tauto.
      * destruct (removelast_app_one (j0 :: r1)) as [z Hz]; [discriminate|].
        set (l := removelast (j0 :: r1)) in *.
        assert (Hlen : List.length (j0 :: r1) = S (List.length l))
          by (rewrite Hz, app_length; simpl; lia).
        rewrite Hlen, Nat.odd_succ in Ep. rewrite <- Nat.negb_odd in Ep.
        exists l, pre, [z]. rewrite Hfull, Hz.
        repeat split; auto.
        -- rewrite <- Hz. exact Halt.
        -- intros _. destruct (Nat.odd (List.length l)), (wants_odd k); auto; discriminate.
        -- intros Hw. rewrite Hw in Ep. rewrite <- Nat.negb_odd.
           destruct (Nat.odd (List.length l)); auto; discriminate.
        -- intros _. rewrite app_length. simpl List.length.
           rewrite Nat.add_1_r, Nat.odd_succ, <- Nat.negb_odd.
           destruct (Nat.odd (List.length l)), (wants_odd k); discriminate || easy.
    + exists ind1, pre, []. rewrite app_nil_r. repeat split; auto.
      * intros _. destruct (Nat.odd (List.length ind1)), (wants_odd k); auto; discriminate.
      * intros Hw. rewrite Hw in Ep. rewrite <- Nat.negb_odd.
        destruct (Nat.odd (List.length ind1)); auto; discriminate.
      all: try congruence.
Qed.

Lemma findcross_unknown m x v k : x <> [] ->
  string_in k ["du"; "all"; "d"; "u"; "dw"; "uw"; "tw"; "cw"]%string = false ->
  (exists i, Crossing x v i) ->
  findcross m x v (Some k) = Err ValueError.
Proof.
  intros Hx Hk [i Hi]. unfold findcross. rewrite raw_findcross_scan by auto. cbn [bind].
  apply scan_of_crossing in Hi. destruct (scan_of x v) as [|i0 r]; [destruct Hi|].
  unfold string_in, existsb in *.
  repeat match type of Hk with (?a || _ = false) =>
    let E := fresh in destruct a eqn:E; [discriminate|]; simpl in Hk end.
  simpl. reflexivity.
Qed.

(* ---- signals without crossings --------------------------------------------- *)
Definition back_le (y : list Z) (v : Z) (i : nat) : Prop :=
  forall k, (k <= i)%nat -> (forall m, (k < m <= i)%nat -> at_ y m = v) -> at_ y k <= v.
Definition back_ge (y : list Z) (v : Z) (i : nat) : Prop :=
  forall k, (k <= i)%nat -> (forall m, (k < m <= i)%nat -> at_ y m = v) -> v <= at_ y k.

Lemma no_up y v a b : back_le y v a -> (b < List.length y)%nat ->
  (forall i, (a <= i < b)%nat -> ~ UpCross y v i) ->
  forall m, (a <= m <= b)%nat -> back_le y v m.
Proof.
  intros Ha Hb Hno m. induction m as [|m IH]; intros Hm.
  - replace a with 0%nat in Ha by lia. exact Ha.
  - destruct (Nat.eq_dec a (S m)) as [->|Hne]; [exact Ha|].
    assert (IH' : back_le y v m) by (apply IH; lia).
    assert (Hle : at_ y (S m) <= v).
    { destruct (Z_le_gt_dec (at_ y (S m)) v) as [|Hgt]; auto.
      exfalso. apply (Hno m); [lia|]. repeat split; auto; lia. }
    intros k Hk Hz. destruct (Nat.eq_dec k (S m)) as [->|Hk']; [exact Hle|].
    apply IH'; [lia|]. intros p Hp. apply Hz. lia.
Qed.

Lemma no_down y v a b : back_ge y v a -> (b < List.length y)%nat ->
  (forall i, (a <= i < b)%nat -> ~ DownCross y v i) ->
  forall m, (a <= m <= b)%nat -> back_ge y v m.
Proof.
  intros Ha Hb Hno m. induction m as [|m IH]; intros Hm.
  - replace a with 0%nat in Ha by lia. exact Ha.
  - destruct (Nat.eq_dec a (S m)) as [->|Hne]; [exact Ha|].
    assert (IH' : back_ge y v m) by (apply IH; lia).
    assert (Hle : v <= at_ y (S m)).
    { destruct (Z_le_gt_dec v (at_ y (S m))) as [|Hgt]; auto.
      exfalso. apply (Hno m); [lia|]. repeat split; auto; lia. }
    intros k Hk Hz. destruct (Nat.eq_dec k (S m)) as [->|Hk']; [exact Hle|].
    apply IH'; [lia|]. intros p Hp. apply Hz. lia.
Qed.

Lemma back_le_at y v i : back_le y v i -> at_ y i <= v.
Proof. intros H. apply H; [lia|]. intros; lia. Qed.
Lemma back_ge_at y v i : back_ge y v i -> v <= at_ y i.
Proof. intros H. apply H; [lia|]. intros; lia. Qed.
Lemma back_le_lt y v i : at_ y i < v -> back_le y v i.
Proof.
  intros H k Hk Hz. destruct (Nat.eq_dec k i) as [->|]; [lia|].
  specialize (Hz i). lia.
Qed.
Lemma back_ge_gt y v i : v < at_ y i -> back_ge y v i.
Proof.
  intros H k Hk Hz. destruct (Nat.eq_dec k i) as [->|]; [lia|].
  specialize (Hz i). lia.
Qed.

(* ---- extremes ----------------------------------------------------------------- *)
Lemma run_diff x k i : (S i < List.length x)%nat ->
  ((forall m, (k < m <= i)%nat -> at_ (diff x) m = 0) <->
   (forall m, (k < m <= S i)%nat -> at_ x m = at_ x (S i))).
Proof.
  intros Hi. split; intros H.
  - assert (Hd : forall d m, (m + d = S i)%nat -> (k < m)%nat -> at_ x m = at_ x (S i)).
    { induction d as [|d IH]; intros m Hm Hk.
      - replace m with (S i) by lia. reflexivity.
      - rewrite <- (IH (S m)) by lia.
        specialize (H m). rewrite diff_nth in H by lia. lia. }
    intros m Hm. apply (Hd (S i - m)%nat); lia.
  - intros m Hm. rewrite diff_nth by lia.
    rewrite (H (S m)), (H m) by lia. lia.
Qed.

Lemma turns_down_cross x i : TurnsDown x (S i) <-> DownCross (diff x) 0 i.
Proof.
  unfold TurnsDown, DownCross. rewrite diff_length. split.
  - intros [H1 [H2 [H3 H4]]]. split; [lia|]. split; [rewrite diff_nth by lia; lia|].
    intros k Hk Hz. rewrite diff_nth by lia.
    rewrite run_diff in Hz by lia.
    specialize (H4 k). rewrite (Hz (S k)) by lia.
    assert (at_ x k <= at_ x (S i)); [|lia]. apply H4; [lia|]. exact Hz.
  - intros [H1 [H2 H3]]. rewrite diff_nth in H2 by lia.
    split; [lia|]. split; [lia|]. split; [lia|].
    intros k Hk Hz. specialize (H3 k). rewrite diff_nth in H3 by lia.
    rewrite run_diff in H3 by lia. rewrite (Hz (S k)) in H3 by lia.
    assert (0 <= at_ x (S i) - at_ x k); [|lia]. apply H3; [lia|]. exact Hz.
Qed.

Lemma turns_up_cross x i : TurnsUp x (S i) <-> UpCross (diff x) 0 i.
Proof.
  unfold TurnsUp, UpCross. rewrite diff_length. split.
  - intros [H1 [H2 [H3 H4]]]. split; [lia|]. split; [rewrite diff_nth by lia; lia|].
    intros k Hk Hz. rewrite diff_nth by lia.
    rewrite run_diff in Hz by lia.
    specialize (H4 k). rewrite (Hz (S k)) by lia.
    assert (at_ x (S i) <= at_ x k); [|lia]. apply H4; [lia|]. exact Hz.
  - intros [H1 [H2 H3]]. rewrite diff_nth in H2 by lia.
    split; [lia|]. split; [lia|]. split; [lia|].
    intros k Hk Hz. specialize (H3 k). rewrite diff_nth in H3 by lia.
    rewrite run_diff in H3 by lia. rewrite (Hz (S k)) in H3 by lia.
    assert (at_ x (S i) - at_ x k <= 0); [|lia]. apply H3; [lia|]. exact Hz.
Qed.

Lemma diff_nonnil x : (2 <= List.length x)%nat -> diff x <> [].
Proof. intros H E. pose proof (diff_length x). rewrite E in H0. simpl in H0. lia. Qed.

Lemma findextrema_eq m x : (2 <= List.length x)%nat ->
  findextrema m x = Ok (map S (scan_of (diff x) 0)).
Proof.
  intros H. unfold findextrema. rewrite findcross_none by (apply diff_nonnil; auto).
  reflexivity.
Qed.

Lemma findextrema_exact m x : (2 <= List.length x)%nat ->
  exists l, findextrema m x = Ok l /\ increasing l /\
  (forall e, In e l <-> TurnsUp x e \/ TurnsDown x e) /\
  (alternating (TurnsUp x) (TurnsDown x) l \/ alternating (TurnsDown x) (TurnsUp x) l).
Proof.
  intros H. exists (map S (scan_of (diff x) 0)). split; [apply findextrema_eq; auto|].
  split; [apply increasing_map_S, scan_of_increasing|]. split.
  - intros e. rewrite in_map_iff. split.
    + intros [i [<- Hi]]. apply scan_of_crossing in Hi.
      destruct Hi as [Hi|Hi]; [left; apply turns_up_cross|right; apply turns_down_cross]; auto.
    + intros He. destruct e as [|i].
      { destruct He as [[He _]|[He _]]; lia. }
      exists i. split; auto. apply scan_of_crossing.
      destruct He as [He|He]; [left; apply turns_up_cross|right; apply turns_down_cross]; auto.
  - assert (Hm : forall (P Q P' Q' : nat -> Prop) l,
      (forall i, P i -> P' (S i)) -> (forall i, Q i -> Q' (S i)) ->
      alternating P Q l -> alternating P' Q' (map S l)).
    { intros P Q P' Q' l. revert P Q P' Q'.
      induction l as [|a l IH]; simpl; auto. intros P Q P' Q' H1 H2 [H3 H4]. split; eauto. }
    destruct (scan_of_alternating (diff x) 0) as [Ha|Ha]; [left|right];
      revert Ha; apply Hm; intros i Hi;
      (apply turns_up_cross || apply turns_down_cross); exact Hi.
Qed.

(* legs between consecutive crossings of the difference signal *)
Definition consecutive (y : list Z) (l : list nat) : Prop :=
  forall pre a b t, l = pre ++ a :: b :: t ->
    forall i, (a < i < b)%nat -> ~ Crossing y 0 i.

Lemma scan_of_consecutive y : consecutive y (scan_of y 0).
Proof.
  intros pre a b t E i Hi Hc. apply scan_of_crossing in Hc.
  pose proof (scan_of_increasing y 0) as Hinc. rewrite E in Hc, Hinc.
  apply increasing_app in Hinc. destruct Hinc as [_ [H2 H3]].
  apply increasing_cons in H2. destruct H2 as [H2 H4].
  apply increasing_cons in H4. destruct H4 as [H4 _].
  apply in_app_or in Hc. destruct Hc as [Hc|[Hc|[Hc|Hc]]].
  - assert (i < a)%nat by (apply H3; simpl; auto). lia.
  - lia.
  - lia.
  - specialize (H4 i Hc). lia.
Qed.

Lemma leg_down x a b : (b < List.length (diff x))%nat -> (a < b)%nat ->
  DownCross (diff x) 0 a -> (forall i, (a < i < b)%nat -> ~ Crossing (diff x) 0 i) ->
  falling x (S a) (S b) /\ at_ x (S b) < at_ x (S a).
Proof.
  intros Hb Hab [H1 [H2 H3]] Hno.
  assert (Hle : forall m, (S a <= m <= b)%nat -> at_ (diff x) m <= 0).
  { intros m Hm. apply back_le_at. apply (no_up _ _ (S a) b); auto.
    - apply back_le_lt. exact H2.
    - intros i Hi Hu. apply (Hno i); [lia|]. left. exact Hu. }
  rewrite diff_length in *.
  assert (Hf : falling x (S a) (S b)).
  { intros k Hk. specialize (Hle k). rewrite diff_nth in Hle by lia. lia. }
  split; [exact Hf|].
  assert (Hmon : forall d, (S (S a) + d <= S b)%nat -> at_ x (S (S a) + d)%nat <= at_ x (S (S a))).
  { induction d as [|d IH]; intros Hd; [rewrite Nat.add_0_r; lia|].
    rewrite Nat.add_succ_r. specialize (Hf (S (S a) + d)%nat). lia. }
  rewrite diff_nth in H2 by lia.
  specialize (Hmon (b - S a)%nat). replace (S (S a) + (b - S a))%nat with (S b) in Hmon by lia. lia.
Qed.

Lemma leg_up x a b : (b < List.length (diff x))%nat -> (a < b)%nat ->
  UpCross (diff x) 0 a -> (forall i, (a < i < b)%nat -> ~ Crossing (diff x) 0 i) ->
  rising x (S a) (S b) /\ at_ x (S a) < at_ x (S b).
Proof.
  intros Hb Hab [H1 [H2 H3]] Hno.
  assert (Hle : forall m, (S a <= m <= b)%nat -> 0 <= at_ (diff x) m).
  { intros m Hm. apply back_ge_at. apply (no_down _ _ (S a) b); auto.
    - apply back_ge_gt. exact H2.
    - intros i Hi Hu. apply (Hno i); [lia|]. right. exact Hu. }
  rewrite diff_length in *.
  assert (Hf : rising x (S a) (S b)).
  { intros k Hk. specialize (Hle k). rewrite diff_nth in Hle by lia. lia. }
  split; [exact Hf|].
  assert (Hmon : forall d, (S (S a) + d <= S b)%nat -> at_ x (S (S a)) <= at_ x (S (S a) + d)%nat).
  { induction d as [|d IH]; intros Hd; [rewrite Nat.add_0_r; lia|].
    rewrite Nat.add_succ_r. specialize (Hf (S (S a) + d)%nat). lia. }
  rewrite diff_nth in H2 by lia.
  specialize (Hmon (b - S a)%nat). replace (S (S a) + (b - S a))%nat with (S b) in Hmon by lia. lia.
Qed.

Lemma legs_scan x : forall l pre (up : bool), scan_of (diff x) 0 = pre ++ l -> l <> [] ->
  alternating (if up then UpCross (diff x) 0 else DownCross (diff x) 0)
              (if up then DownCross (diff x) 0 else UpCross (diff x) 0) l ->
  legs x up (map S l ++ [(List.length x - 1)%nat]).
Proof.
  induction l as [|a l IH]; intros pre up E Hne Halt; [congruence|].
  destruct Halt as [Ha Halt].
  assert (Hlen : (S a < List.length (diff x))%nat) by (destruct up; apply Ha).
  assert (Hin : forall i, Crossing (diff x) 0 i -> In i (pre ++ a :: l))
    by (intros i Hi; rewrite <- E; apply scan_of_crossing; exact Hi).
  pose proof (scan_of_increasing (diff x) 0) as Hinc. rewrite E in Hinc.
  destruct l as [|b l].
  - cbn [map app legs].
    assert (Hno : forall i, (a < i)%nat -> ~ Crossing (diff x) 0 i).
    { intros i Hi Hc. apply Hin in Hc. apply increasing_app in Hinc.
      destruct Hinc as [_ [_ Hx]]. apply in_app_or in Hc. destruct Hc as [Hc|[Hc|[]]]; [|lia].
      assert (i < a)%nat by (apply Hx; simpl; auto). lia. }
    rewrite diff_length in Hlen.
    replace (List.length x - 1)%nat with (S (List.length x - 2)) by lia.
    split; [|exact I]. destruct up.
    + apply leg_up; auto; [rewrite diff_length; lia|lia|intros; apply Hno; lia].
    + apply leg_down; auto; [rewrite diff_length; lia|lia|intros; apply Hno; lia].
  - assert (Hno : forall i, (a < i < b)%nat -> ~ Crossing (diff x) 0 i)
      by (apply (scan_of_consecutive (diff x) pre a b l); exact E).
    assert (Hab : (a < b)%nat).
    { apply increasing_app in Hinc. destruct Hinc as [_ [Hx _]].
      apply increasing_cons in Hx. apply Hx. left. reflexivity. }
    assert (Hb : (b < List.length (diff x))%nat).
    { destruct Halt as [Hb _]. destruct up; destruct Hb as [Hb _]; lia. }
    cbn [map app legs]. split.
    + destruct up; [apply leg_up|apply leg_down]; auto.
    + apply (IH (pre ++ [a])).
      * rewrite <- cons_app_one. exact E.
      * discriminate.
      * destruct up; exact Halt.
Qed.

(* the piece before the first extreme *)
Lemma first_leg_up x a l : scan_of (diff x) 0 = a :: l -> DownCross (diff x) 0 a ->
  rising x 0 (S a) /\ (at_ x 0 <> at_ x 1 -> at_ x 0 < at_ x (S a)).
Proof.
  intros E Ha.
  assert (Hno : forall i, (i < a)%nat -> ~ Crossing (diff x) 0 i).
  { intros i Hi Hc. apply scan_of_crossing in Hc. rewrite E in Hc.
    pose proof (scan_of_increasing (diff x) 0) as Hinc. rewrite E in Hinc.
    apply increasing_cons in Hinc. destruct Hinc as [Hx _].
    destruct Hc as [->|Hc]; [lia|]. specialize (Hx _ Hc). lia. }
  destruct Ha as [H1 [H2 H3]].
  assert (Hge : 0 <= at_ (diff x) 0).
  { destruct (Z_le_gt_dec 0 (at_ (diff x) 0)) as [|Hlt]; auto. exfalso.
    assert (Hle : forall m, (0 <= m <= a)%nat -> back_le (diff x) 0 m).
    { intros m Hm. apply (no_up _ _ 0%nat a); auto; try lia.
      - apply back_le_lt. lia.
      - intros i Hi Hu. apply (Hno i); [lia|]. left. exact Hu. }
    assert (Hz : forall d, (d <= a)%nat -> forall m, (a - d <= m <= a)%nat -> at_ (diff x) m = 0).
    { induction d as [|d IH]; intros Hd m Hm.
      - assert (m = a) by lia. subst m.
        pose proof (back_le_at _ _ _ (Hle a ltac:(lia))).
        assert (0 <= at_ (diff x) a) by (apply H3; intros; lia). lia.
      - destruct (Nat.eq_dec m (a - S d)) as [->|]; [|apply IH; lia].
        pose proof (back_le_at _ _ _ (Hle (a - S d)%nat ltac:(lia))).
        assert (0 <= at_ (diff x) (a - S d)); [|lia].
        apply H3; [lia|]. intros p Hp. apply IH; lia. }
    specialize (Hz a ltac:(lia) 0%nat). lia. }
  assert (Hall : forall m, (0 <= m <= a)%nat -> 0 <= at_ (diff x) m).
  { intros m Hm. apply back_ge_at. apply (no_down _ _ 0%nat a); auto; try lia.
    - intros k Hk Hz. replace k with 0%nat by lia. exact Hge.
    - intros i Hi Hu. apply (Hno i); [lia|]. right. exact Hu. }
  rewrite diff_length in H1.
  assert (Hr : rising x 0 (S a)).
  { intros k Hk. specialize (Hall k). rewrite diff_nth in Hall by lia. lia. }
  split; [exact Hr|]. intros Hne.
  assert (Hmon : forall d, (1 + d <= S a)%nat -> at_ x 1 <= at_ x (1 + d)).
  { induction d as [|d IH]; intros Hd; [simpl; lia|].
    rewrite Nat.add_succ_r. specialize (Hr (1 + d)%nat). lia. }
  specialize (Hmon a ltac:(lia)). specialize (Hr 0%nat ltac:(lia)).
  change (1 + a)%nat with (S a) in Hmon. lia.
Qed.

Lemma first_leg_down x a l : scan_of (diff x) 0 = a :: l -> UpCross (diff x) 0 a ->
  falling x 0 (S a) /\ (at_ x 0 <> at_ x 1 -> at_ x (S a) < at_ x 0).
Proof.
  intros E Ha.
  assert (Hno : forall i, (i < a)%nat -> ~ Crossing (diff x) 0 i).
  { intros i Hi Hc. apply scan_of_crossing in Hc. rewrite E in Hc.
    pose proof (scan_of_increasing (diff x) 0) as Hinc. rewrite E in Hinc.
    apply increasing_cons in Hinc. destruct Hinc as [Hx _].
    destruct Hc as [->|Hc]; [lia|]. specialize (Hx _ Hc). lia. }
  destruct Ha as [H1 [H2 H3]].
  assert (Hge : at_ (diff x) 0 <= 0).
  { destruct (Z_le_gt_dec (at_ (diff x) 0) 0) as [|Hlt]; auto. exfalso.
    assert (Hle : forall m, (0 <= m <= a)%nat -> back_ge (diff x) 0 m).
    { intros m Hm. apply (no_down _ _ 0%nat a); auto; try lia.
      - apply back_ge_gt. lia.
      - intros i Hi Hu. apply (Hno i); [lia|]. right. exact Hu. }
    assert (Hz : forall d, (d <= a)%nat -> forall m, (a - d <= m <= a)%nat -> at_ (diff x) m = 0).
    { induction d as [|d IH]; intros Hd m Hm.
      - assert (m = a) by lia. subst m.
        pose proof (back_ge_at _ _ _ (Hle a ltac:(lia))).
        assert (at_ (diff x) a <= 0) by (apply H3; intros; lia). lia.
      - destruct (Nat.eq_dec m (a - S d)) as [->|]; [|apply IH; lia].
        pose proof (back_ge_at _ _ _ (Hle (a - S d)%nat ltac:(lia))).
        assert (at_ (diff x) (a - S d) <= 0); [|lia].
        apply H3; [lia|]. intros p Hp. apply IH; lia. }
    specialize (Hz a ltac:(lia) 0%nat). lia. }
  assert (Hall : forall m, (0 <= m <= a)%nat -> at_ (diff x) m <= 0).
  { intros m Hm. apply back_le_at. apply (no_up _ _ 0%nat a); auto; try lia.
    - intros k Hk Hz. replace k with 0%nat by lia. exact Hge.
    - intros i Hi Hu. apply (Hno i); [lia|]. left. exact Hu. }
  rewrite diff_length in H1.
  assert (Hr : falling x 0 (S a)).
  { intros k Hk. specialize (Hall k). rewrite diff_nth in Hall by lia. lia. }
  split; [exact Hr|]. intros Hne.
  assert (Hmon : forall d, (1 + d <= S a)%nat -> at_ x (1 + d) <= at_ x 1).
  { induction d as [|d IH]; intros Hd; [simpl; lia|].
    rewrite Nat.add_succ_r. specialize (Hr (1 + d)%nat). lia. }
  specialize (Hmon a ltac:(lia)). specialize (Hr 0%nat ltac:(lia)).
  change (1 + a)%nat with (S a) in Hmon. lia.
Qed.

(* ---- findtp ---------------------------------------------------------------------- *)
Lemma geti_at x i : (i < List.length x)%nat -> geti x i = Ok (at_ x i).
Proof.
  intros H. unfold geti. rewrite (nth_error_nth' x 0) by auto. reflexivity.
Qed.

(* characterisation of the core of findtp for the default kind *)
Lemma findtp_core_eq m x kind : (2 <= List.length x)%nat ->
  match kind with Some k => String.eqb k "astm" | None => false end = false ->
  findtp_core m x kind =
  Ok (match scan_of (diff x) 0 with
      | i0 :: i1 :: r =>
          Some ((if at_ x (S i1) <? at_ x (S i0) then [0%nat] else [])
                ++ map S (i0 :: i1 :: r) ++ [(List.length x - 1)%nat])
      | _ => None end).
Proof.
  intros H Hk. unfold findtp_core. rewrite findextrema_eq by auto. cbn [bind].
  destruct (scan_of (diff x) 0) as [|i0 [|i1 r]] eqn:E; [reflexivity|reflexivity|].
  assert (Hi : forall i, In i (i0 :: i1 :: r) -> (S (S i) < List.length x)%nat).
  { intros i Hi. rewrite <- E in Hi. apply scan_of_crossing in Hi.
    assert (S i < List.length (diff x))%nat by (destruct Hi as [[? _]|[? _]]; auto).
    rewrite diff_length in *. lia. }
  cbn [map].
  rewrite (geti_at x (S i0)), (geti_at x (S i1)).
  - cbn [bind]. rewrite Hk.
    replace (at_ x (S i1) <? at_ x (S i0)) with (at_ x (S i0) >? at_ x (S i1)) by lia.
    destruct (at_ x (S i0) >? at_ x (S i1)); reflexivity.
  - specialize (Hi i1). simpl in Hi. lia.
  - specialize (Hi i0). simpl in Hi. lia.
Qed.

Lemma scan_dir x i0 i1 r : scan_of (diff x) 0 = i0 :: i1 :: r ->
  (DownCross (diff x) 0 i0 /\ at_ x (S i1) < at_ x (S i0) /\
     alternating (DownCross (diff x) 0) (UpCross (diff x) 0) (i0 :: i1 :: r)) \/
  (UpCross (diff x) 0 i0 /\ at_ x (S i0) < at_ x (S i1) /\
     alternating (UpCross (diff x) 0) (DownCross (diff x) 0) (i0 :: i1 :: r)).
Proof.
  intros E. pose proof (scan_of_consecutive (diff x) [] i0 i1 r E) as Hno.
  pose proof (scan_of_increasing (diff x) 0) as Hinc. rewrite E in Hinc.
  apply increasing_cons in Hinc. destruct Hinc as [Hx _].
  specialize (Hx i1 (or_introl eq_refl)).
  destruct (scan_of_alternating (diff x) 0) as [H|H]; rewrite E in H; [right|left];
    (split; [apply H|]); (split; [|exact H]);
    destruct H as [H1 [H2 H3]]; assert (Hb : (i1 < List.length (diff x))%nat) by (destruct H2 as [? _]; lia).
  - apply (leg_up x i0 i1); auto.
  - apply (leg_down x i0 i1); auto.
Qed.

Lemma last_snoc {A} (l : list A) a d : last (l ++ [a]) d = a.
Proof. apply last_last. Qed.

Lemma increasing_tp x r : (2 <= List.length x)%nat ->
  scan_of (diff x) 0 = r -> r <> [] ->
  increasing (map S r ++ [(List.length x - 1)%nat]) /\
  increasing (0%nat :: map S r ++ [(List.length x - 1)%nat]).
Proof.
  intros Hx E Hr.
  assert (H1 : increasing (map S r ++ [(List.length x - 1)%nat])).
  { apply increasing_app. split; [|split].
    - apply increasing_map_S. rewrite <- E. apply scan_of_increasing.
    - apply increasing_cons. split; [intros b []|apply increasing_nil].
    - intros a b Ha [<-|[]]. apply in_map_iff in Ha. destruct Ha as [i [<- Hi]].
      rewrite <- E in Hi. apply scan_of_crossing in Hi.
      assert (S i < List.length (diff x))%nat by (destruct Hi as [[? _]|[? _]]; auto).
      rewrite diff_length in *. lia. }
  split; [exact H1|]. apply increasing_cons. split; [|exact H1].
  intros b Hb. apply in_app_or in Hb. destruct Hb as [Hb|[<-|[]]]; [|lia].
  apply in_map_iff in Hb. destruct Hb as [i [<- _]]. lia.
Qed.

(* the main structure theorem, weak on the first leg *)
Lemma findtp_core_legs m x kind ind : (2 <= List.length x)%nat ->
  match kind with Some k => String.eqb k "astm" | None => false end = false ->
  findtp_core m x kind = Ok (Some ind) ->
  increasing ind /\ (3 <= List.length ind)%nat /\
  last ind 0%nat = (List.length x - 1)%nat /\
  (forall e, TurnsUp x e \/ TurnsDown x e -> In e ind) /\
  (forall e, In e ind -> e = 0%nat \/ e = (List.length x - 1)%nat \/ TurnsUp x e \/ TurnsDown x e) /\
  legs x false (tl ind) /\
  rising x (nth 0 ind 0%nat) (nth 1 ind 0%nat) /\
  at_ x (nth 0 ind 0%nat) <= at_ x (nth 1 ind 0%nat) /\
  (at_ x 0 <> at_ x 1 -> legs x true ind).
Proof.
  intros Hx Hk. rewrite findtp_core_eq by auto.
  destruct (scan_of (diff x) 0) as [|i0 [|i1 r]] eqn:E; try discriminate.
  intros H. injection H as <-.
  destruct (increasing_tp x _ Hx E) as [Hinc1 Hinc2]; [discriminate|].
  destruct (findextrema_exact m x Hx) as [l [Hl [_ [Hmem _]]]].
  rewrite findextrema_eq in Hl by auto. injection Hl as <-. rewrite E in Hmem.
  assert (Hin : forall e, TurnsUp x e \/ TurnsDown x e ->
     In e ((if at_ x (S i1) <? at_ x (S i0) then [0%nat] else [])
                ++ map S (i0 :: i1 :: r) ++ [(List.length x - 1)%nat])).
  { intros e He. apply in_or_app. right. apply in_or_app. left. apply Hmem. exact He. }
  assert (Hback : forall e, In e ((if at_ x (S i1) <? at_ x (S i0) then [0%nat] else [])
                ++ map S (i0 :: i1 :: r) ++ [(List.length x - 1)%nat]) ->
      e = 0%nat \/ e = (List.length x - 1)%nat \/ TurnsUp x e \/ TurnsDown x e).
  { intros e He. apply in_app_or in He. destruct He as [He|He].
    - destruct (_ <? _) in He; [destruct He as [<-|[]]; auto|destruct He].
    - apply in_app_or in He. destruct He as [He|[<-|[]]]; auto.
      right. right. apply Hmem. exact He. }
  destruct (scan_dir x i0 i1 r E) as [[Hc [Hlt Halt]]|[Hc [Hlt Halt]]].
  - replace (at_ x (S i1) <? at_ x (S i0)) with true in * by lia.
    pose proof (legs_scan x (i0 :: i1 :: r) [] false E ltac:(discriminate) Halt) as HL.
    destruct (first_leg_up x i0 _ E Hc) as [Hr Hs].
    cbn [app map] in *.
    split; [exact Hinc2|]. split; [simpl; lia|].
    split.
    { change (0%nat :: S i0 :: S i1 :: map S r ++ [(List.length x - 1)%nat])
        with ((0%nat :: S i0 :: S i1 :: map S r) ++ [(List.length x - 1)%nat]).
      apply last_snoc. }
    split; [exact Hin|]. split; [exact Hback|].
    cbn [tl nth]. split; [exact HL|]. split; [exact Hr|]. split.
    + assert (Hmon : forall d, (d <= S i0)%nat -> at_ x 0 <= at_ x d).
      { induction d as [|d IH]; intros Hd; [simpl; lia|]. specialize (Hr d). lia. }
      apply Hmon. lia.
    + intros Hne. cbn [legs]. split; [split; auto|exact HL].
  - replace (at_ x (S i1) <? at_ x (S i0)) with false in * by lia.
    pose proof (legs_scan x (i0 :: i1 :: r) [] true E ltac:(discriminate) Halt) as HL.
    cbn [app map] in *.
    split; [exact Hinc1|]. split; [simpl; rewrite app_length; simpl; lia|].
    split.
    { change (S i0 :: S i1 :: map S r ++ [(List.length x - 1)%nat])
        with ((S i0 :: S i1 :: map S r) ++ [(List.length x - 1)%nat]).
      apply last_snoc. }
    split; [exact Hin|]. split; [exact Hback|].
    cbn [tl nth]. destruct HL as [[HL1 HL1'] HL2].
    split; [exact HL2|]. split; [exact HL1|]. split; [lia|].
    intros _. split; [split; auto|exact HL2].
Qed.

Lemma findtp0_never_fails m x neg kind : (2 <= List.length x)%nat ->
  exists r, findtp0 m x neg kind = Ok r.
Proof.
  intros Hx. unfold findtp0. destruct neg; [eauto|].
  destruct (match kind with Some k => String.eqb k "astm" | None => false end) eqn:Hk.
  - destruct kind as [k|]; [|discriminate]. apply String.eqb_eq in Hk. subst k.
    unfold findtp_core. rewrite findextrema_eq by auto. cbn [bind].
    destruct (scan_of (diff x) 0) as [|i0 [|i1 r]] eqn:E; [simpl; eauto|simpl; eauto|].
    assert (Hi : forall i, In i (i0 :: i1 :: r) -> (S (S i) < List.length x)%nat).
    { intros i Hi. rewrite <- E in Hi. apply scan_of_crossing in Hi.
      assert (S i < List.length (diff x))%nat by (destruct Hi as [[? _]|[? _]]; auto).
      rewrite diff_length in *. lia. }
    cbn [map].
    pose proof (Hi i0 ltac:(simpl; auto)). pose proof (Hi i1 ltac:(simpl; auto)).
    rewrite (geti_at x (S i0)), (geti_at x (S i1)) by lia.
    cbn [bind]. simpl. eauto.
  - destruct (findtp_core m x kind) as [[ind|]|e] eqn:Ec.
    + cbn [bind].
      destruct (findtp_core_legs m x kind ind Hx Hk Ec) as [Hinc [Hlen [_ [_ [Hb _]]]]].
      unfold findtp_wave. destruct kind as [k|]; [|simpl; eauto].
      destruct (string_in k ["mw"; "Mw"]%string); [|simpl; eauto].
      destruct ind as [|a [|b t]]; simpl in Hlen; try lia.
      unfold geti at 1 2. cbn [nth_error bind].
      assert (Hlt : forall e, In e (a :: b :: t) -> (e < List.length x)%nat).
      { intros e He. destruct (Hb e He) as [->|[->|[[_ [H _]]|[_ [H _]]]]]; lia. }
      rewrite (geti_at x a), (geti_at x b) by (apply Hlt; simpl; auto).
      cbn [bind]. simpl. eauto.
    + simpl. eauto.
    + rewrite findtp_core_eq in Ec by auto. discriminate.
Qed.

Lemma findtp0_default m x ind : (2 <= List.length x)%nat ->
  findtp0 m x false None = Ok (Some ind) -> findtp_core m x None = Ok (Some ind).
Proof.
  intros Hx. unfold findtp0. destruct (findtp_core m x None) as [[i|]|e]; cbn [bind];
    try discriminate. simpl. intros H; exact H.
Qed.

Lemma findtp0_none m x : (2 <= List.length x)%nat ->
  findtp0 m x false None = Ok None <->
  (forall e1 e2, (TurnsUp x e1 \/ TurnsDown x e1) -> (TurnsUp x e2 \/ TurnsDown x e2) -> e1 = e2).
Proof.
  intros Hx. destruct (findextrema_exact m x Hx) as [l [Hl [Hinc [Hmem _]]]].
  rewrite findextrema_eq in Hl by auto. injection Hl as <-.
  unfold findtp0. rewrite findtp_core_eq by auto. cbn [bind].
  destruct (scan_of (diff x) 0) as [|i0 [|i1 r]].
  - split; auto. intros _ e1 e2 H1. apply Hmem in H1. destruct H1.
  - split; auto. intros _ e1 e2 H1 H2. apply Hmem in H1. apply Hmem in H2.
    simpl in H1, H2. lia.
  - cbn [bind]. split; [discriminate|]. intros H.
    specialize (H (S i0) (S i1)). rewrite <- !Hmem in H. simpl in H.
    apply (increasing_map_S (i0 :: i1 :: r)) in Hinc. apply increasing_cons in Hinc.
    destruct Hinc as [Hx1 _]. specialize (Hx1 i1 (or_introl eq_refl)).
    assert (S i0 = S i1) by (apply H; auto). lia.
Qed.

(* ---- wave kinds of findtp ---------------------------------------------------------- *)
Lemma legs_tl x up l : legs x up l -> legs x (negb up) (tl l).
Proof. destruct l as [|a [|b t]]; simpl; tauto. Qed.

Lemma legs_app x up l s : legs x up (l ++ s) -> legs x up l.
Proof.
  revert up. induction l as [|a [|b t] IH]; intros up H; simpl in *; auto.
  destruct H as [H1 H2]. split; [exact H1|]. apply IH. exact H2.
Qed.

Lemma removelast_legs x up l : legs x up l -> legs x up (removelast l).
Proof.
  destruct l as [|a t]; [auto|].
  destruct (removelast_app_one (a :: t)) as [z Hz]; [discriminate|].
  intros H. rewrite Hz in H. apply legs_app in H. exact H.
Qed.

Lemma removelast_increasing l : increasing l -> increasing (removelast l).
Proof.
  destruct l as [|a t]; [auto|].
  destruct (removelast_app_one (a :: t)) as [z Hz]; [discriminate|].
  intros H. rewrite Hz in H. apply increasing_app in H. tauto.
Qed.

Lemma findtp0_wave m x k ind : (2 <= List.length x)%nat -> at_ x 0 <> at_ x 1 ->
  (k = "mw" \/ k = "Mw")%string ->
  findtp0 m x false (Some k) = Ok (Some ind) ->
  increasing ind /\ Nat.odd (List.length ind) = true /\
  legs x (String.eqb k "mw") ind.
Proof.
  intros Hx Hne Hk. unfold findtp0.
  destruct (findtp_core m x (Some k)) as [[i|]|e] eqn:Ec; cbn [bind]; try discriminate.
  assert (Hast : String.eqb k "astm" = false) by (destruct Hk; subst k; reflexivity).
  destruct (findtp_core_legs m x (Some k) i Hx Hast Ec)
    as [Hinc [Hlen [_ [_ [Hb [_ [_ [_ HL]]]]]]]].
  specialize (HL Hne).
  unfold findtp_wave.
  replace (string_in k ["mw"; "Mw"]%string) with true by (destruct Hk; subst k; reflexivity).
  destruct i as [|a [|b t]]; simpl in Hlen; try lia.
  unfold geti at 1 2. cbn [nth_error bind].
  assert (Hlt : forall e, In e (a :: b :: t) -> (e < List.length x)%nat).
  { intros e He. destruct (Hb e He) as [->|[->|[[_ [H _]]|[_ [H _]]]]]; lia. }
  rewrite (geti_at x a), (geti_at x b) by (apply Hlt; simpl; auto).
  cbn [bind].
  assert (Hab : at_ x a < at_ x b) by (destruct HL as [[_ H] _]; exact H).
  replace (at_ x a >? at_ x b) with false by lia. rewrite xorb_false_l.
  set (ind1 := if String.eqb k "Mw" then tl (a :: b :: t) else a :: b :: t).
  assert (H1 : increasing ind1 /\ legs x (String.eqb k "mw") ind1 /\ ind1 <> []).
  { unfold ind1. destruct Hk; subst k; cbn [String.eqb Ascii.eqb Bool.eqb].
    - split; [exact Hinc|]. split; [exact HL|discriminate].
    - split; [apply increasing_tl; exact Hinc|]. split; [exact (legs_tl x true _ HL)|discriminate]. }
  destruct H1 as [H1 [H2 H3]].
  destruct (Nat.odd (List.length ind1)) eqn:Eo; intros H; injection H as <-.
  - split; [exact H1|split; [exact Eo|exact H2]].
  - split; [apply removelast_increasing; auto|]. split; [|apply removelast_legs; auto].
    rewrite removelast_length. destruct ind1 as [|z zs]; [congruence|].
    simpl List.length in *. rewrite Nat.sub_succ, Nat.sub_0_r.
    rewrite Nat.odd_succ in Eo. rewrite <- Nat.negb_even, Eo. reflexivity.
Qed.

(* ---- findextrema: monotone between the extremes; findtp(kind='astm') -------------- *)
Lemma findextrema_legs m x l : (2 <= List.length x)%nat -> findextrema m x = Ok l ->
  exists up, legs x up l.
Proof.
  intros Hx. rewrite findextrema_eq by auto. intros H; injection H as <-.
  destruct (scan_of (diff x) 0) as [|i0 r] eqn:E; [exists true; exact I|].
  destruct (scan_of_alternating (diff x) 0) as [H|H]; rewrite E in H.
  - exists true. apply (legs_app x true _ [(List.length x - 1)%nat]).
    apply (legs_scan x _ [] true); auto; discriminate.
  - exists false. apply (legs_app x false _ [(List.length x - 1)%nat]).
    apply (legs_scan x _ [] false); auto; discriminate.
Qed.

Lemma findtp0_astm m x ind : (2 <= List.length x)%nat -> at_ x 0 <> at_ x 1 ->
  findtp0 m x false (Some "astm"%string) = Ok (Some ind) ->
  increasing ind /\ hd 1%nat ind = 0%nat /\ last ind 0%nat = (List.length x - 1)%nat /\
  (forall e, In e ind <-> e = 0%nat \/ e = (List.length x - 1)%nat \/ TurnsUp x e \/ TurnsDown x e) /\
  exists up, legs x up ind.
Proof.
  intros Hx Hne. unfold findtp0, findtp_core. rewrite findextrema_eq by auto. cbn [bind].
  destruct (findextrema_exact m x Hx) as [l [Hl [_ [Hmem _]]]].
  rewrite findextrema_eq in Hl by auto. injection Hl as <-.
  destruct (scan_of (diff x) 0) as [|i0 [|i1 r]] eqn:E; [discriminate|discriminate|].
  assert (Hi : forall i, In i (i0 :: i1 :: r) -> (S (S i) < List.length x)%nat).
  { intros i Hi. rewrite <- E in Hi. apply scan_of_crossing in Hi.
    assert (S i < List.length (diff x))%nat by (destruct Hi as [[? _]|[? _]]; auto).
    rewrite diff_length in *. lia. }
  destruct (increasing_tp x _ Hx E) as [_ Hinc]; [discriminate|].
  cbn [map].
  pose proof (Hi i0 ltac:(simpl; auto)). pose proof (Hi i1 ltac:(simpl; auto)).
  rewrite (geti_at x (S i0)), (geti_at x (S i1)) by lia.
  cbn [bind]. change (String.eqb "astm" "astm") with true. cbn iota.
  change (Nat.eqb (S i0) 0) with false. cbn iota. cbn [bind findtp_wave].
  change (string_in "astm" ["mw"; "Mw"]%string) with false. cbn iota. cbn [bind].
  intros HH. injection HH as <-.
  split; [exact Hinc|]. split; [reflexivity|]. split.
  { change (0%nat :: S i0 :: S i1 :: map S r ++ [(List.length x - 1)%nat])
        with ((0%nat :: S i0 :: S i1 :: map S r) ++ [(List.length x - 1)%nat]).
      apply last_snoc. }
  split.
  { intros e. specialize (Hmem e). cbn [map] in Hmem.
    change (0%nat :: S i0 :: S i1 :: map S r ++ [(List.length x - 1)%nat])
      with ([0%nat] ++ (S i0 :: S i1 :: map S r) ++ [(List.length x - 1)%nat]).
    rewrite !in_app_iff, Hmem. simpl. intuition. }
  destruct (scan_dir x i0 i1 r E) as [[Hc [Hlt Halt]]|[Hc [Hlt Halt]]].
  - exists true.
    pose proof (legs_scan x (i0 :: i1 :: r) [] false E ltac:(discriminate) Halt) as HL.
    destruct (first_leg_up x i0 _ E Hc) as [Hr Hs]. cbn [map app] in HL.
    split; [split; auto|exact HL].
  - exists false.
    pose proof (legs_scan x (i0 :: i1 :: r) [] true E ltac:(discriminate) Halt) as HL.
    destruct (first_leg_down x i0 _ E Hc) as [Hr Hs]. cbn [map app] in HL.
    split; [split; auto|exact HL].
Qed.
