(* Proofs about rfcfilter (methods 0 and 1). *)
From Coq Require Import String ZifyBool.
From Verif Require Import Base CrossModel CrossSpec ListFacts CrossProofs TpProofs TcProofs
  RfcModel RfcSpec.
Local Open Scope list_scope.
Local Open Scope Z_scope.

Lemma sy_neg x up k : sy x (negb up) k = - sy x up k.
Proof. unfold sy. destruct up; simpl; lia. Qed.

(* the same notions with a single threshold H *)
Definition LegH x H up a b := (a < b)%nat /\ H <= sy x up b - sy x up a /\
  forall k, (a <= k <= b)%nat -> sy x up k <= sy x up b.
Definition CalmH x H up a b :=
  (forall k, (a < k <= b)%nat -> sy x up a < sy x up k) /\
  (forall k l, (a <= k <= l)%nat -> (l <= b)%nat -> sy x up k - sy x up l < H).
Definition FirstH x H up b := exists f, (0 < f <= b)%nat /\
    (forall k, (k < f)%nat -> Z.abs (at_ x k - at_ x 0) < H) /\
    H <= sy x up f - sy x up 0 /\
    (forall k l, (f <= k <= l)%nat -> (l <= b)%nat -> sy x up k - sy x up l < H).

Fixpoint RC (x : list Z) (H : Z) (up : bool) (rt : list nat) : Prop :=
  match rt with
  | [] => False
  | [b] => b = 0%nat
  | b :: ((a :: t) as r) =>
      LegH x H (negb up) a b /\ (t = [] -> FirstH x H (negb up) b) /\
      (t <> [] -> CalmH x H (negb up) a b) /\ RC x H (negb up) r
  end.

Definition Cur (x : list Z) (H : Z) (up : bool) (p t0 ti : nat) (rt' : list nat) : Prop :=
  (p < t0 < ti)%nat /\ H <= sy x up t0 - sy x up p /\
  (forall k, (p <= k <= t0)%nat -> sy x up k <= sy x up t0) /\
  (forall k, (t0 < k < ti)%nat -> sy x up k < sy x up t0 /\ sy x up t0 - sy x up k < H) /\
  (rt' = [] -> FirstH x H up (ti - 1)) /\
  (rt' <> [] -> CalmH x H up p (ti - 1)).

Definition Inv (x : list Z) (H : Z) (ti t0 : nat) (y0 z0 : Z) (rt : list nat) : Prop :=
  y0 = at_ x t0 /\ (t0 < ti)%nat /\
  ((z0 = 0 /\ t0 = 0%nat /\ rt = [0%nat] /\
    forall k, (k < ti)%nat -> Z.abs (at_ x k - at_ x 0) < H)
   \/ exists up p rt', z0 = (if (up : bool) then 1 else -1) /\ rt = p :: rt' /\
      (List.length rt <= S p)%nat /\ RC x H up rt /\ Cur x H up p t0 ti rt').

Lemma sy_at0 x up k : Z.abs (at_ x k - at_ x 0) = Z.abs (sy x up k - sy x up 0).
Proof. unfold sy. destruct up; lia. Qed.

(* one step of the abstract filter *)
Lemma inv_step_zero x H ti yi : 0 < H -> (0 < ti)%nat -> yi = at_ x ti ->
  (forall k, (k < ti)%nat -> Z.abs (at_ x k - at_ x 0) < H) ->
  (yi <= at_ x 0 - H -> Inv x H (S ti) ti yi (-1) [0%nat]) /\
  (at_ x 0 + H <= yi -> Inv x H (S ti) ti yi 1 [0%nat]) /\
  (at_ x 0 - H < yi < at_ x 0 + H -> Inv x H (S ti) 0 (at_ x 0) 0 [0%nat]).
Proof.
  intros HH Hti Hyi Hclose.
  assert (Hfar : forall up : bool, H <= sy x up ti - sy x up 0 ->
            Inv x H (S ti) ti yi (if up then 1 else -1) [0%nat]).
  { intros up Hup. split; [exact Hyi|]. split; [lia|]. right.
    exists up, 0%nat, []. split; [reflexivity|]. split; [reflexivity|].
    split; [simpl; lia|]. split; [reflexivity|].
    split; [lia|]. split; [exact Hup|]. split.
    { intros k Hk. destruct (Nat.eq_dec k ti) as [->|]; [lia|].
      specialize (Hclose k ltac:(lia)). rewrite (sy_at0 x up) in Hclose. lia. }
    split; [intros k Hk; lia|]. split; [|congruence].
    intros _. exists ti. split; [lia|]. split; [exact Hclose|]. split; [exact Hup|].
    intros k l Hk Hl. replace k with l by lia. lia. }
  split; [|split].
  - intros Hle. apply (Hfar false). unfold sy. lia.
  - intros Hle. apply (Hfar true). unfold sy. lia.
  - intros Hin. split; [reflexivity|]. split; [lia|]. left.
    split; [reflexivity|]. split; [reflexivity|]. split; [reflexivity|].
    intros k Hk. destruct (Nat.eq_dec k ti) as [->|]; [lia|apply Hclose; lia].
Qed.

Lemma inv_step_flip x H up p t0 ti rt' : 0 < H ->
  (List.length (p :: rt') <= S p)%nat ->
  RC x H up (p :: rt') -> Cur x H up p t0 ti rt' ->
  H <= sy x up t0 - sy x up ti ->
  Inv x H (S ti) ti (at_ x ti) (if up then -1 else 1) (t0 :: p :: rt').
Proof.
  intros HH Hlen Hrc [H1 [H2 [H3 [H4 [H5 H6]]]]] Hfar.
  split; [reflexivity|]. split; [lia|]. right.
  exists (negb up), t0, (p :: rt').
  split; [destruct up; reflexivity|]. split; [reflexivity|].
  split; [simpl in *; lia|]. split.
  { cbn [RC]. rewrite negb_involutive. split; [split; [lia|split; auto]|].
    split; [|split; [|exact Hrc]].
    - intros E. destruct (H5 E) as [f [F1 [F2 [F3 F4]]]].
      destruct (Nat.le_gt_cases f t0) as [Hf|Hf].
      + exists f. split; [lia|]. split; [exact F2|]. split; [exact F3|].
        intros k l Hk Hl. apply F4; lia.
      + exfalso. specialize (F2 t0 Hf). rewrite (sy_at0 x up) in F2.
        assert (Hp0 : p = 0%nat) by (subst rt'; exact Hrc). subst p. lia.
    - intros E. destruct (H6 E) as [C1 C2]. split.
      + intros k Hk. apply C1. lia.
      + intros k l Hk Hl. apply C2; lia. }
  split; [lia|]. rewrite !sy_neg. split; [lia|]. split.
  { intros k Hk. rewrite sy_neg.
    destruct (Nat.eq_dec k t0) as [->|]; [lia|].
    destruct (Nat.eq_dec k ti) as [->|]; [lia|].
    specialize (H4 k ltac:(lia)). lia. }
  split; [intros k Hk; lia|]. split; [discriminate|]. intros _. split.
  - intros k Hk. rewrite !sy_neg. destruct (Nat.eq_dec k ti) as [->|]; [lia|].
    specialize (H4 k ltac:(lia)). lia.
  - intros k l Hk Hl. rewrite !sy_neg.
    assert (Hl' : sy x up l <= sy x up t0).
    { destruct (Nat.eq_dec l t0) as [->|]; [lia|].
      destruct (Nat.eq_dec l ti) as [->|]; [lia|]. specialize (H4 l ltac:(lia)). lia. }
    destruct (Nat.eq_dec k t0) as [->|]; [lia|].
    destruct (Nat.eq_dec k ti) as [->|]; [replace l with ti by lia; lia|].
    specialize (H4 k ltac:(lia)). lia.
Qed.

Lemma inv_step_stay x H up p t0 ti rt' : 0 < H ->
  (List.length (p :: rt') <= S p)%nat ->
  RC x H up (p :: rt') -> Cur x H up p t0 ti rt' ->
  sy x up t0 - sy x up ti < H ->
  (sy x up ti < sy x up t0 ->
     Inv x H (S ti) t0 (at_ x t0) (if up then 1 else -1) (p :: rt')) /\
  (sy x up t0 <= sy x up ti ->
     Inv x H (S ti) ti (at_ x ti) (if up then 1 else -1) (p :: rt')).
Proof.
  intros HH Hlen Hrc [H1 [H2 [H3 [H4 [H5 H6]]]]] Hnear.
  assert (Hall : forall k, (p <= k < ti)%nat -> sy x up k <= sy x up t0).
  { intros k Hk. destruct (Nat.le_gt_cases k t0); [apply H3; lia|].
    specialize (H4 k ltac:(lia)). lia. }
  assert (Hfirst : rt' = [] -> FirstH x H up ti).
  { intros E. destruct (H5 E) as [f [F1 [F2 [F3 F4]]]].
    assert (Hp0 : p = 0%nat) by (subst rt'; exact Hrc).
    exists f. split; [lia|]. split; [exact F2|]. split; [exact F3|].
    intros k l Hk Hl. destruct (Nat.eq_dec l ti) as [->|]; [|apply F4; lia].
    destruct (Nat.eq_dec k ti) as [->|]; [lia|].
    specialize (Hall k ltac:(lia)). lia. }
  assert (Hcalm : rt' <> [] -> CalmH x H up p ti).
  { intros E. destruct (H6 E) as [C1 C2]. split.
    - intros k Hk. destruct (Nat.eq_dec k ti) as [->|]; [lia|apply C1; lia].
    - intros k l Hk Hl. destruct (Nat.eq_dec l ti) as [->|]; [|apply C2; lia].
      destruct (Nat.eq_dec k ti) as [->|]; [lia|].
      specialize (Hall k ltac:(lia)). lia. }
  split; intros Hcmp.
  - split; [reflexivity|]. split; [lia|]. right. exists up, p, rt'.
    split; [reflexivity|]. split; [reflexivity|]. split; [exact Hlen|]. split; [exact Hrc|].
    split; [lia|]. split; [exact H2|]. split; [exact H3|]. split.
    { intros k Hk. destruct (Nat.eq_dec k ti) as [->|]; [lia|apply H4; lia]. }
    rewrite Nat.sub_succ, Nat.sub_0_r. split; auto.
  - split; [reflexivity|]. split; [lia|]. right. exists up, p, rt'.
    split; [reflexivity|]. split; [reflexivity|]. split; [exact Hlen|]. split; [exact Hrc|].
    split; [lia|]. split; [lia|]. split.
    { intros k Hk. destruct (Nat.eq_dec k ti) as [->|]; [lia|].
      specialize (Hall k ltac:(lia)). lia. }
    split; [intros k Hk; lia|].
    rewrite Nat.sub_succ, Nat.sub_0_r. split; auto.
Qed.

(* the loop keeps the invariant; cmp1/cmp2 are <= and < in either order *)
Lemma rf_loop_inv c1 c2 h e x : (e = 0 \/ e = 1) -> 0 < h + e ->
  (forall a b, c1 a b = (a + e <=? b)) -> (forall a b, c2 a b = (a + (1 - e) <=? b)) ->
  forall ys pre t0 y0 z0 rt, x = pre ++ ys -> pre <> [] ->
  Inv x (h + e) (List.length pre) t0 y0 z0 rt ->
  exists t0' y0' z0' rt',
    rf_loop c1 c2 h (List.length x) (List.length pre) ys t0 y0 z0 rt = Ok (t0', y0', rt') /\
    Inv x (h + e) (List.length x) t0' y0' z0' rt'.
Proof.
  intros He HH C1 C2. set (H := h + e) in *.
  induction ys as [|yi ys IH]; intros pre t0 y0 z0 rt Ex Hpre HI.
  - exists t0, y0, z0, rt. split; [reflexivity|]. replace (List.length x) with (List.length pre) by (rewrite Ex, app_nil_r; reflexivity). exact HI.
  - assert (Hyi : yi = at_ x (List.length pre)) by (rewrite Ex, at_middle; reflexivity).
    assert (Hlen : List.length x = (List.length pre + S (List.length ys))%nat)
      by (rewrite Ex, app_length; reflexivity).
    assert (Hnext : forall t1 y1 z1 rt1, Inv x H (S (List.length pre)) t1 y1 z1 rt1 ->
      exists t0' y0' z0' rt',
      rf_loop c1 c2 h (List.length x) (S (List.length pre)) ys t1 y1 z1 rt1 = Ok (t0', y0', rt') /\
      Inv x H (List.length x) t0' y0' z0' rt').
    { intros t1 y1 z1 rt1 HI1.
      assert (El : List.length (pre ++ [yi]) = S (List.length pre)) by (rewrite app_length; simpl; lia).
      rewrite <- El. apply IH.
      - rewrite <- cons_app_one. exact Ex.
      - intros E. apply app_eq_nil in E. destruct E; discriminate.
      - rewrite El. exact HI1. }
    destruct HI as [Hy0 [Ht0 [[Hz [Ht [Hrt Hclose]]]|[up [p [rt' [Hz [Hrt [Hl [Hrc Hcur]]]]]]]]]].
    + subst z0 t0 rt.
      destruct (inv_step_zero x H (List.length pre) yi HH ltac:(lia) Hyi Hclose) as [S1 [S2 S3]].
      cbn [rf_loop]. change (0 =? 0) with true. cbn iota. cbn [bind].
      rewrite !C1. rewrite Hy0.
      destruct (yi + e <=? at_ x 0 - h) eqn:E1; [|destruct (at_ x 0 + h + e <=? yi) eqn:E2];
        cbn -[rf_loop]; apply Hnext.
      * apply S1. lia.
      * apply S2. lia.
      * apply S3. lia.
    + subst rt. pose proof Hcur as [Hpt [Hrange _]].
      cbn [rf_loop]. replace (z0 =? 0) with false by (subst z0; destruct up; reflexivity).
      cbn iota. rewrite !C1, !C2.
      set (ti := List.length pre) in *.
      assert (Hrec : record (List.length x) (p :: rt') t0 = Ok (t0 :: p :: rt')).
      { unfold record. replace (List.length (p :: rt') <? List.length x)%nat with true by lia.
        reflexivity. }
      destruct (Z_lt_le_dec (sy x up t0 - sy x up ti) H) as [Hn|Hf].
      * destruct (inv_step_stay x H up p t0 ti rt' HH Hl Hrc Hcur Hn) as [S1 S2].
        destruct up; subst z0; unfold sy in *.
        -- change (1 =? 1) with true. change (1 =? -1) with false.
           replace (yi + e <=? y0 - h) with false by lia.
           replace (y0 - h + (1 - e) <=? yi) with true by lia.
           cbn -[rf_loop]. subst y0. destruct (at_ x t0 >? yi) eqn:Ec; apply Hnext.
           ++ apply S1. lia.
           ++ rewrite Hyi. apply S2. lia.
        -- change (-1 =? 1) with false. change (-1 =? -1) with true.
           replace (yi + (1 - e) <=? y0 + h) with true by lia.
           cbn -[rf_loop]. subst y0. destruct (at_ x t0 <? yi) eqn:Ec; apply Hnext.
           ++ apply S1. lia.
           ++ rewrite Hyi. apply S2. lia.
      * pose proof (inv_step_flip x H up p t0 ti rt' HH Hl Hrc Hcur Hf) as S1.
        destruct up; subst z0; unfold sy in *.
        -- change (1 =? 1) with true. change (1 =? -1) with false.
           replace (yi + e <=? y0 - h) with true by lia.
           cbn -[rf_loop record]. rewrite Hrec. cbn [bind]. apply Hnext. rewrite Hyi. exact S1.
        -- change (-1 =? 1) with false. change (-1 =? -1) with true.
           replace (yi + (1 - e) <=? y0 + h) with false by lia.
           replace (y0 + h + e <=? yi) with true by lia.
           cbn -[rf_loop record]. rewrite Hrec. cbn [bind]. apply Hnext. rewrite Hyi. exact S1.
Qed.

(* ---- from the reversed chain to the index statement ----------------------------- *)
Definition stage (x : list Z) (H : Z) (d : bool) (k a b : nat) : Prop :=
  LegH x H d a b /\ (k = 0%nat -> FirstH x H d b) /\ (k <> 0%nat -> CalmH x H d a b).

Lemma flip_S up k : flip up (S k) = negb (flip up k).
Proof.
  unfold flip. rewrite Nat.even_succ, <- Nat.negb_even.
  destruct (Nat.even k), up; reflexivity.
Qed.

Lemma RC_index x H : forall rt up, RC x H up rt ->
  exists up0, flip up0 (List.length rt - 1) = up /\
  forall k, (S k < List.length rt)%nat ->
    stage x H (flip up0 k) k (nth k (rev rt) 0%nat) (nth (S k) (rev rt) 0%nat).
Proof.
  induction rt as [|b rt IH]; intros up Hrc; [destruct Hrc|].
  destruct rt as [|a t].
  - exists up. split; [reflexivity|]. intros k Hk. simpl in Hk. lia.
  - cbn [RC] in Hrc. destruct Hrc as [H1 [H2 [H3 H4]]].
    destruct (IH _ H4) as [up0 [E Hk]]. exists up0.
    assert (Hlen : List.length (a :: t) = S (List.length t)) by reflexivity.
    split.
    { replace (List.length (b :: a :: t) - 1)%nat with (S (List.length (a :: t) - 1))
        by (simpl; lia).
      rewrite flip_S, E. apply negb_involutive. }
    intros k HkS.
    change (rev (b :: a :: t)) with (rev (a :: t) ++ [b]).
    assert (Hrl : List.length (rev (a :: t)) = S (List.length t)) by (rewrite rev_length; reflexivity).
    simpl List.length in HkS.
    destruct (Nat.eq_dec k (List.length t)) as [->|Hne].
    + rewrite app_nth1, app_nth2, Hrl, Nat.sub_diag by lia.
      change (rev (a :: t)) with (rev t ++ [a]).
      rewrite app_nth2, rev_length, Nat.sub_diag by (rewrite rev_length; lia).
      cbn [nth]. simpl List.length in E. rewrite Nat.sub_succ, Nat.sub_0_r in E. rewrite E.
      split; [exact H1|]. split.
      * intros El. apply H2. destruct t; [reflexivity|discriminate].
      * intros El. apply H3. intros ->. apply El. reflexivity.
    + rewrite !app_nth1 by lia. apply Hk. simpl. lia.
Qed.

Lemma RC_last x H : forall rt up, RC x H up rt -> last rt 1%nat = 0%nat.
Proof.
  induction rt as [|b [|a t] IH]; intros up Hrc; [destruct Hrc|exact Hrc|].
  cbn [RC] in Hrc. destruct Hrc as [_ [_ [_ H4]]]. apply (IH _ H4).
Qed.

Lemma RC_decr x H : forall rt up, RC x H up rt -> increasing (rev rt).
Proof.
  induction rt as [|b rt IH]; intros up Hrc; [destruct Hrc|].
  destruct rt as [|a t].
  - simpl. apply increasing_cons. split; [intros c []|apply increasing_nil].
  - cbn [RC] in Hrc. destruct Hrc as [[H1 _] [_ [_ H4]]].
    specialize (IH _ H4). change (rev (b :: a :: t)) with (rev (a :: t) ++ [b]).
    apply increasing_app. split; [exact IH|]. split.
    { apply increasing_cons. split; [intros c []|apply increasing_nil]. }
    intros c d Hc [<-|[]]. change (rev (a :: t)) with (rev t ++ [a]) in Hc, IH.
    apply in_app_or in Hc. destruct Hc as [Hc|[<-|[]]]; [|lia].
    apply increasing_app in IH. destruct IH as [_ [_ IH]].
    assert (c < a)%nat by (apply IH; simpl; auto). lia.
Qed.

Lemma counts_H m h d : (m = 0%nat \/ m = 1%nat) ->
  (counts m h d <-> h + Z.of_nat m <= d).
Proof. intros [->| ->]; simpl; lia. Qed.

Lemma stage_spec x h m d k a b : (m = 0%nat \/ m = 1%nat) ->
  stage x (h + Z.of_nat m) d k a b ->
  Leg x m h d a b /\ (k = 0%nat -> FirstLeg x m h d b) /\ (k <> 0%nat -> Calm x m h d a b).
Proof.
  intros Hm [H1 [H2 H3]]. split; [|split].
  - destruct H1 as [L1 [L2 L3]]. split; [exact L1|]. split; [apply counts_H; auto|exact L3].
  - intros E. destruct (H2 E) as [f [F1 [F2 [F3 F4]]]]. exists f. split; [exact F1|].
    split; [|split; [apply counts_H; auto|]].
    + intros i Hi. rewrite counts_H by auto. specialize (F2 i Hi). lia.
    + intros i l Hi Hl. rewrite counts_H by auto. specialize (F4 i l Hi Hl). lia.
  - intros E. destruct (H3 E) as [C1 C2]. split; [exact C1|].
    intros i l Hi Hl. rewrite counts_H by auto. specialize (C2 i l Hi Hl). lia.
Qed.

Lemma last_rev {A} (l : list A) a d : last (rev (a :: l)) d = a.
Proof. simpl. apply last_last. Qed.

Lemma rev_head_0 x H up rt : RC x H up rt -> exists r, rev rt = 0%nat :: r.
Proof.
  intros Hrc. pose proof (RC_last _ _ _ _ Hrc) as Hl.
  destruct rt as [|a t]; [destruct Hrc|].
  destruct (exists_last (l := a :: t)) as [l' [z Hz]]; [discriminate|].
  rewrite Hz in *. rewrite last_last in Hl. subst z. rewrite rev_unit. eauto.
Qed.

Lemma RC_filtered x h m up rt n : (m = 0%nat \/ m = 1%nat) ->
  RC x (h + Z.of_nat m) up rt -> n = List.length x ->
  (hd 0%nat rt < n)%nat ->
  (forall i, (hd 0%nat rt <= i < n)%nat -> Z.abs (at_ x i - at_ x (hd 0%nat rt)) <= h) ->
  Filtered x m h (rev rt).
Proof.
  intros Hm Hrc Hn Hhd Htail. pose proof (RC_decr _ _ _ _ Hrc) as Hinc.
  assert (Hlast : last (rev rt) 0%nat = hd 0%nat rt).
  { destruct rt as [|b t]; [destruct Hrc|]. apply last_rev. }
  split; [exact Hinc|]. split; [eapply rev_head_0; eauto|]. split.
  { intros i Hi. destruct rt as [|b t]; [destruct Hrc|]. simpl in Hhd.
    simpl in Hinc, Hi. apply increasing_app in Hinc. destruct Hinc as [_ [_ Hx]].
    apply in_app_or in Hi. destruct Hi as [Hi|[<-|[]]]; [|lia].
    assert (i < b)%nat by (apply Hx; simpl; auto). lia. }
  split.
  { destruct (RC_index x _ rt up Hrc) as [up0 [_ Hk]]. exists up0. intros k Hk'.
    rewrite rev_length in Hk'. cbv zeta. apply stage_spec; auto. }
  rewrite Hlast, <- Hn. exact Htail.
Qed.

Definition cmp1_of (m : nat) := match m with O => Z.leb | _ => Z.ltb end.
Definition cmp2_of (m : nat) := match m with O => Z.ltb | _ => Z.leb end.

Lemma nb_findrfc_make y h m : (m = 0%nat \/ m = 1%nat) ->
  nb_findrfc y h m = make_findrfc (cmp1_of m) (cmp2_of m) y h.
Proof. intros [->| ->]; reflexivity. Qed.

Lemma filter_correct x h m : x <> [] -> (m = 0%nat \/ m = 1%nat) -> 0 < h + Z.of_nat m ->
  (0 < h \/ exists k, (k < List.length x)%nat /\ at_ x k <> at_ x 0) ->
  exists t, nb_findrfc x h m = Ok t /\ Filtered x m h t.
Proof.
  intros Hx Hm HH Hpos. rewrite nb_findrfc_make by auto. unfold make_findrfc.
  set (e := Z.of_nat m) in *.
  assert (He : e = 0 \/ e = 1) by (destruct Hm; subst m; auto).
  assert (C1 : forall a b, cmp1_of m a b = (a + e <=? b)) by (destruct Hm; subst m; intros; simpl; lia).
  assert (C2 : forall a b, cmp2_of m a b = (a + (1 - e) <=? b))
    by (destruct Hm; subst m; intros; simpl; lia).
  destruct x as [|x0 xs]; [congruence|].
  set (x := x0 :: xs) in *. change (getm x 0) with (Ok x0). cbn [bind]. change (tl x) with xs.
  destruct (rf_loop_inv (cmp1_of m) (cmp2_of m) h e x He HH C1 C2 xs [x0] 0%nat x0 0 [0%nat])
    as [t0 [y0 [z0 [rt [Hrun HI]]]]].
  { reflexivity. } { discriminate. }
  { split; [reflexivity|]. split; [simpl; lia|]. left. repeat split; auto.
    intros k Hk. simpl in Hk. replace k with 0%nat by lia. rewrite Z.sub_diag. simpl. lia. }
  change (List.length [x0]) with 1%nat in Hrun. rewrite Hrun. cbn [bind].
  destruct HI as [Hy0 [Ht0 [[Hz [Ht [Hrt Hclose]]]|[up [p [rt' [Hz [Hrt [Hl [Hrc Hcur]]]]]]]]]].
  - subst t0 rt y0. cbn [hd]. change (getm x 0) with (Ok x0). cbn [bind].
    change (at_ x 0) with x0. rewrite Z.sub_diag. rewrite C2.
    assert (Hh : 0 < h).
    { destruct Hpos as [|[k [Hk Hne]]]; auto. specialize (Hclose k Hk).
      destruct He as [He|He]; lia. }
    replace (h + (1 - e) <=? Z.abs 0) with false by lia.
    cbn [bind]. exists [0%nat]. split; [reflexivity|].
    apply (RC_filtered x h m true [0%nat] (List.length x) Hm); auto.
    + reflexivity.
    + cbn [hd]. intros i Hi. specialize (Hclose i ltac:(lia)). lia.
  - subst rt. destruct Hcur as [H1 [H2 [H3 [H4 [H5 H6]]]]]. cbn [hd].
    assert (Hg : getm x p = Ok (at_ x p)).
    { unfold getm. rewrite (nth_error_nth' x 0) by lia. reflexivity. }
    rewrite Hg. cbn [bind]. rewrite C2.
    assert (Habs : Z.abs (y0 - at_ x p) = sy x up t0 - sy x up p).
    { rewrite Hy0. unfold sy in *. destruct up; lia. }
    rewrite Habs.
    assert (Hrc' : RC x (h + e) (negb up) (t0 :: p :: rt')).
    { cbn [RC]. rewrite negb_involutive. split; [split; [lia|split; auto]|].
      split; [|split; [|exact Hrc]].
      - intros E. destruct (H5 E) as [f [F1 [F2 [F3 F4]]]].
        destruct (Nat.le_gt_cases f t0) as [Hf|Hf].
        + exists f. split; [lia|]. split; [exact F2|]. split; [exact F3|].
          intros k l Hk Hl'. apply F4; lia.
        + exfalso. specialize (F2 t0 Hf). rewrite (sy_at0 x up) in F2.
          assert (Hp0 : p = 0%nat) by (subst rt'; exact Hrc). subst p. lia.
      - intros E. destruct (H6 E) as [D1 D2]. split.
        + intros k Hk. apply D1. lia.
        + intros k l Hk Hl'. apply D2; lia. }
    assert (Htail : forall i, (t0 <= i < List.length x)%nat -> Z.abs (at_ x i - at_ x t0) <= h).
    { intros i Hi. destruct (Nat.eq_dec i t0) as [->|Hne]; [lia|].
      specialize (H4 i ltac:(lia)). unfold sy in H4. destruct up; lia. }
    destruct (h + (1 - e) <=? sy x up t0 - sy x up p) eqn:Eend.
    + assert (Hrec : record (List.length x) (p :: rt') t0 = Ok (t0 :: p :: rt')).
      { unfold record. replace (List.length (p :: rt') <? List.length x)%nat with true by lia.
        reflexivity. }
      rewrite Hrec. cbn [bind]. eexists. split; [reflexivity|].
      apply (RC_filtered x h m (negb up) (t0 :: p :: rt') (List.length x) Hm); auto.
    + assert (e = 0 /\ sy x up t0 - sy x up p = h) by lia.
      cbn [bind]. eexists. split; [reflexivity|].
      apply (RC_filtered x h m up (p :: rt') (List.length x) Hm); auto.
      * cbn [hd]. lia.
      * cbn [hd]. intros i Hi.
        assert (Hup : sy x up i <= sy x up t0).
        { destruct (Nat.le_gt_cases i t0); [apply H3; lia|]. specialize (H4 i ltac:(lia)). lia. }
        assert (Hlo : sy x up p - h <= sy x up i).
        { destruct rt' as [|q rt''].
          - destruct (H5 eq_refl) as [f [F1 [F2 [F3 F4]]]].
            assert (Hp0 : p = 0%nat) by exact Hrc. subst p.
            destruct (Nat.lt_ge_cases i f) as [Hf|Hf].
            + specialize (F2 i Hf). rewrite (sy_at0 x up) in F2. lia.
            + specialize (F4 f i ltac:(lia) ltac:(lia)). lia.
          - destruct (H6 ltac:(discriminate)) as [D1 D2].
            destruct (Nat.eq_dec i p) as [->|]; [lia|]. specialize (D1 i ltac:(lia)). lia. }
        unfold sy in *. destruct up; lia.
Qed.

(* ---- values of the filtered signal; idempotence ---------------------------------- *)
Lemma take_at_spec (x : list Z) : forall t, (forall i, In i t -> (i < List.length x)%nat) ->
  take_at x t = Ok (map (at_ x) t).
Proof.
  induction t as [|i t IH]; intros Hi; [reflexivity|].
  cbn [take_at]. rewrite geti_at by (apply Hi; left; reflexivity). cbn [bind].
  rewrite IH by (intros j Hj; apply Hi; right; exact Hj). reflexivity.
Qed.

Lemma rfcfilter_correct x h m : x <> [] -> (m = 0%nat \/ m = 1%nat) -> 0 < h + Z.of_nat m ->
  (0 < h \/ exists k, (k < List.length x)%nat /\ at_ x k <> at_ x 0) ->
  exists t, rfcfilter x h m = Ok (map (at_ x) t) /\ Filtered x m h t.
Proof.
  intros Hx Hm HH Hpos. destruct (filter_correct x h m Hx Hm HH Hpos) as [t [Ht HF]].
  exists t. split; [|exact HF]. unfold rfcfilter. rewrite Ht. cbn [bind].
  apply take_at_spec. apply HF.
Qed.

(* a signal all of whose consecutive legs alternate and count *)
Definition zigzag (z : list Z) (H : Z) (up : bool) : Prop :=
  forall k, (S k < List.length z)%nat ->
    H <= sy z (flip up k) (S k) - sy z (flip up k) k.

Lemma rf_loop_zigzag c1 c2 h e z up : (e = 0 \/ e = 1) -> 0 < h + e ->
  (forall a b, c1 a b = (a + e <=? b)) -> (forall a b, c2 a b = (a + (1 - e) <=? b)) ->
  zigzag z (h + e) up ->
  forall ys pre i, z = pre ++ ys -> List.length pre = S (S i) ->
  rf_loop c1 c2 h (List.length z) (S (S i)) ys (S i) (at_ z (S i))
    (if flip up i then 1 else -1) (rev (seq 0 (S i)))
  = Ok ((List.length z - 1)%nat, at_ z (List.length z - 1), rev (seq 0 (List.length z - 1))).
Proof.
  intros He HH C1 C2 Hz. induction ys as [|y ys IH]; intros pre i Ez Hl.
  - assert (El : List.length z = S (S i)) by (rewrite Ez, app_nil_r; exact Hl).
    rewrite El. cbn [rf_loop]. repeat f_equal; lia.
  - assert (Hyi : y = at_ z (S (S i))) by (rewrite Ez, <- Hl, at_middle; reflexivity).
    assert (Hlen : List.length z = (S (S i) + S (List.length ys))%nat)
      by (rewrite Ez, app_length, Hl; reflexivity).
    pose proof (Hz (S i) ltac:(lia)) as Hleg. rewrite flip_S, !sy_neg in Hleg.
    cbn [rf_loop].
    replace ((if flip up i then 1 else -1) =? 0) with false by (destruct (flip up i); reflexivity).
    cbn iota. rewrite !C1, !C2.
    assert (Hrec : record (List.length z) (rev (seq 0 (S i))) (S i) = Ok (rev (seq 0 (S (S i))))).
    { unfold record. rewrite rev_length, seq_length.
      replace (S i <? List.length z)%nat with true by lia.
      rewrite (seq_S (S i)), rev_unit. reflexivity. }
    specialize (IH (pre ++ [y]) (S i)).
    rewrite flip_S in IH. unfold sy in Hleg.
    destruct (flip up i); cbn [negb] in IH.
    + change (1 =? 1) with true. change (1 =? -1) with false.
      replace (y + e <=? at_ z (S i) - h) with true by lia.
      cbn -[rf_loop record seq rev]. rewrite Hrec. cbn [bind]. rewrite Hyi. apply IH.
      * rewrite <- cons_app_one. exact Ez.
      * rewrite app_length, Hl. simpl. lia.
    + change (-1 =? 1) with false. change (-1 =? -1) with true.
      replace (y + (1 - e) <=? at_ z (S i) + h) with false by lia.
      replace (at_ z (S i) + h + e <=? y) with true by lia.
      cbn -[rf_loop record seq rev]. rewrite Hrec. cbn [bind]. rewrite Hyi. apply IH.
      * rewrite <- cons_app_one. exact Ez.
      * rewrite app_length, Hl. simpl. lia.
Qed.

Lemma map_at_seq (z : list Z) : map (at_ z) (seq 0 (List.length z)) = z.
Proof.
  apply (nth_ext _ _ 0 0); [rewrite map_length, seq_length; reflexivity|].
  intros n Hn. rewrite map_length, seq_length in Hn.
  rewrite (nth_indep _ 0 (at_ z 0)) by (rewrite map_length, seq_length; exact Hn).
  rewrite map_nth, seq_nth by exact Hn. reflexivity.
Qed.

Lemma filter_zigzag z h m up : z <> [] -> (m = 0%nat \/ m = 1%nat) -> 0 < h + Z.of_nat m ->
  zigzag z (h + Z.of_nat m) up ->
  (0 < h \/ (2 <= List.length z)%nat) ->
  (m = 0%nat -> (2 <= List.length z)%nat ->
     h < Z.abs (at_ z (List.length z - 1) - at_ z (List.length z - 2))) ->
  rfcfilter z h m = Ok z.
Proof.
  intros Hne Hm HH Hz Hpos Hend. unfold rfcfilter. rewrite nb_findrfc_make by auto.
  unfold make_findrfc.
  set (e := Z.of_nat m) in *.
  assert (He : e = 0 \/ e = 1) by (destruct Hm; subst m; auto).
  assert (C1 : forall a b, cmp1_of m a b = (a + e <=? b)) by (destruct Hm; subst m; intros; simpl; lia).
  assert (C2 : forall a b, cmp2_of m a b = (a + (1 - e) <=? b))
    by (destruct Hm; subst m; intros; simpl; lia).
  destruct z as [|z0 [|z1 zs]]; [congruence| |].
  - cbn -[record]. rewrite C2, Z.sub_diag.
    destruct Hpos as [Hpos|Hpos]; [|simpl in Hpos; lia].
    replace (h + (1 - e) <=? Z.abs 0) with false by lia. reflexivity.
  - set (z := z0 :: z1 :: zs) in *. change (getm z 0) with (Ok z0). cbn [bind].
    change (tl z) with (z1 :: zs).
    pose proof (Hz 0%nat ltac:(unfold z; simpl; lia)) as Hleg.
    change (flip up 0) with up in Hleg. unfold sy in Hleg.
    change (at_ z 1) with z1 in Hleg. change (at_ z 0) with z0 in Hleg.
    assert (Hfirst : rf_loop (cmp1_of m) (cmp2_of m) h (List.length z) 1 (z1 :: zs) 0 z0 0 [0%nat]
       = rf_loop (cmp1_of m) (cmp2_of m) h (List.length z) 2 zs 1 z1
           (if flip up 0 then 1 else -1) (rev (seq 0 1))).
    { cbn [rf_loop]. change (0 =? 0) with true. cbn iota. cbn [bind]. rewrite !C1.
      change (flip up 0) with up. destruct up.
      - replace (z1 + e <=? z0 - h) with false by lia.
        replace (z0 + h + e <=? z1) with true by lia. reflexivity.
      - replace (z1 + e <=? z0 - h) with true by lia. reflexivity. }
    rewrite Hfirst. change z1 with (at_ z 1).
    rewrite (rf_loop_zigzag _ _ h e z up He HH C1 C2 Hz zs [z0; z1] 0 eq_refl eq_refl).
    cbn [bind]. set (L := List.length z) in *.
    assert (HL : (2 <= L)%nat) by (unfold L, z; simpl; lia).
    replace (L - 1)%nat with (S (L - 2)) by lia.
    rewrite seq_S, rev_unit. cbn [hd]. rewrite Nat.add_0_l.
    assert (Hg : getm z (L - 2) = Ok (at_ z (L - 2))).
    { unfold getm. rewrite (nth_error_nth' z 0) by (fold L; lia). reflexivity. }
    rewrite Hg. cbn [bind]. rewrite C2.
    pose proof (Hz (L - 2)%nat ltac:(fold L; lia)) as Hlast.
    replace (S (L - 2)) with (L - 1)%nat in * by lia.
    assert (Hb : h + (1 - e) <= Z.abs (at_ z (L - 1) - at_ z (L - 2))).
    { destruct Hm as [Hm|Hm]; subst m; unfold e in *.
      - specialize (Hend eq_refl HL). lia.
      - unfold sy in Hlast. destruct (flip up (L - 2)); lia. }
    replace (h + (1 - e) <=? Z.abs (at_ z (L - 1) - at_ z (L - 2))) with true by lia.
    assert (Hrev : (L - 2)%nat :: rev (seq 0 (L - 2)) = rev (seq 0 (L - 1))).
    { replace (L - 1)%nat with (S (L - 2)) by lia. rewrite (seq_S (L - 2)), rev_unit. reflexivity. }
    rewrite Hrev. unfold record. rewrite rev_length, seq_length.
    replace (L - 1 <? L)%nat with true by lia. cbn [bind].
    change (rev ((L - 1)%nat :: rev (seq 0 (L - 1)))) with (rev (rev (seq 0 (L - 1))) ++ [(L - 1)%nat]).
    rewrite rev_involutive.
    assert (Hs : seq 0 (L - 1) ++ [(L - 1)%nat] = seq 0 L).
    { replace (seq 0 L) with (seq 0 (S (L - 1))) by (f_equal; lia). rewrite seq_S. reflexivity. }
    rewrite Hs. rewrite take_at_spec by (intros i Hi; apply in_seq in Hi; fold L; lia).
    f_equal. apply map_at_seq.
Qed.

Lemma at_map x t k : (k < List.length t)%nat -> at_ (map (at_ x) t) k = at_ x (nth k t 0%nat).
Proof.
  intros Hk. unfold at_ at 1. rewrite (nth_indep _ 0 (at_ x 0)) by (rewrite map_length; exact Hk).
  apply map_nth.
Qed.

Lemma rfcfilter_idempotent x h m y : x <> [] -> (m = 0%nat \/ m = 1%nat) ->
  0 < h + Z.of_nat m ->
  (0 < h \/ exists k, (k < List.length x)%nat /\ at_ x k <> at_ x 0) ->
  rfcfilter x h m = Ok y ->
  (m = 0%nat -> (2 <= List.length y)%nat ->
     h < Z.abs (at_ y (List.length y - 1) - at_ y (List.length y - 2))) ->
  rfcfilter y h m = Ok y.
Proof.
  intros Hx Hm HH Hpos Hy Hend.
  destruct (rfcfilter_correct x h m Hx Hm HH Hpos) as [t [Ht HF]].
  rewrite Hy in Ht. injection Ht as ->.
  destruct HF as [_ [[r Hr] [_ [[up Hk] Htail]]]].
  assert (Hl : List.length (map (at_ x) t) = List.length t) by apply map_length.
  apply (filter_zigzag _ h m up); auto.
  - rewrite Hr. discriminate.
  - intros k Hk'. rewrite Hl in Hk'. destruct (Hk k Hk') as [[_ [Hc _]] _].
    apply counts_H in Hc; auto. unfold sy in *. rewrite !at_map by lia. exact Hc.
  - rewrite Hl. destruct Hpos as [Hpos|[k [Hk1 Hk2]]]; auto.
    destruct (Z_lt_le_dec 0 h) as [Hh|Hh]; auto. right.
    destruct t as [|a [|b t]]; [discriminate| |simpl; lia].
    exfalso. injection Hr as -> _. specialize (Htail k). cbn [last] in Htail.
    specialize (Htail ltac:(lia)). lia.
Qed.

(* findings *)
Lemma rfcfilter_not_idempotent :
  exists x y, rfcfilter x 2 0 = Ok y /\ rfcfilter y 2 0 <> Ok y.
Proof. exists [0; 2; 0; 2; 0], [0; 2; 0; 2]. split; [reflexivity|]. vm_compute. discriminate. Qed.

Lemma rfcfilter_drops_last :
  exists x h, rfcfilter x h 0 = Ok [0] /\ (exists k, (k < List.length x)%nat /\ h <= at_ x k - at_ x 0).
Proof. exists [0; 2], 2. split; [reflexivity|]. exists 1%nat. vm_compute. split; [lia|discriminate]. Qed.

Lemma rfcfilter_constant : rfcfilter [7; 7; 7] 0 1 = Ok [7; 7] /\ rfcfilter [7] 0 1 = Err MemoryError.
Proof. split; reflexivity. Qed.
