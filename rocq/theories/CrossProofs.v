(* Proofs about the crossing model. *)
From Coq Require Import String ZifyBool.
From Verif Require Import Base CrossModel CrossSpec ListFacts.
Local Open Scope Z_scope.
Local Open Scope list_scope.

(* ---- a structural reading of the scan ------------------------------------ *)
(* prev: sign of the last sample off the level (0 if none), i: index before l *)
Fixpoint scan (prev : Z) (i : nat) (l : list Z) : list nat :=
  match l with
  | [] => []
  | b :: l' =>
      if b =? 0 then scan prev (S i) l'
      else if Z.sgn b =? prev then scan prev (S i) l'
      else i :: scan (Z.sgn b) (S i) l'
  end.

Lemma getm_middle pre (a : Z) l : getm (pre ++ a :: l) (List.length pre) = Ok a.
Proof. unfold getm. rewrite nth_error_middle. reflexivity. Qed.

Lemma getm_middle' pre (a b : Z) l : getm (pre ++ a :: b :: l) (S (List.length pre)) = Ok b.
Proof.
  unfold getm. rewrite cons_app_one.
  rewrite nth_error_middle'; [reflexivity|]. rewrite app_length. simpl. lia.
Qed.

Lemma nb_loop_scan : forall l pre a ind d cap,
  (d = 1 \/ d = -1) -> 0 <= a * d ->
  (List.length ind <= List.length pre)%nat ->
  (List.length pre + List.length l < cap)%nat ->
  nb_loop (pre ++ a :: l) cap (seq (List.length pre) (List.length l)) ind d
  = Ok (ind ++ scan d (List.length pre) l).
Proof.
  induction l as [|b l IH]; intros pre a ind d cap Hd Ha Hind Hcap.
  - simpl. rewrite app_nil_r. reflexivity.
  - simpl List.length. cbn [seq nb_loop].
    rewrite getm_middle, getm_middle'. cbn [bind].
    set (cond := ((d =? -1) && (a <=? 0) && (0 <? b)) || ((d =? 1) && (0 <=? a) && (b <? 0))).
    assert (IHn : forall ind' d', (d' = 1 \/ d' = -1) -> 0 <= b * d' ->
       (List.length ind' <= S (List.length pre))%nat ->
       nb_loop (pre ++ a :: b :: l) cap (seq (S (List.length pre)) (List.length l)) ind' d'
       = Ok (ind' ++ scan d' (S (List.length pre)) l)).
    { intros ind' d' Hd' Hb Hi.
      specialize (IH (pre ++ [a]) b ind' d' cap Hd' Hb).
      rewrite app_length in IH. simpl List.length in IH.
      rewrite Nat.add_1_r in IH. rewrite <- cons_app_one in IH.
      apply IH; simpl in Hcap; lia. }
    cbn [scan].
    destruct cond eqn:Hc.
    + assert (Hs : Z.sgn b = - d /\ b <> 0 /\ Z.sgn b <> d).
      { unfold cond in Hc. destruct Hd; subst d; nia. }
      destruct Hs as [Hs [Hb0 Hsd]].
      unfold push.
      replace (List.length ind <? cap)%nat with true by (simpl in Hcap; lia).
      cbn [bind].
      replace (b =? 0) with false by lia.
      replace (Z.sgn b =? d) with false by lia.
      rewrite IHn.
      * rewrite Hs. rewrite <- app_assoc. reflexivity.
      * destruct Hd; subst d; lia.
      * rewrite <- Hs. nia.
      * rewrite app_length. simpl. lia.
    + assert (Hs : 0 <= b * d).
      { unfold cond in Hc. destruct Hd; subst d; nia. }
      destruct (b =? 0) eqn:Hb0.
      * rewrite IHn; auto; lia.
      * replace (Z.sgn b =? d) with true
          by (destruct Hd; subst d; destruct (Z.sgn_spec b) as [?|[?|?]]; lia).
        rewrite IHn; auto; lia.
Qed.

Lemma nb_first_spec : forall l pre cap start,
  pre <> [] ->
  (forall z, In z pre -> z = 0) -> (List.length pre + List.length l <= cap)%nat ->
  (start = List.length pre - 1)%nat ->
  let y := pre ++ l in
  let n := List.length y in
  (let* r := nb_first y (seq (List.length pre) (List.length l)) start in
   match r with
    | (start, None) => nb_loop y cap (seq start (n - 1 - start)) [] 0
    | (start, Some (i, d)) =>
        let* ind := push cap [] i in
        nb_loop y cap (seq start (n - 1 - start)) ind d
   end) = Ok (scan 0 (List.length pre - 1) l).
Proof.
  induction l as [|b l IH]; intros pre cap start Hne Hz Hcap Hst y n.
  - cbn [seq nb_first bind List.length]. subst n y. rewrite app_nil_r.
    subst start. rewrite Nat.sub_diag. reflexivity.
  - cbn [seq nb_first List.length]. subst y.
    rewrite getm_middle. cbn [bind].
    assert (Hlen : (0 < List.length pre)%nat) by (destruct pre; [congruence|simpl; lia]).
    assert (Hn : (n - 1 - List.length pre = List.length l)%nat).
    { subst n. rewrite app_length. simpl. lia. }
    simpl in Hcap.
    assert (Hpush : forall i, push cap [] i = Ok [i]).
    { intros i. unfold push. replace (List.length (@nil nat) <? cap)%nat with true; auto.
      simpl. lia. }
    cbn [scan].
    destruct (b <? 0) eqn:H1; [|destruct (b >? 0) eqn:H2].
    + cbn [bind]. rewrite Hpush. cbn [bind]. rewrite Hn.
      rewrite nb_loop_scan; simpl; try lia.
      replace (b =? 0) with false by lia.
      replace (Z.sgn b =? 0) with false by lia.
      replace (Z.sgn b) with (-1) by lia.
      replace (S (List.length pre - 1)) with (List.length pre) by lia. reflexivity.
    + cbn [bind]. rewrite Hpush. cbn [bind]. rewrite Hn.
      rewrite nb_loop_scan; simpl; try lia.
      replace (b =? 0) with false by lia.
      replace (Z.sgn b =? 0) with false by lia.
      replace (Z.sgn b) with 1 by lia.
      replace (S (List.length pre - 1)) with (List.length pre) by lia. reflexivity.
    + replace (b =? 0) with true by lia.
      specialize (IH (pre ++ [b]) cap (List.length pre)).
      rewrite app_length in IH. simpl List.length in IH.
      rewrite <- cons_app_one in IH.
      rewrite Nat.add_1_r in IH.
      replace (S (List.length pre) - 1)%nat with (List.length pre) in IH by lia.
      replace (S (List.length pre - 1)) with (List.length pre) by lia.
      apply IH.
      * destruct pre; discriminate.
      * intros z Hin. apply in_app_or in Hin. destruct Hin as [Hin|[<-|[]]]; auto. lia.
      * lia.
      * reflexivity.
Qed.

Lemma nb_findcross_scan : forall y0 l cap,
  (S (List.length l) <= cap)%nat ->
  nb_findcross (y0 :: l) cap = Ok (scan (Z.sgn y0) 0 l).
Proof.
  intros y0 l cap Hcap. unfold nb_findcross.
  cbn [getm nth_error bind List.length].
  rewrite Nat.sub_succ, Nat.sub_0_r.
  destruct (y0 <? 0) eqn:H1; [|destruct (y0 >? 0) eqn:H2].
  - replace (Z.sgn y0) with (-1) by lia.
    apply (nb_loop_scan l [] y0 [] (-1) cap); simpl; lia.
  - replace (Z.sgn y0) with 1 by lia.
    apply (nb_loop_scan l [] y0 [] 1 cap); simpl; lia.
  - assert (y0 = 0) by lia. subst y0.
    pose proof (nb_first_spec l [0] cap 0%nat) as H.
    cbn [List.length app] in H. rewrite Nat.sub_diag in H.
    rewrite Nat.sub_succ, Nat.sub_0_r in H.
    apply H; auto; try lia; try discriminate.
    intros z [<-|[]]; auto.
Qed.

(* ---- C version = numba version ------------------------------------------- *)
Lemma getm_signs y v i :
  getm (signs y v) i = match getm y i with Ok a => Ok (Z.sgn (a - v)) | Err e => Err e end.
Proof.
  unfold getm, signs. rewrite nth_error_map. destruct (nth_error y i); reflexivity.
Qed.

Lemma c_loop_nb : forall is y v cap ind d,
  c_loop y v cap is ind d = nb_loop (signs y v) cap is ind d.
Proof.
  induction is as [|i is IH]; intros y v cap ind d; [reflexivity|].
  cbn [c_loop nb_loop]. rewrite !getm_signs.
  destruct (getm y i) as [a|e]; [|reflexivity]. cbn [bind].
  destruct (getm y (S i)) as [b|e]; [|reflexivity]. cbn [bind].
  replace (((d =? -1) && (a <=? v) && (b >? v)) || ((d =? 1) && (a >=? v) && (b <? v)))
    with (((d =? -1) && (Z.sgn (a - v) <=? 0) && (0 <? Z.sgn (b - v)))
         || ((d =? 1) && (0 <=? Z.sgn (a - v)) && (Z.sgn (b - v) <? 0))).
  2:{ replace (Z.sgn (a - v) <=? 0) with (a <=? v) by lia.
      replace (0 <? Z.sgn (b - v)) with (b >? v) by lia.
      replace (0 <=? Z.sgn (a - v)) with (a >=? v) by lia.
      replace (Z.sgn (b - v) <? 0) with (b <? v) by lia. reflexivity. }
  destruct (_ || _).
  - destruct (push cap ind i); cbn [bind]; auto.
  - auto.
Qed.

Lemma c_first_nb : forall is y v start,
  c_first y v is start = nb_first (signs y v) is start.
Proof.
  induction is as [|i is IH]; intros y v start; [reflexivity|].
  cbn [c_first nb_first]. rewrite getm_signs.
  destruct (getm y i) as [a|e]; [|reflexivity]. cbn [bind].
  replace (Z.sgn (a - v) <? 0) with (a <? v) by lia.
  replace (Z.sgn (a - v) >? 0) with (a >? v) by lia.
  destruct (a <? v); auto. destruct (a >? v); auto.
Qed.

Lemma signs_length x v : List.length (signs x v) = List.length x.
Proof. apply map_length. Qed.

Lemma c_findcross_nb y v :
  c_findcross y v = nb_findcross (signs y v) (List.length (signs y v)).
Proof.
  unfold c_findcross, nb_findcross. rewrite signs_length, getm_signs.
  destruct (getm y 0) as [a|e]; [|reflexivity]. cbn [bind].
  rewrite !c_loop_nb, c_first_nb.
  replace (Z.sgn (a - v) <? 0) with (a <? v) by lia.
  replace (Z.sgn (a - v) >? 0) with (a >? v) by lia.
  destruct (a <? v); auto. destruct (a >? v); auto.
  destruct (nb_first _ _ _) as [[st [[i d]|]]|e]; cbn [bind]; auto.
  - destruct (push _ _ _); cbn [bind]; auto. apply c_loop_nb.
  - apply c_loop_nb.
Qed.

Lemma signs_signs x v : signs (signs x v) 0 = signs x v.
Proof.
  unfold signs. rewrite map_map. apply map_ext. intros a.
  rewrite Z.sub_0_r. destruct (Z.sgn_spec (a - v)) as [?|[?|?]]; lia.
Qed.

Lemma raw_findcross_impl m x v :
  raw_findcross m (signs x v) = nb_findcross (signs x v) (List.length (signs x v)).
Proof. destruct m; [reflexivity|]. simpl. rewrite c_findcross_nb, signs_signs. reflexivity. Qed.

Definition scan_of (x : list Z) (v : Z) : list nat :=
  match signs x v with [] => [] | y0 :: l => scan (Z.sgn y0) 0 l end.

Lemma raw_findcross_scan m x v : x <> [] ->
  raw_findcross m (signs x v) = Ok (scan_of x v).
Proof.
  intros Hx. rewrite raw_findcross_impl. unfold scan_of.
  destruct (signs x v) as [|y0 l] eqn:E.
  - destruct x; [congruence|discriminate].
  - apply nb_findcross_scan. simpl. lia.
Qed.

(* ---- scan = specification ------------------------------------------------- *)
Definition upd (acc a : Z) : Z := if a =? 0 then acc else Z.sgn a.
Definition lastnz (l : list Z) : Z := fold_left upd l 0.

Lemma lastnz_snoc l a : lastnz (l ++ [a]) = upd (lastnz l) a.
Proof. unfold lastnz. rewrite fold_left_app. reflexivity. Qed.

Lemma lastnz_sign l : lastnz l = 0 \/ lastnz l = 1 \/ lastnz l = -1.
Proof.
  induction l as [|a l IH] using rev_ind; [left; reflexivity|].
  rewrite lastnz_snoc. unfold upd. destruct (a =? 0); auto.
  destruct (Z.sgn_spec a) as [?|[?|?]]; lia.
Qed.

Lemma at_app1 l1 l2 k : (k < List.length l1)%nat -> at_ (l1 ++ l2) k = at_ l1 k.
Proof. intros. unfold at_. apply app_nth1. auto. Qed.

Lemma at_middle pre a l : at_ (pre ++ a :: l) (List.length pre) = a.
Proof. unfold at_. rewrite app_nth2, Nat.sub_diag by lia. reflexivity. Qed.

(* backward reading of the last sign *)
Lemma lastnz_le y j : (j < List.length y)%nat ->
  (lastnz (firstn (S j) y) <= 0 <->
   forall k, (k <= j)%nat -> (forall m, (k < m <= j)%nat -> at_ y m = 0) -> at_ y k <= 0).
Proof.
  induction j as [|j IH]; intros Hj.
  - destruct y as [|a y]; simpl in Hj; [lia|]. simpl.
    unfold lastnz, upd. simpl. split.
    + intros H k Hk _. assert (k = 0%nat) by lia. subst k. unfold at_. simpl.
      destruct (a =? 0) eqn:E; lia.
    + intros H. specialize (H 0%nat (le_n _)). unfold at_ in H. simpl in H.
      assert (a <= 0) by (apply H; intros; lia). destruct (a =? 0) eqn:E; lia.
  - rewrite (firstn_S_snoc y (S j)) by lia. rewrite lastnz_snoc. unfold upd.
    destruct (at_ y (S j) =? 0) eqn:E.
    + rewrite IH by lia. split; intros H k Hk Hm.
      * destruct (Nat.eq_dec k (S j)) as [->|Hne]; [lia|].
        apply H; [lia|]. intros m Hm'. apply Hm. lia.
      * apply H; [lia|]. intros m Hm'.
        destruct (Nat.eq_dec m (S j)) as [->|Hne]; [lia|]. apply Hm. lia.
    + split.
      * intros H k Hk Hm. destruct (Nat.eq_dec k (S j)) as [->|Hne]; [lia|].
        assert (at_ y (S j) = 0) by (apply Hm; lia). lia.
      * intros H. assert (at_ y (S j) <= 0) by (apply H; [lia|intros; lia]). lia.
Qed.

Lemma lastnz_ge y j : (j < List.length y)%nat ->
  (0 <= lastnz (firstn (S j) y) <->
   forall k, (k <= j)%nat -> (forall m, (k < m <= j)%nat -> at_ y m = 0) -> 0 <= at_ y k).
Proof.
  induction j as [|j IH]; intros Hj.
  - destruct y as [|a y]; simpl in Hj; [lia|]. simpl.
    unfold lastnz, upd. simpl. split.
    + intros H k Hk _. assert (k = 0%nat) by lia. subst k. unfold at_. simpl.
      destruct (a =? 0) eqn:E; lia.
    + intros H. specialize (H 0%nat (le_n _)). unfold at_ in H. simpl in H.
      assert (0 <= a) by (apply H; intros; lia). destruct (a =? 0) eqn:E; lia.
  - rewrite (firstn_S_snoc y (S j)) by lia. rewrite lastnz_snoc. unfold upd.
    destruct (at_ y (S j) =? 0) eqn:E.
    + rewrite IH by lia. split; intros H k Hk Hm.
      * destruct (Nat.eq_dec k (S j)) as [->|Hne]; [lia|].
        apply H; [lia|]. intros m Hm'. apply Hm. lia.
      * apply H; [lia|]. intros m Hm'.
        destruct (Nat.eq_dec m (S j)) as [->|Hne]; [lia|]. apply Hm. lia.
    + split.
      * intros H k Hk Hm. destruct (Nat.eq_dec k (S j)) as [->|Hne]; [lia|].
        assert (at_ y (S j) = 0) by (apply Hm; lia). lia.
      * intros H. assert (0 <= at_ y (S j)) by (apply H; [lia|intros; lia]). lia.
Qed.

Lemma scan_ge : forall l prev i j, In j (scan prev i l) -> (i <= j < i + List.length l)%nat.
Proof.
  induction l as [|b l IH]; intros prev i j Hj; [destruct Hj|].
  cbn [scan] in Hj. simpl List.length.
  destruct (b =? 0); [apply IH in Hj; lia|].
  destruct (Z.sgn b =? prev); [apply IH in Hj; lia|].
  destruct Hj as [<-|Hj]; [lia|]. apply IH in Hj. lia.
Qed.

Lemma scan_increasing : forall l prev i, increasing (scan prev i l).
Proof.
  induction l as [|b l IH]; intros prev i; [apply increasing_nil|].
  cbn [scan]. destruct (b =? 0); auto. destruct (Z.sgn b =? prev); auto.
  apply increasing_cons. split; auto. intros c Hc. apply scan_ge in Hc. lia.
Qed.

Lemma scan_in : forall l pre j, pre <> [] ->
  let y := pre ++ l in
  (In j (scan (lastnz pre) (List.length pre - 1) l) <->
   (List.length pre - 1 <= j)%nat /\ (S j < List.length y)%nat /\ at_ y (S j) <> 0 /\
   lastnz (firstn (S j) y) <> Z.sgn (at_ y (S j))).
Proof.
  induction l as [|b l IH]; intros pre j Hne y.
  - cbn [scan In]. subst y. rewrite app_nil_r. split; [tauto|]. intros; lia.
  - assert (Hlen : (0 < List.length pre)%nat) by (destruct pre; [congruence|simpl; lia]).
    assert (Hf : firstn (List.length pre) y = pre).
    { subst y. rewrite firstn_app, Nat.sub_diag, firstn_all. simpl. apply app_nil_r. }
    assert (Hb : at_ y (List.length pre) = b) by (subst y; apply at_middle).
    assert (HS : S (List.length pre - 1) = List.length pre) by lia.
    specialize (IH (pre ++ [b]) j).
    rewrite app_length in IH. simpl List.length in IH.
    replace (List.length pre + 1 - 1)%nat with (List.length pre) in IH by lia.
    rewrite <- cons_app_one in IH. rewrite lastnz_snoc in IH. fold y in IH.
    assert (IH' := IH ltac:(destruct pre; discriminate)). clear IH. cbv zeta in IH'.
    cbn [scan]. rewrite HS.
    assert (Hylen : (List.length pre < List.length y)%nat)
      by (subst y; rewrite app_length; simpl; lia).
    unfold upd in IH'.
    destruct (b =? 0) eqn:E0.
    + rewrite IH'. split; intros H.
      * intuition lia.
      * destruct H as [H1 [H2 [H3 H4]]]. repeat split; auto.
        destruct (Nat.eq_dec j (List.length pre - 1)) as [->|]; [|lia].
        rewrite HS in H3. lia.
    + destruct (Z.sgn b =? lastnz pre) eqn:E1.
      * replace (lastnz pre) with (Z.sgn b) by lia. rewrite IH'. split; intros H.
        -- intuition lia.
        -- destruct H as [H1 [H2 [H3 H4]]]. repeat split; auto.
           destruct (Nat.eq_dec j (List.length pre - 1)) as [->|]; [|lia].
           exfalso. rewrite HS in *. rewrite Hf, Hb in H4. lia.
      * cbn [In]. rewrite IH'. split; intros H.
        -- destruct H as [<-|H]; [|intuition lia].
           rewrite HS. rewrite Hf, Hb. repeat split; lia.
        -- destruct H as [H1 [H2 [H3 H4]]].
           destruct (Nat.eq_dec j (List.length pre - 1)) as [->|]; [left; auto|].
           right. repeat split; auto. lia.
Qed.

Lemma at_signs x v k : (k < List.length x)%nat -> at_ (signs x v) k = Z.sgn (at_ x k - v).
Proof.
  intros H. unfold at_, signs.
  rewrite (nth_indep _ 0 (Z.sgn (0 - v))) by (rewrite map_length; auto).
  apply (map_nth (fun a => Z.sgn (a - v))).
Qed.

Lemma scan_of_in x v j :
  In j (scan_of x v) <->
  (S j < List.length x)%nat /\ at_ x (S j) <> v /\
  lastnz (firstn (S j) (signs x v)) <> Z.sgn (at_ x (S j) - v).
Proof.
  unfold scan_of. destruct x as [|x0 x']; [simpl; intuition lia|].
  pose proof (scan_in (signs x' v) [Z.sgn (x0 - v)] j ltac:(discriminate)) as H.
  cbv zeta in H. cbn [List.length app] in H. rewrite Nat.sub_diag in H.
  change (Z.sgn (x0 - v) :: signs x' v) with (signs (x0 :: x') v) in *.
  change (signs (x0 :: x') v) with (Z.sgn (x0 - v) :: signs x' v) at 1.
  replace (lastnz [Z.sgn (x0 - v)]) with (Z.sgn (Z.sgn (x0 - v))) in H.
  2:{ unfold lastnz, upd. simpl. destruct (Z.sgn (x0 - v) =? 0) eqn:E; lia. }
  rewrite H, signs_length.
  split; intros [H1 H2].
  - destruct H2 as [H2 [H3 H4]]. rewrite at_signs in * by auto.
    split; [exact H2|]. split; [lia|].
    replace (Z.sgn (Z.sgn (at_ (x0 :: x') (S j) - v)))
      with (Z.sgn (at_ (x0 :: x') (S j) - v)) in H4 by lia. exact H4.
  - destruct H2 as [H2 H3]. rewrite at_signs by auto.
    cbn [List.length] in H1. repeat split; try lia; exact H1.
Qed.

Lemma zero_run x v k i : (i < List.length x)%nat ->
  ((forall m, (k < m <= i)%nat -> at_ (signs x v) m = 0) <->
   (forall m, (k < m <= i)%nat -> at_ x m = v)).
Proof.
  intros Hi. split; intros H m Hm; specialize (H m Hm).
  - rewrite at_signs in H by lia. lia.
  - rewrite at_signs by lia. lia.
Qed.

Lemma scan_of_crossing x v j : In j (scan_of x v) <-> Crossing x v j.
Proof.
  rewrite scan_of_in. unfold Crossing, UpCross, DownCross.
  pose proof (lastnz_sign (firstn (S j) (signs x v))) as Hs.
  split.
  - intros [H1 [H2 H3]].
    destruct (Z.lt_trichotomy (at_ x (S j)) v) as [Hlt|[Heq|Hgt]]; [right|lia|left].
    + repeat split; auto. intros k Hk Hm.
      assert (Hge : 0 <= lastnz (firstn (S j) (signs x v))) by lia.
      rewrite lastnz_ge in Hge by (rewrite signs_length; lia).
      specialize (Hge k Hk). rewrite at_signs in Hge by lia.
      assert (0 <= Z.sgn (at_ x k - v)) by (apply Hge; apply zero_run; auto; lia). lia.
    + repeat split; auto. intros k Hk Hm.
      assert (Hge : lastnz (firstn (S j) (signs x v)) <= 0) by lia.
      rewrite lastnz_le in Hge by (rewrite signs_length; lia).
      specialize (Hge k Hk). rewrite at_signs in Hge by lia.
      assert (Z.sgn (at_ x k - v) <= 0) by (apply Hge; apply zero_run; auto; lia). lia.
  - intros [[H1 [H2 H3]]|[H1 [H2 H3]]].
    + repeat split; auto; try lia.
      assert (Hle : lastnz (firstn (S j) (signs x v)) <= 0); [|lia].
      apply lastnz_le; [rewrite signs_length; lia|].
      intros k Hk Hm. rewrite at_signs by lia.
      assert (at_ x k <= v); [|lia]. apply H3; auto. eapply zero_run; eauto. lia.
    + repeat split; auto; try lia.
      assert (Hle : 0 <= lastnz (firstn (S j) (signs x v))); [|lia].
      apply lastnz_ge; [rewrite signs_length; lia|].
      intros k Hk Hm. rewrite at_signs by lia.
      assert (v <= at_ x k); [|lia]. apply H3; auto. eapply zero_run; eauto. lia.
Qed.

(* ---- alternation ----------------------------------------------------------- *)
Definition sg (y : list Z) (s : Z) (i : nat) : Prop := Z.sgn (at_ y (S i)) = s.

Lemma scan_alt : forall l pre prev, pre <> [] -> (prev = 1 \/ prev = -1) ->
  alternating (sg (pre ++ l) (- prev)) (sg (pre ++ l) prev)
              (scan prev (List.length pre - 1) l).
Proof.
  induction l as [|b l IH]; intros pre prev Hne Hp; [exact I|].
  assert (Hlen : (0 < List.length pre)%nat) by (destruct pre; [congruence|simpl; lia]).
  cbn [scan]. replace (S (List.length pre - 1)) with (List.length pre) by lia.
  assert (IH' : forall p, p = 1 \/ p = -1 ->
     alternating (sg (pre ++ b :: l) (- p)) (sg (pre ++ b :: l) p)
       (scan p (List.length pre) l)).
  { intros p Hp'. specialize (IH (pre ++ [b]) p ltac:(destruct pre; discriminate) Hp').
    rewrite app_length in IH. simpl List.length in IH.
    replace (List.length pre + 1 - 1)%nat with (List.length pre) in IH by lia.
    rewrite <- cons_app_one in IH. exact IH. }
  destruct (b =? 0) eqn:E0; [auto|].
  destruct (Z.sgn b =? prev) eqn:E1; [auto|].
  cbn [alternating]. split.
  - unfold sg. replace (S (List.length pre - 1)) with (List.length pre) by lia.
    rewrite at_middle. lia.
  - assert (prev = - Z.sgn b) by lia. subst prev.
    rewrite Z.opp_involutive. apply IH'. lia.
Qed.

Lemma scan_alt0 : forall l pre, pre <> [] ->
  exists s, (s = 1 \/ s = -1) /\
  alternating (sg (pre ++ l) s) (sg (pre ++ l) (- s))
              (scan 0 (List.length pre - 1) l).
Proof.
  induction l as [|b l IH]; intros pre Hne; [exists 1; simpl; auto|].
  assert (Hlen : (0 < List.length pre)%nat) by (destruct pre; [congruence|simpl; lia]).
  cbn [scan]. replace (S (List.length pre - 1)) with (List.length pre) by lia.
  destruct (b =? 0) eqn:E0.
  - destruct (IH (pre ++ [b]) ltac:(destruct pre; discriminate)) as [s [Hs H]].
    exists s. split; auto.
    rewrite app_length in H. simpl List.length in H.
    replace (List.length pre + 1 - 1)%nat with (List.length pre) in H by lia.
    rewrite <- cons_app_one in H. exact H.
  - replace (Z.sgn b =? 0) with false by lia.
    exists (Z.sgn b). split; [lia|]. cbn [alternating]. split.
    + unfold sg. replace (S (List.length pre - 1)) with (List.length pre) by lia.
      rewrite at_middle. reflexivity.
    + pose proof (scan_alt l (pre ++ [b]) (Z.sgn b) ltac:(destruct pre; discriminate)
                    ltac:(lia)) as H.
      rewrite app_length in H. simpl List.length in H.
      replace (List.length pre + 1 - 1)%nat with (List.length pre) in H by lia.
      rewrite <- cons_app_one in H. exact H.
Qed.

Lemma scan_of_alt_sg x v :
  exists s, (s = 1 \/ s = -1) /\
  alternating (sg (signs x v) s) (sg (signs x v) (- s)) (scan_of x v).
Proof.
  unfold scan_of. destruct x as [|x0 x']; [exists 1; simpl; auto|].
  change (signs (x0 :: x') v) with (Z.sgn (x0 - v) :: signs x' v).
  destruct (Z.eq_dec (Z.sgn (x0 - v)) 0) as [E|E].
  - rewrite E. apply (scan_alt0 (signs x' v) [0]). discriminate.
  - exists (- Z.sgn (x0 - v)). split; [lia|].
    replace (Z.sgn (Z.sgn (x0 - v))) with (Z.sgn (x0 - v)) by lia.
    rewrite Z.opp_involutive.
    apply (scan_alt (signs x' v) [Z.sgn (x0 - v)]); [discriminate|lia].
Qed.

Lemma crossing_sign x v i : Crossing x v i ->
  (UpCross x v i <-> v < at_ x (S i)) /\ (DownCross x v i <-> at_ x (S i) < v).
Proof.
  intros [[H1 [H2 H3]]|[H1 [H2 H3]]]; split; split; unfold UpCross, DownCross; intros; repeat split; auto; try lia.
Qed.

Lemma scan_of_alternating x v :
  alternating (UpCross x v) (DownCross x v) (scan_of x v) \/
  alternating (DownCross x v) (UpCross x v) (scan_of x v).
Proof.
  destruct (scan_of_alt_sg x v) as [s [Hs H]].
  assert (Hup : forall i, In i (scan_of x v) -> sg (signs x v) 1 i -> UpCross x v i).
  { intros i Hi Hsg. apply scan_of_crossing in Hi.
    apply (crossing_sign x v i Hi). unfold sg in Hsg.
    assert (S i < List.length x)%nat by (destruct Hi as [[? _]|[? _]]; auto).
    rewrite at_signs in Hsg by auto. lia. }
  assert (Hdn : forall i, In i (scan_of x v) -> sg (signs x v) (-1) i -> DownCross x v i).
  { intros i Hi Hsg. apply scan_of_crossing in Hi.
    apply (crossing_sign x v i Hi). unfold sg in Hsg.
    assert (S i < List.length x)%nat by (destruct Hi as [[? _]|[? _]]; auto).
    rewrite at_signs in Hsg by auto. lia. }
  destruct Hs; subst s; [left|right].
  - eapply alternating_impl; [| |exact H]; auto.
  - eapply alternating_impl; [| |exact H]; auto.
Qed.

Lemma up_down_excl x v i : UpCross x v i -> DownCross x v i -> False.
Proof. intros [_ [H1 _]] [_ [H2 _]]. lia. Qed.

Lemma findcross_none m x v : x <> [] -> findcross m x v None = Ok (scan_of x v).
Proof.
  intros Hx. unfold findcross. rewrite raw_findcross_scan by auto. cbn [bind].
  destruct (scan_of x v); reflexivity.
Qed.

Lemma findcross_exact m x v : x <> [] ->
  exists l, findcross m x v None = Ok l /\ increasing l /\
            forall i, In i l <-> Crossing x v i.
Proof.
  intros Hx. exists (scan_of x v). split; [apply findcross_none; auto|]. split.
  - unfold scan_of. destruct (signs x v); [apply increasing_nil|apply scan_increasing].
  - apply scan_of_crossing.
Qed.

Lemma scan_of_increasing x v : increasing (scan_of x v).
Proof. unfold scan_of. destruct (signs x v); [apply increasing_nil|apply scan_increasing]. Qed.

Lemma geti_signs x v i : (i < List.length x)%nat -> geti (signs x v) i = Ok (Z.sgn (at_ x i - v)).
Proof.
  intros H. unfold geti, signs. rewrite nth_error_map.
  rewrite (nth_error_nth' x 0) by auto. reflexivity.
Qed.

Lemma first_dir x v i0 r : scan_of x v = i0 :: r ->
  (S i0 < List.length x)%nat /\
  ((UpCross x v i0 /\ v < at_ x (S i0) /\ at_ x i0 <= v /\
    alternating (UpCross x v) (DownCross x v) (scan_of x v)) \/
   (DownCross x v i0 /\ at_ x (S i0) < v /\ v <= at_ x i0 /\
    alternating (DownCross x v) (UpCross x v) (scan_of x v))).
Proof.
  intros E. destruct (scan_of_alternating x v) as [H|H]; rewrite E in H;
    assert (H' := H); destruct H' as [Hc _].
  - split; [apply Hc|]. left. rewrite E.
    split; [exact Hc|]. destruct Hc as [_ [H2 H3]].
    split; [exact H2|]. split; [apply H3; intros; lia|exact H].
  - split; [apply Hc|]. right. rewrite E.
    split; [exact Hc|]. destruct Hc as [_ [H2 H3]].
    split; [exact H2|]. split; [apply H3; intros; lia|exact H].
Qed.

Lemma step2_1_alt (P Q : nat -> Prop) l a :
  (forall b, In b l -> P b -> Q b -> False) ->
  alternating P Q l -> (In a (step2 1 l) <-> In a l /\ Q a).
Proof.
  intros Hd H. unfold step2. destruct l as [|b l]; simpl; [tauto|].
  destruct H as [Hb H]. rewrite (every2_alternating Q P).
  - split; [intros [H1 H2]; auto|]. intros [[->|H1] H2]; auto.
    exfalso. eapply Hd; eauto. left. auto.
  - intros c Hc H1 H2. eapply Hd; eauto. right. auto.
  - exact H.
Qed.

Lemma skipn_increasing s l : increasing l -> increasing (skipn s l).
Proof.
  revert l. induction s as [|s IH]; intros [|a l] H; simpl; auto.
  apply IH. apply increasing_cons in H. tauto.
Qed.

Lemma findcross_u m x v : x <> [] ->
  exists l, findcross m x v (Some "u"%string) = Ok l /\ increasing l /\
            forall i, In i l <-> UpCross x v i.
Proof.
  intros Hx. unfold findcross. rewrite raw_findcross_scan by auto. cbn [bind].
  destruct (scan_of x v) as [|i0 r] eqn:E.
  - exists []. split; [reflexivity|]. split; [apply increasing_nil|].
    intros i. split; [intros []|].
    intros H. assert (H0 : In i (scan_of x v)) by (apply scan_of_crossing; left; auto).
    rewrite E in H0. exact H0.
  - destruct (first_dir x v i0 r E) as [Hlt Hdir].
    cbn [string_in existsb String.eqb Ascii.eqb Bool.eqb orb].
    rewrite Nat.add_1_r, geti_signs by auto. cbn [bind].
    assert (Hmem : forall i, In i (i0 :: r) <-> Crossing x v i)
      by (intros i; rewrite <- E; apply scan_of_crossing).
    assert (Hex : forall b, In b (i0 :: r) -> UpCross x v b -> DownCross x v b -> False)
      by (intros; eapply up_down_excl; eauto).
    assert (Hinc : increasing (i0 :: r)) by (rewrite <- E; apply scan_of_increasing).
    destruct Hdir as [[_ [Hs [_ Halt]]]|[_ [Hs [_ Halt]]]]; rewrite E in Halt.
    + replace (Z.sgn (at_ x (S i0) - v) <? 0) with false by lia.
      exists (step2 0 (i0 :: r)). split; auto. split.
      * apply every2_increasing. exact Hinc.
      * intros i. unfold step2. simpl skipn.
        rewrite (every2_alternating (UpCross x v) (DownCross x v)); auto.
        rewrite Hmem. unfold Crossing. split; tauto.
    + replace (Z.sgn (at_ x (S i0) - v) <? 0) with true by lia.
      exists (step2 1 (i0 :: r)). split; auto. split.
      * apply every2_increasing. apply skipn_increasing. exact Hinc.
      * intros i. rewrite (step2_1_alt (DownCross x v) (UpCross x v)); auto.
        -- rewrite Hmem. unfold Crossing. split; tauto.
        -- intros b Hb H1 H2. eapply Hex; eauto.
Qed.

Lemma findcross_d m x v : x <> [] ->
  exists l, findcross m x v (Some "d"%string) = Ok l /\ increasing l /\
            forall i, In i l <-> DownCross x v i.
Proof.
  intros Hx. unfold findcross. rewrite raw_findcross_scan by auto. cbn [bind].
  destruct (scan_of x v) as [|i0 r] eqn:E.
  - exists []. split; [reflexivity|]. split; [apply increasing_nil|].
    intros i. split; [intros []|].
    intros H. assert (H0 : In i (scan_of x v)) by (apply scan_of_crossing; right; auto).
    rewrite E in H0. exact H0.
  - destruct (first_dir x v i0 r E) as [Hlt Hdir].
    cbn [string_in existsb String.eqb Ascii.eqb Bool.eqb orb].
    rewrite Nat.add_1_r, geti_signs by auto. cbn [bind].
    assert (Hmem : forall i, In i (i0 :: r) <-> Crossing x v i)
      by (intros i; rewrite <- E; apply scan_of_crossing).
    assert (Hex : forall b, In b (i0 :: r) -> UpCross x v b -> DownCross x v b -> False)
      by (intros; eapply up_down_excl; eauto).
    assert (Hinc : increasing (i0 :: r)) by (rewrite <- E; apply scan_of_increasing).
    destruct Hdir as [[_ [Hs [_ Halt]]]|[_ [Hs [_ Halt]]]]; rewrite E in Halt.
    + replace (Z.sgn (at_ x (S i0) - v) >? 0) with true by lia.
      exists (step2 1 (i0 :: r)). split; auto. split.
      * apply every2_increasing. apply skipn_increasing. exact Hinc.
      * intros i. rewrite (step2_1_alt (UpCross x v) (DownCross x v)); auto.
        rewrite Hmem. unfold Crossing. split; tauto.
    + replace (Z.sgn (at_ x (S i0) - v) >? 0) with false by lia.
      exists (step2 0 (i0 :: r)). split; auto. split.
      * apply every2_increasing. exact Hinc.
      * intros i. unfold step2. simpl skipn.
        rewrite (every2_alternating (DownCross x v) (UpCross x v)); auto.
        -- rewrite Hmem. unfold Crossing. split; tauto.
        -- intros b Hb H1 H2. eapply Hex; eauto.
Qed.
