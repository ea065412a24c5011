(* Proofs about findrfc, method 2 (the rainflow cycle definition). *)
From Coq Require Import String ZifyBool Sorting.Permutation.
From Verif Require Import Base CrossModel CrossSpec ListFacts CrossProofs TpProofs TcProofs
  RfcModel RfcSpec.
Local Open Scope list_scope.
Local Open Scope Z_scope.

Definition readable (rd : nat -> res Z) (y : list Z) (n : nat) : Prop :=
  forall k, (k < n)%nat -> rd k = Ok (at_ y k).

Lemma readable_getm y : readable (getm y) y (List.length y).
Proof. intros k Hk. unfold getm. rewrite (nth_error_nth' y 0) by auto. reflexivity. Qed.

(* ---- backward loop ---- *)
Lemma back_spec rd y nc i : readable rd y (2 * nc + 1) -> (i < nc)%nat ->
  forall k p, (k <= i)%nat -> (k <= p <= i)%nat -> LeftSpan y i k ->
  (forall j, (k <= j <= i)%nat -> mn y p <= mn y j /\ (mn y j = mn y p -> (j <= p)%nat)) ->
  exists q, back rd k (mx y i) (mn y p) (2 * p)%nat = Ok (mn y q, (2 * q)%nat) /\ LeftMin y i q.
Proof.
  intros Hrd Hi. induction k as [|j IH]; intros p Hk Hp Hspan Hmin.
  - exists p. split; [reflexivity|]. split.
    + split; [lia|]. intros k Hk'. apply Hspan. lia.
    + intros j [Hj _]. apply Hmin. lia.
  - cbn [back]. rewrite Hrd by lia. cbn [bind]. change (at_ y (2 * j + 1)) with (mx y j).
    destruct (mx y j <=? mx y i) eqn:Ec.
    + assert (Hspan' : LeftSpan y i j).
      { split; [lia|]. intros k Hk'. destruct (Nat.eq_dec k j) as [->|]; [lia|].
        apply Hspan. lia. }
      rewrite Hrd by lia. cbn [bind]. change (at_ y (2 * j)) with (mn y j).
      destruct (mn y j <? mn y p) eqn:Em.
      * apply IH; auto; try lia. intros j' Hj'.
        destruct (Nat.eq_dec j' j) as [->|]; [lia|]. specialize (Hmin j' ltac:(lia)). lia.
      * apply IH; auto; try lia. intros j' Hj'.
        destruct (Nat.eq_dec j' j) as [->|]; [lia|]. apply Hmin. lia.
    + exists p. split; [reflexivity|]. split.
      * split; [lia|]. intros k Hk'. apply Hspan. lia.
      * intros j' [Hj1 Hj2]. apply Hmin. destruct (Nat.le_gt_cases j' j) as [Hle|]; [|lia].
        specialize (Hj2 j ltac:(lia)). lia.
Qed.

(* ---- forward loop ---- *)
Lemma fwd_spec rd y nc i : readable rd y (2 * nc + 1) -> (i < nc)%nat ->
  forall d j p, (j + d = nc)%nat -> (i < p <= j)%nat -> RightSpan y nc i j ->
  (forall j', (i < j' <= j)%nat -> mn y p <= mn y j' /\ (mn y j' = mn y p -> (j' <= p)%nat)) ->
  exists b q, fwd rd (seq j d) (mx y i) (mn y p) (2 * p)%nat = Ok (b, mn y q, (2 * q)%nat) /\
    RightMin y nc i q /\ (b = true <-> Reached y nc i).
Proof.
  intros Hrd Hi. induction d as [|d IH]; intros j p Hj Hp Hspan Hmin.
  - exists false, p. split; [reflexivity|]. split.
    + split; [split; [lia|]; intros k Hk; apply Hspan; lia|].
      intros j' [Hj' _]. apply Hmin. lia.
    + split; [discriminate|]. intros [k [Hk Hge]]. destruct Hspan as [_ Hs].
      specialize (Hs k ltac:(lia)). lia.
  - cbn [seq fwd]. rewrite Hrd by lia. cbn [bind]. change (at_ y (2 * j + 1)) with (mx y j).
    destruct (mx y i <=? mx y j) eqn:Ec.
    + exists true, p. split; [reflexivity|]. split.
      * split; [split; [lia|]; intros k Hk; apply Hspan; lia|].
        intros j' [Hj1 Hj2]. apply Hmin. destruct (Nat.le_gt_cases j' j) as [|Hgt]; [lia|].
        specialize (Hj2 j ltac:(lia)). lia.
      * split; auto. intros _. exists j. split; [lia|]. lia.
    + assert (Hspan' : RightSpan y nc i (S j)).
      { split; [lia|]. intros k Hk. destruct (Nat.eq_dec k j) as [->|]; [lia|].
        apply Hspan. lia. }
      rewrite Hrd by lia. cbn [bind].
      replace (2 * j + 2)%nat with (2 * S j)%nat by lia. change (at_ y (2 * S j)) with (mn y (S j)).
      destruct (mn y (S j) <=? mn y p) eqn:Em.
      * apply IH; auto; try lia. intros j' Hj'.
        destruct (Nat.eq_dec j' (S j)) as [->|]; [lia|]. specialize (Hmin j' ltac:(lia)). lia.
      * apply IH; auto; try lia. intros j' Hj'.
        destruct (Nat.eq_dec j' (S j)) as [->|]; [lia|]. apply Hmin. lia.
Qed.

Definition out (y : list Z) (h : Z) (i p : nat) : list nat :=
  if h <=? mx y i - mn y p then
    (if (p <=? i)%nat then [(2 * p)%nat; (2 * i + 1)%nat] else [(2 * i + 1)%nat; (2 * p)%nat])
  else [].

Lemma rfc_one_spec rd y nc h i : readable rd y (2 * nc + 1) -> (i < nc)%nat ->
  exists p, RainflowMin y nc i p /\ (p <= nc)%nat /\ rfc_one rd nc h i = Ok (out y h i p).
Proof.
  intros Hrd Hi. unfold rfc_one.
  rewrite (Hrd (2 * i)%nat), (Hrd (2 * i + 2)%nat), (Hrd (2 * i + 1)%nat) by lia. cbn [bind].
  change (at_ y (2 * i)) with (mn y i). change (at_ y (2 * i + 1)) with (mx y i).
  replace (2 * i + 2)%nat with (2 * S i)%nat by lia. change (at_ y (2 * S i)) with (mn y (S i)).
  destruct (back_spec rd y nc i Hrd Hi i i) as [l [El Hl]]; try lia.
  { split; [lia|]. intros; lia. }
  { intros j Hj. replace j with i by lia. lia. }
  rewrite El. cbn [bind].
  destruct (fwd_spec rd y nc i Hrd Hi (nc - (i + 1)) (i + 1) (S i)) as [b [r [Er [Hr Hb]]]]; try lia.
  { split; [lia|]. intros; lia. }
  { intros j Hj. replace j with (S i) by lia. lia. }
  assert (Hle : (l <= i)%nat) by (destruct Hl as [[? _] _]; auto).
  assert (Hri : (i < r <= nc)%nat) by (destruct Hr as [[? _] _]; auto).
  assert (Hsplus : mn y r <= mn y (S i)).
  { destruct Hr as [_ Hr]. apply (Hr (S i)). split; [lia|]. intros; lia. }
  assert (Hminus : (if h <=? mx y i - mn y l then [(2 * l)%nat; (2 * i + 1)%nat] else []) = out y h i l).
  { unfold out. replace (l <=? i)%nat with true by lia. reflexivity. }
  rewrite Hminus.
  destruct (mn y (S i) <=? mn y l) eqn:E1.
  - exists l. split; [|split; [lia|reflexivity]]. exists l, r. split; [exact Hl|]. split; [exact Hr|].
    right. split; [right; lia|reflexivity].
  - rewrite Er. cbn [bind]. destruct b; cbn [negb].
    + destruct (mn y r <=? mn y l) eqn:E2.
      * exists l. split; [|split; [lia|reflexivity]]. exists l, r. split; [exact Hl|]. split; [exact Hr|].
        right. split; [right; lia|reflexivity].
      * exists r. split; [|split; [lia|]].
        -- exists l, r. split; [exact Hl|]. split; [exact Hr|]. left.
           split; [apply Hb; reflexivity|]. split; [lia|reflexivity].
        -- unfold out. replace (r <=? i)%nat with false by lia.
           destruct (h <=? mx y i - mn y r); reflexivity.
    + exists l. split; [|split; [lia|reflexivity]]. exists l, r. split; [exact Hl|]. split; [exact Hr|].
      right. split; [left|reflexivity]. intros H. apply Hb in H. discriminate.
Qed.

(* ---- uniqueness and injectivity of the rainflow minimum ---- *)
Lemma LeftMin_unique y i p q : LeftMin y i p -> LeftMin y i q -> p = q.
Proof.
  intros [Hp1 Hp2] [Hq1 Hq2]. specialize (Hp2 q Hq1). specialize (Hq2 p Hp1). lia.
Qed.
Lemma RightMin_unique y nc i p q : RightMin y nc i p -> RightMin y nc i q -> p = q.
Proof.
  intros [Hp1 Hp2] [Hq1 Hq2]. specialize (Hp2 q Hq1). specialize (Hq2 p Hp1). lia.
Qed.
Lemma RainflowMin_unique y nc i p q : RainflowMin y nc i p -> RainflowMin y nc i q -> p = q.
Proof.
  intros [l [r [Hl [Hr H]]]] [l' [r' [Hl' [Hr' H']]]].
  assert (l' = l) by (eapply LeftMin_unique; eauto).
  assert (r' = r) by (eapply RightMin_unique; eauto). subst l' r'.
  destruct H as [[H1 [H2 ->]]|[H1 ->]], H' as [[H3 [H4 ->]]|[H3 ->]]; auto.
  - destruct H3; [contradiction|lia].
  - destruct H1; [contradiction|lia].
Qed.

Lemma RainflowMin_sides y nc i p : RainflowMin y nc i p ->
  ((p <= i)%nat /\ LeftMin y i p /\
     (Reached y nc i -> exists r, RightMin y nc i r /\ mn y r <= mn y p)) \/
  ((i < p)%nat /\ RightMin y nc i p /\ Reached y nc i /\
     exists l, LeftMin y i l /\ mn y l < mn y p).
Proof.
  intros [l [r [Hl [Hr H]]]]. destruct H as [[H1 [H2 ->]]|[H1 ->]].
  - right. split; [destruct Hr as [[? _] _]; lia|]. split; [exact Hr|]. split; [exact H1|]. eauto.
  - left. split; [destruct Hl as [[? _] _]; lia|]. split; [exact Hl|].
    intros Hx. destruct H1; [contradiction|]. exists r. split; auto.
Qed.

Lemma RainflowMin_injective y nc i i' p : (i < i' < nc)%nat ->
  RainflowMin y nc i p -> RainflowMin y nc i' p -> False.
Proof.
  intros Hii H H'. apply RainflowMin_sides in H. apply RainflowMin_sides in H'.
  destruct H as [[Hp [[Hs Hm] Hr]]|[Hp [[Hs Hm] [Hr [l [Hl Hlt]]]]]],
           H' as [[Hp' [[Hs' Hm'] Hr']]|[Hp' [[Hs' Hm'] [Hr' [l' [Hl' Hlt']]]]]].
  - (* left / left *)
    assert (Hge : mx y i <= mx y i') by (apply Hs'; lia).
    destruct Hr as [r [[Hr1 Hr2] Hrp]]; [exists i'; split; [lia|exact Hge]|].
    (* r lies at or before i' *)
    assert (Hri : (r <= i')%nat).
    { destruct (Nat.le_gt_cases r i') as [|Hgt]; auto. destruct Hr1 as [_ Hr1].
      specialize (Hr1 i' ltac:(lia)). lia. }
    assert (Hspan : LeftSpan y i' r).
    { split; [lia|]. intros k Hk. apply Hs'. destruct Hr1 as [? _]. lia. }
    specialize (Hm' r Hspan). destruct Hr1 as [? _]. lia.
  - (* left / right *) lia.
  - (* right / left *)
    destruct Hl as [[Hl1 Hl2] Hl3].
    destruct (Z_le_gt_dec (mx y i) (mx y i')) as [Hle|Hgt].
    + assert (Hspan : LeftSpan y i' l).
      { split; [lia|]. intros k Hk. destruct (Nat.lt_ge_cases k i) as [Hki|Hki].
        - specialize (Hl2 k ltac:(lia)). lia.
        - destruct (Nat.eq_dec k i) as [->|]; [lia|].
          destruct (Nat.lt_ge_cases k p) as [Hkp|Hkp].
          + destruct Hs as [_ Hs]. specialize (Hs k ltac:(lia)). lia.
          + apply Hs'. lia. }
      specialize (Hm' l Hspan). lia.
    + destruct Hr as [k [Hk Hge]].
      assert (Hki : (i' < k)%nat).
      { destruct (Nat.lt_ge_cases i' k) as [|Hle]; auto. exfalso.
        destruct (Nat.eq_dec k i') as [->|]; [lia|].
        destruct (Nat.lt_ge_cases k p) as [Hkp|Hkp].
        - destruct Hs as [_ Hs]. specialize (Hs k ltac:(lia)). lia.
        - destruct Hs' as [_ Hs']. specialize (Hs' k ltac:(lia)). lia. }
      destruct Hr' as [r' [[Hr1 Hr2] Hrp]]; [exists k; split; [lia|lia]|].
      assert (Hspan : RightSpan y nc i r').
      { destruct Hr1 as [Hr0 Hr1]. split; [lia|]. intros q Hq.
        destruct (Nat.lt_ge_cases q p) as [Hqp|Hqp].
        - destruct Hs as [_ Hs]. apply Hs. lia.
        - destruct (Nat.lt_ge_cases q i') as [Hqi|Hqi].
          + destruct Hs' as [_ Hs']. specialize (Hs' q ltac:(lia)). lia.
          + destruct (Nat.eq_dec q i') as [->|]; [lia|]. specialize (Hr1 q ltac:(lia)). lia. }
      specialize (Hm r' Hspan). destruct Hr1 as [? _]. lia.
  - (* right / right *)
    assert (Hlt2 : mx y i' < mx y i) by (apply Hs; lia).
    destruct Hl' as [[Hl1 Hl2] Hl3].
    assert (Hli : (i < l')%nat).
    { destruct (Nat.lt_ge_cases i l') as [|Hle]; auto. specialize (Hl2 i ltac:(lia)). lia. }
    assert (Hspan : RightSpan y nc i l').
    { split; [lia|]. intros k Hk. apply Hs. lia. }
    specialize (Hm l' Hspan). lia.
Qed.

(* ---- the whole loop ---- *)
Lemma rfc_loop_spec rd y nc h : readable rd y (2 * nc + 1) ->
  forall is, (forall i, In i is -> (i < nc)%nat) -> NoDup is ->
  exists l, rfc_loop rd nc h is = Ok l /\ NoDup l /\
  (forall idx, In idx l <-> exists i p, In i is /\ RainflowMin y nc i p /\ h <= mx y i - mn y p /\
    (idx = (2 * i + 1)%nat \/ idx = (2 * p)%nat)) /\
  (List.length l <= 2 * List.length is)%nat.
Proof.
  intros Hrd. induction is as [|i is IH]; intros Hin Hnd.
  - exists []. split; [reflexivity|]. split; [constructor|]. split; [|simpl; lia].
    intros idx. split; [intros []|]. intros [i [p [[] _]]].
  - destruct (rfc_one_spec rd y nc h i Hrd) as [p [Hp [Hpn Eone]]]; [apply Hin; left; auto|].
    inversion Hnd as [|? ? Hni Hnd']; subst.
    destruct IH as [l [El [Hl [Hmem Hlen]]]]; [intros; apply Hin; right; auto|exact Hnd'|].
    cbn [rfc_loop]. rewrite Eone. cbn [bind]. rewrite El. cbn [bind].
    exists (out y h i p ++ l). split; [reflexivity|].
    assert (Hout : forall idx, In idx (out y h i p) <->
       h <= mx y i - mn y p /\ (idx = (2 * i + 1)%nat \/ idx = (2 * p)%nat)).
    { intros idx. unfold out. destruct (h <=? mx y i - mn y p) eqn:Eh.
      - destruct (p <=? i)%nat; simpl; intuition lia.
      - simpl. split; [intros []|]. intros [Hx _]. lia. }
    split; [|split].
    + assert (Hnd1 : NoDup (out y h i p)).
      { unfold out. destruct (h <=? mx y i - mn y p); [|constructor].
        destruct (p <=? i)%nat; repeat constructor; simpl; intuition lia. }
      assert (Hdis : forall idx, In idx (out y h i p) -> In idx l -> False).
      { intros idx H1 H2. apply Hout in H1. apply Hmem in H2.
        destruct H1 as [_ H1]. destruct H2 as [i' [p' [Hi' [Hp' [_ H2]]]]].
        assert (i' <> i) by (intros ->; contradiction).
        destruct H1 as [-> | ->], H2 as [H2|H2]; try lia.
        assert (p' = p) by lia. subst p'.
        assert (i < nc)%nat by (apply Hin; left; auto).
        assert (i' < nc)%nat by (apply Hin; right; auto).
        destruct (Nat.lt_total i i') as [Hlt|[Heq|Hlt]]; [|lia|].
        - eapply (RainflowMin_injective y nc i i' p); eauto; lia.
        - eapply (RainflowMin_injective y nc i' i p); eauto; lia. }
      clear - Hnd1 Hl Hdis. induction (out y h i p) as [|a o IHo]; simpl; auto.
      inversion Hnd1; subst. constructor.
      * rewrite in_app_iff. intros [Hx|Hx]; [contradiction|]. eapply Hdis; eauto. left; auto.
      * apply IHo; auto. intros idx H1' H2'. eapply Hdis; eauto. right; auto.
    + intros idx. rewrite in_app_iff, Hout, Hmem. split.
      * intros [[H1 H2]|[i' [p' [Hi' Hrest]]]].
        -- exists i, p. simpl. auto.
        -- exists i', p'. simpl. tauto.
      * intros [i' [p' [[<-|Hi'] [Hp' [Hh Hidx]]]]].
        -- left. assert (p' = p) by (eapply RainflowMin_unique; eauto). subst p'. auto.
        -- right. exists i', p'. auto.
    + rewrite app_length. unfold out. destruct (h <=? mx y i - mn y p); [|simpl; lia].
      destruct (p <=? i)%nat; simpl; lia.
Qed.

Lemma findrfc2_rd_correct rd y nc n h : readable rd y (2 * nc + 1) -> (n / 2 = nc)%nat ->
  exists l, findrfc2_rd rd n h = Ok l /\ NoDup l /\
   (forall idx, In idx l <-> InRainflow y nc h idx) /\ (List.length l <= 2 * nc)%nat.
Proof.
  intros Hrd Hn. unfold findrfc2_rd. rewrite Hn.
  destruct (rfc_loop_spec rd y nc h Hrd (seq 0 nc)) as [l [El [Hnd [Hmem Hlen]]]].
  { intros i Hi. apply in_seq in Hi. lia. }
  { apply seq_NoDup. }
  rewrite seq_length in Hlen. exists l. split; [exact El|]. split; [exact Hnd|]. split; [|lia].
  intros idx. rewrite Hmem. unfold InRainflow. split.
  - intros [i [p [Hi H]]]. apply in_seq in Hi. exists i, p. split; [lia|exact H].
  - intros [i [p [Hi H]]]. exists i, p. split; [apply in_seq; lia|exact H].
Qed.

Lemma findrfc2_odd y nc h : List.length y = (2 * nc + 1)%nat ->
  exists l, findrfc2 y h = Ok l /\ NoDup l /\
   (forall idx, In idx l <-> InRainflow y nc h idx) /\ (List.length l <= List.length y)%nat.
Proof.
  intros Hlen. unfold findrfc2.
  destruct (findrfc2_rd_correct (getm y) y nc (List.length y) h) as [l [E [H1 [H2 H3]]]].
  - rewrite <- Hlen. apply readable_getm.
  - rewrite Hlen. symmetry. apply (Nat.div_unique _ 2 nc 1); lia.
  - exists l. repeat split; auto; try apply H2. lia.
Qed.

(* even length: the word after the array is read but does not matter *)
Lemma fwd_junk (rd rd' : nat -> res Z) nc : (forall k, (k < 2 * nc)%nat -> rd k = rd' k) ->
  (exists a, rd (2 * nc)%nat = Ok a) -> (exists a, rd' (2 * nc)%nat = Ok a) ->
  forall d j yi xp tp, (j + d = nc)%nat ->
  fwd rd (seq j d) yi xp tp = fwd rd' (seq j d) yi xp tp \/
  exists x1 t1 x2 t2, fwd rd (seq j d) yi xp tp = Ok (false, x1, t1) /\
                      fwd rd' (seq j d) yi xp tp = Ok (false, x2, t2).
Proof.
  intros Hag [a Ha] [a' Ha']. induction d as [|d IH]; intros j yi xp tp Hj; [left; reflexivity|].
  cbn [seq fwd]. rewrite <- (Hag (2 * j + 1)%nat) by lia.
  destruct (rd (2 * j + 1)%nat) as [v|e]; [|left; reflexivity]. cbn [bind].
  destruct (yi <=? v); [left; reflexivity|].
  destruct (Nat.eq_dec d 0) as [->|Hd].
  - right. replace (2 * j + 2)%nat with (2 * nc)%nat by lia. rewrite Ha, Ha'. cbn [bind seq fwd].
    destruct (a <=? xp), (a' <=? xp); eauto 8.
  - rewrite <- (Hag (2 * j + 2)%nat) by lia.
    destruct (rd (2 * j + 2)%nat) as [w|e]; [|left; reflexivity]. cbn [bind].
    destruct (w <=? xp); apply IH; lia.
Qed.

Lemma back_agree (rd rd' : nat -> res Z) : forall k yi xm tm,
  (forall q, (q < 2 * k)%nat -> rd q = rd' q) -> back rd k yi xm tm = back rd' k yi xm tm.
Proof.
  induction k as [|j IH]; intros yi xm tm Hag; [reflexivity|].
  cbn [back]. rewrite <- (Hag (2 * j + 1)%nat) by lia.
  destruct (rd (2 * j + 1)%nat); [|reflexivity]. cbn [bind].
  destruct (a <=? yi); [|reflexivity]. rewrite <- (Hag (2 * j)%nat) by lia.
  destruct (rd (2 * j)%nat); [|reflexivity]. cbn [bind].
  destruct (a0 <? xm); apply IH; intros; apply Hag; lia.
Qed.

Lemma rfc_one_junk (rd rd' : nat -> res Z) nc h i : (i < nc)%nat ->
  (forall k, (k < 2 * nc)%nat -> rd k = rd' k) ->
  (exists a, rd (2 * nc)%nat = Ok a) -> (exists a, rd' (2 * nc)%nat = Ok a) ->
  rfc_one rd nc h i = rfc_one rd' nc h i.
Proof.
  intros Hi Hag Ha Ha'. unfold rfc_one.
  rewrite <- (Hag (2 * i)%nat), <- (Hag (2 * i + 1)%nat) by lia.
  destruct (rd (2 * i)%nat) as [xm|e]; [|reflexivity]. cbn [bind].
  destruct (Nat.eq_dec (S i) nc) as [Hlast|Hlast].
  - replace (2 * i + 2)%nat with (2 * nc)%nat by lia.
    destruct Ha as [a Ha], Ha' as [a' Ha']. rewrite Ha, Ha'. cbn [bind].
    destruct (rd (2 * i + 1)%nat) as [yi|e]; [|reflexivity]. cbn [bind].
    rewrite (back_agree rd rd') by (intros; apply Hag; lia).
    destruct (back rd' i yi xm (2 * i)%nat) as [[xmin tmi]|e]; [|reflexivity]. cbn [bind].
    replace (nc - (i + 1))%nat with 0%nat by lia. cbn [seq fwd bind negb].
    destruct (a <=? xmin), (a' <=? xmin); reflexivity.
  - rewrite <- (Hag (2 * i + 2)%nat) by lia.
    destruct (rd (2 * i + 2)%nat) as [xp|e]; [|reflexivity]. cbn [bind].
    destruct (rd (2 * i + 1)%nat) as [yi|e]; [|reflexivity]. cbn [bind].
    rewrite (back_agree rd rd') by (intros; apply Hag; lia).
    destruct (back rd' i yi xm (2 * i)%nat) as [[xmin tmi]|e]; [|reflexivity]. cbn [bind].
    destruct (xp <=? xmin); [reflexivity|].
    destruct (fwd_junk rd rd' nc Hag Ha Ha' (nc - (i + 1)) (i + 1) yi xp (2 * i + 2)%nat ltac:(lia))
      as [->|[x1 [t1 [x2 [t2 [-> ->]]]]]]; reflexivity.
Qed.

Lemma rfc_loop_junk (rd rd' : nat -> res Z) nc h : 
  (forall k, (k < 2 * nc)%nat -> rd k = rd' k) ->
  (exists a, rd (2 * nc)%nat = Ok a) -> (exists a, rd' (2 * nc)%nat = Ok a) ->
  forall is, (forall i, In i is -> (i < nc)%nat) ->
  rfc_loop rd nc h is = rfc_loop rd' nc h is.
Proof.
  intros Hag Ha Ha'. induction is as [|i is IH]; intros Hin; [reflexivity|].
  cbn [rfc_loop]. rewrite (rfc_one_junk rd rd' nc h i) by (auto; apply Hin; left; auto).
  rewrite IH by (intros; apply Hin; right; auto). reflexivity.
Qed.

Lemma getm_app1 (y : list Z) z k : (k < List.length y)%nat -> getm (y ++ [z]) k = getm y k.
Proof. intros H. unfold getm. rewrite nth_error_app1 by auto. reflexivity. Qed.

Lemma getm_app_last (y : list Z) z : getm (y ++ [z]) (List.length y) = Ok z.
Proof. unfold getm. rewrite nth_error_app2, Nat.sub_diag by lia. reflexivity. Qed.

Lemma findrfc2_even y nc h z z' : List.length y = (2 * nc)%nat ->
  findrfc2_rd (getm (y ++ [z])) (List.length y) h = findrfc2_rd (getm (y ++ [z'])) (List.length y) h
  /\ exists l, findrfc2_rd (getm (y ++ [z])) (List.length y) h = Ok l /\ NoDup l /\
   (forall idx, In idx l <-> InRainflow (y ++ [z]) nc h idx) /\ (List.length l <= List.length y)%nat.
Proof.
  intros Hlen.
  assert (Hnc : (List.length y / 2 = nc)%nat)
    by (rewrite Hlen; symmetry; apply (Nat.div_unique _ 2 nc 0); lia).
  split.
  - unfold findrfc2_rd. rewrite Hnc. apply rfc_loop_junk.
    + intros k Hk. rewrite !getm_app1 by lia. reflexivity.
    + exists z. rewrite <- Hlen. apply getm_app_last.
    + exists z'. rewrite <- Hlen. apply getm_app_last.
    + intros i Hi. apply in_seq in Hi. lia.
  - destruct (findrfc2_rd_correct (getm (y ++ [z])) (y ++ [z]) nc (List.length y) h) as [l [E [H1 [H2 H3]]]].
    + replace (2 * nc + 1)%nat with (List.length (y ++ [z])) by (rewrite app_length; simpl; lia).
      apply readable_getm.
    + exact Hnc.
    + exists l. repeat split; auto; try apply H2. lia.
Qed.

Lemma rfc_loop_oob y nc h : List.length y = (2 * nc)%nat -> (0 < nc)%nat ->
  findrfc2 y h = Err MemoryError.
Proof.
  intros Hlen Hnc. unfold findrfc2, findrfc2_rd.
  assert (En : (List.length y / 2 = nc)%nat)
    by (rewrite Hlen; symmetry; apply (Nat.div_unique _ 2 nc 0); lia).
  rewrite En.
  assert (Hgood : forall k, (k < 2 * nc)%nat -> getm y k = Ok (at_ y k)).
  { intros k Hk. apply readable_getm. lia. }
  assert (Hbad : forall k, (2 * nc <= k)%nat -> getm y k = Err MemoryError).
  { intros k Hk. unfold getm. rewrite (proj2 (nth_error_None y k)) by lia. reflexivity. }
  (* every read either succeeds or gives MemoryError *)
  assert (Hrd : forall k, getm y k = Err MemoryError \/ exists a, getm y k = Ok a).
  { intros k. destruct (Nat.lt_ge_cases k (2 * nc)); [right; eauto|left; auto]. }
  assert (Hbk : forall k yi xm tm, (exists r, back (getm y) k yi xm tm = Ok r) \/
      back (getm y) k yi xm tm = Err MemoryError).
  { induction k as [|j IH]; intros; cbn [back]; [eauto|].
    destruct (Hrd (2 * j + 1)%nat) as [->|[a ->]]; [right; reflexivity|]. cbn [bind].
    destruct (a <=? yi); [|eauto].
    destruct (Hrd (2 * j)%nat) as [->|[b ->]]; [right; reflexivity|]. cbn [bind].
    destruct (b <? xm); apply IH. }
  assert (Hfw : forall js yi xp tp, (exists r, fwd (getm y) js yi xp tp = Ok r) \/
      fwd (getm y) js yi xp tp = Err MemoryError).
  { induction js as [|j js IH]; intros; cbn [fwd]; [eauto|].
    destruct (Hrd (2 * j + 1)%nat) as [->|[a ->]]; [right; reflexivity|]. cbn [bind].
    destruct (yi <=? a); [eauto|].
    destruct (Hrd (2 * j + 2)%nat) as [->|[b ->]]; [right; reflexivity|]. cbn [bind].
    destruct (b <=? xp); apply IH. }
  assert (Hone : forall i, (exists r, rfc_one (getm y) nc h i = Ok r) \/
      rfc_one (getm y) nc h i = Err MemoryError).
  { intros i. unfold rfc_one.
    destruct (Hrd (2 * i)%nat) as [->|[a ->]]; [right; reflexivity|]. cbn [bind].
    destruct (Hrd (2 * i + 2)%nat) as [->|[b ->]]; [right; reflexivity|]. cbn [bind].
    destruct (Hrd (2 * i + 1)%nat) as [->|[c ->]]; [right; reflexivity|]. cbn [bind].
    destruct (Hbk i c a (2 * i)%nat) as [[[xm tm] ->]| ->]; [|right; reflexivity]. cbn [bind].
    destruct (b <=? xm); [eauto|].
    destruct (Hfw (seq (i + 1) (nc - (i + 1))) c b (2 * i + 2)%nat) as [[[[br xp] tp] ->]| ->];
      [|right; reflexivity]. cbn [bind].
    destruct br; cbn [negb]; [|eauto]. destruct (xp <=? xm); [eauto|].
    destruct (h <=? c - xp); eauto. }
  assert (Hlast : rfc_one (getm y) nc h (nc - 1) = Err MemoryError).
  { unfold rfc_one. rewrite Hgood by lia. cbn [bind].
    rewrite (Hbad (2 * (nc - 1) + 2)%nat) by lia. reflexivity. }
  assert (Hall : forall is, In (nc - 1)%nat is -> rfc_loop (getm y) nc h is = Err MemoryError).
  { induction is as [|i is IH]; intros Hin; [destruct Hin|]. cbn [rfc_loop].
    destruct (Hone i) as [[r Er]|Er].
    - rewrite Er. cbn [bind]. destruct Hin as [->|Hin]; [congruence|].
      rewrite IH by auto. reflexivity.
    - rewrite Er. reflexivity. }
  apply Hall. apply in_seq. lia.
Qed.
