(* findrfc as a user calls it: sorting, the C twin, findtp with a threshold. *)
From Coq Require Import String ZifyBool.
From Verif Require Import Base CrossModel CrossSpec ListFacts CrossProofs TpProofs TcProofs
  RfcModel RfcSpec RfcProofs RfcFilterProofs.
Local Open Scope list_scope.
Local Open Scope Z_scope.

Lemma insert_nat_in a l x : In x (insert_nat a l) <-> x = a \/ In x l.
Proof.
  induction l as [|b l IH]; simpl; [intuition|].
  destruct (a <=? b)%nat; simpl; [intuition|]. rewrite IH. intuition.
Qed.
Lemma sort_nat_in l x : In x (sort_nat l) <-> In x l.
Proof. induction l as [|a l IH]; simpl; [tauto|]. rewrite insert_nat_in, IH. intuition. Qed.
Lemma insert_nat_length a l : List.length (insert_nat a l) = S (List.length l).
Proof. induction l as [|b l IH]; simpl; auto. destruct (a <=? b)%nat; simpl; auto. Qed.
Lemma sort_nat_length l : List.length (sort_nat l) = List.length l.
Proof. induction l; simpl; auto. rewrite insert_nat_length. auto. Qed.
Lemma insert_nat_increasing a l : increasing l -> ~ In a l -> increasing (insert_nat a l).
Proof.
  induction l as [|b l IH]; intros Hl Hn; simpl.
  - apply increasing_cons. split; [intros x []|apply increasing_nil].
  - apply increasing_cons in Hl. destruct Hl as [Hb Hl].
    destruct (a <=? b)%nat eqn:E.
    + apply increasing_cons. split; [|apply increasing_cons; auto].
      intros x [<-|Hx]; [simpl in Hn; assert (a <> b) by (intros ->; apply Hn; auto); lia|].
      specialize (Hb x Hx). lia.
    + apply increasing_cons. split.
      * intros x Hx. apply insert_nat_in in Hx. destruct Hx as [->|Hx]; [lia|auto].
      * apply IH; auto. intros Hx. apply Hn. right; auto.
Qed.
Lemma sort_nat_increasing l : NoDup l -> increasing (sort_nat l).
Proof.
  induction 1 as [|a l Hn Hl IH]; [apply increasing_nil|].
  simpl. apply insert_nat_increasing; auto. rewrite sort_nat_in. exact Hn.
Qed.
Lemma increasing_map_add k l : increasing (map (fun i => (i + k)%nat) l) <-> increasing l.
Proof.
  unfold increasing. rewrite map_length. split; intros H a b Hab; specialize (H a b Hab).
  - rewrite (nth_indep _ 0%nat (0 + k)%nat), (nth_indep (map _ l) 0%nat (0 + k)%nat) in H
      by (rewrite map_length; lia).
    rewrite !(map_nth (fun i => (i + k)%nat)) in H. lia.
  - rewrite (nth_indep (map _ l) 0%nat (0 + k)%nat) by (rewrite map_length; lia).
    rewrite (nth_indep (map (fun i => (i + k)%nat) l) 0%nat (0 + k)%nat) by (rewrite map_length; lia).
    rewrite !(map_nth (fun i => (i + k)%nat)). lia.
Qed.

(* both parities at once: y ++ mem with one word of memory available *)
Lemma findrfc2_mem_spec mem y nc h : (List.length y / 2 = nc)%nat ->
  (2 * nc + 1 <= List.length (y ++ mem))%nat ->
  exists l, findrfc2_mem mem y h = Ok l /\ NoDup l /\
   (forall idx, In idx l <-> InRainflow (y ++ mem) nc h idx) /\ (List.length l <= 2 * nc)%nat.
Proof.
  intros Hn Hlen. unfold findrfc2_mem. apply findrfc2_rd_correct; auto.
  intros k Hk. apply readable_getm. lia.
Qed.

(* the value of the word behind y does not influence the result *)
Lemma findrfc2_mem_junk y h z z' :
  findrfc2_mem [z] y h = findrfc2_mem [z'] y h.
Proof.
  unfold findrfc2_mem. destruct (Nat.Even_or_Odd (List.length y)) as [[nc Hn]|[nc Hn]].
  - apply (findrfc2_even y nc h z z'); auto.
  - unfold findrfc2_rd.
    assert (En : (List.length y / 2 = nc)%nat)
      by (rewrite Hn; symmetry; apply (Nat.div_unique _ 2 nc 1); lia).
    rewrite En. apply rfc_loop_junk.
    + intros k Hk. rewrite !getm_app1 by lia. reflexivity.
    + exists (at_ y (2 * nc)). rewrite getm_app1 by lia. apply readable_getm. lia.
    + exists (at_ y (2 * nc)). rewrite getm_app1 by lia. apply readable_getm. lia.
    + intros i Hi. apply in_seq in Hi. lia.
Qed.

(* odd length: no memory behind the array is needed *)
Lemma findrfc2_mem_odd mem y nc h : List.length y = (2 * nc + 1)%nat ->
  findrfc2_mem mem y h = findrfc2 y h.
Proof.
  intros Hlen. unfold findrfc2_mem, findrfc2, findrfc2_rd.
  assert (En : (List.length y / 2 = nc)%nat)
      by (rewrite Hlen; symmetry; apply (Nat.div_unique _ 2 nc 1); lia).
  rewrite En.
  assert (Hag : forall k, (k < 2 * nc + 1)%nat -> getm (y ++ mem) k = getm y k).
  { intros k Hk. unfold getm. rewrite nth_error_app1 by lia. reflexivity. }
  assert (Hx : getm y (2 * nc)%nat = Ok (at_ y (2 * nc))) by (apply readable_getm; lia).
  apply rfc_loop_junk.
  + intros k Hk. apply Hag. lia.
  + exists (at_ y (2 * nc)). rewrite Hag by lia. exact Hx.
  + eauto.
  + intros i Hi. apply in_seq in Hi. lia.
Qed.


Lemma getm_app_at y mem k : (k < List.length y)%nat -> getm (y ++ mem) k = Ok (at_ y k).
Proof.
  intros Hk. unfold getm. rewrite nth_error_app1 by lia. rewrite (nth_error_nth' y 0) by lia.
  reflexivity.
Qed.

Lemma guard_false a b c : ~ (a > b /\ b > c) -> ~ (a < b /\ b < c) ->
  ((a >? b) && (b >? c) = false) /\ ((a <? b) && (b <? c) = false).
Proof. intros H1 H2. split; lia. Qed.

Lemma c_equals_numba mem y h : (3 <= List.length y)%nat -> at_ y 0 <= at_ y 1 -> turns_at_start y ->
  c_findrfc mem y h = let* l := findrfc2_mem mem y h in Ok (Some l).
Proof.
  intros Hlen H01 [Hg1 Hg2]. unfold c_findrfc.
  rewrite !getm_app_at by lia. cbn [bind]. replace (at_ y 0 >? at_ y 1) with false by lia.
  assert (1 <= List.length y / 2)%nat.
  { change 1%nat with (2 / 2)%nat. apply Nat.div_le_mono; lia. }
  replace (List.length y / 2 <? 1)%nat with false by lia.
  rewrite !getm_app_at by lia. cbn [bind].
  destruct (guard_false _ _ _ Hg1 Hg2) as [-> ->].
  unfold findrfc2_mem, findrfc2_rd.
  destruct (rfc_loop (getm (y ++ mem)) _ h _) as [l|e]; cbn [bind]; [|reflexivity].
  do 2 f_equal. rewrite <- (map_id l) at 2. apply map_ext. intros; lia.
Qed.

Lemma c_equals_numba_max mem a y h : (3 <= List.length y)%nat -> at_ y 0 < a -> turns_at_start y ->
  c_findrfc mem (a :: y) h =
  let* l := findrfc2_mem mem y h in Ok (Some (map S l)).
Proof.
  intros Hlen H01 [Hg1 Hg2]. unfold c_findrfc.
  rewrite (getm_app_at (a :: y) mem 0), (getm_app_at (a :: y) mem 1) by (simpl; lia). cbn [bind].
  change (at_ (a :: y) 0) with a. change (at_ (a :: y) 1) with (at_ y 0).
  replace (a >? at_ y 0) with true by lia.
  change (tl ((a :: y) ++ mem)) with (y ++ mem).
  replace (List.length (a :: y) - 1)%nat with (List.length y) by (simpl; lia).
  assert (1 <= List.length y / 2)%nat.
  { change 1%nat with (2 / 2)%nat. apply Nat.div_le_mono; lia. }
  replace (List.length y / 2 <? 1)%nat with false by lia.
  rewrite !getm_app_at by lia. cbn [bind].
  destruct (guard_false _ _ _ Hg1 Hg2) as [-> ->].
  unfold findrfc2_mem, findrfc2_rd.
  destruct (rfc_loop (getm (y ++ mem)) _ h _) as [l|e]; cbn [bind]; [|reflexivity].
  do 2 f_equal. apply map_ext. intros; lia.
Qed.

(* misc.findrfc after the trimming of a leading maximum *)
Lemma findrfc_start mem tp h method y s : (2 <= List.length tp)%nat ->
  s = (if at_ tp 0 >? at_ tp 1 then 1 else 0)%nat -> y = skipn s tp ->
  (3 <= List.length y)%nat -> turns_at_start y ->
  findrfc mem tp h method =
  let* ind := match method with
              | None => let* r := c_findrfc mem y h in
                        match r with Some l => Ok l | None => Err MemoryError end
              | Some k => nb_findrfc_mem mem y h k
              end in
  Ok (map (fun i => (i + s)%nat) (sort_nat ind)).
Proof.
  intros Hlen Hs Hy Hy3 [Hg1 Hg2]. unfold findrfc.
  rewrite !geti_at by lia. cbn [bind]. rewrite <- Hs, <- Hy.
  assert (1 <= List.length y / 2)%nat.
  { change 1%nat with (2 / 2)%nat. apply Nat.div_le_mono; lia. }
  replace (List.length y / 2 <? 1)%nat with false by lia.
  rewrite !geti_at by lia. cbn [bind].
  destruct (at_ y 0 >? at_ y 1) eqn:E1; cbn [bind].
  - replace (at_ y 1 >? at_ y 2) with false by lia. reflexivity.
  - destruct (at_ y 0 <? at_ y 1) eqn:E2; cbn [bind]; [|reflexivity].
    replace (at_ y 1 <? at_ y 2) with false by lia. reflexivity.
Qed.


Lemma findrfc_rychlik mem tp h method y s : (2 <= List.length tp)%nat ->
  s = (if at_ tp 0 >? at_ tp 1 then 1 else 0)%nat -> y = skipn s tp ->
  (3 <= List.length y)%nat -> at_ y 0 <= at_ y 1 -> turns_at_start y -> rychlik_method method ->
  findrfc mem tp h method =
  let* ind := findrfc2_mem mem y h in Ok (map (fun i => (i + s)%nat) (sort_nat ind)).
Proof.
  intros Hlen Hs Hy Hy3 H01 Ht Hm. rewrite (findrfc_start mem tp h method y s) by auto.
  destruct Hm as [-> | ->]; [|reflexivity].
  rewrite c_equals_numba by auto. destruct (findrfc2_mem mem y h); reflexivity.
Qed.

Lemma findrfc_correct mem tp h method y s : (2 <= List.length tp)%nat ->
  s = (if at_ tp 0 >? at_ tp 1 then 1 else 0)%nat -> y = skipn s tp ->
  (3 <= List.length y)%nat -> at_ y 0 <= at_ y 1 -> turns_at_start y -> rychlik_method method ->
  (mem <> [] \/ Nat.odd (List.length y) = true) ->
  exists l, findrfc mem tp h method = Ok l /\ increasing l /\
    forall idx, In idx l <-> (s <= idx)%nat /\
      InRainflow (y ++ mem) (List.length y / 2) h (idx - s).
Proof.
  intros Hlen Hs Hy Hy3 H01 Ht Hm Hmem. rewrite (findrfc_rychlik mem tp h method y s) by auto.
  destruct (findrfc2_mem_spec mem y (List.length y / 2) h eq_refl) as [l [E [Hnd [Hin _]]]].
  { rewrite app_length. pose proof (Nat.div_mod (List.length y) 2 ltac:(lia)) as Hdm.
    pose proof (Nat.mod_upper_bound (List.length y) 2 ltac:(lia)).
    destruct Hmem as [Hmem|Hodd].
    - destruct mem; [contradiction|]. cbn [List.length]. lia.
    - apply Nat.odd_spec in Hodd. destruct Hodd as [q Hq].
      assert (List.length y / 2 = q)%nat by (rewrite Hq; symmetry; apply (Nat.div_unique _ 2 q 1); lia).
      lia. }
  rewrite E. cbn [bind]. eexists. split; [reflexivity|]. split.
  - apply increasing_map_add, sort_nat_increasing, Hnd.
  - intros idx. rewrite in_map_iff. split.
    + intros [i [<- Hi]]. apply sort_nat_in, Hin in Hi. split; [lia|].
      replace (i + s - s)%nat with i by lia. exact Hi.
    + intros [Hsi Hi]. exists (idx - s)%nat. split; [lia|]. apply sort_nat_in, Hin, Hi.
Qed.

Lemma findrfc_two tp h mem method : List.length tp = 2%nat -> at_ tp 0 < at_ tp 1 ->
  findrfc mem tp h method = Err IndexError.
Proof.
  destruct tp as [|a [|b [|c tp]]]; try discriminate. intros _ H. unfold at_ in H. simpl in H.
  unfold findrfc. simpl. replace (a >? b) with false by lia. simpl.
  replace (a >? b) with false by lia. replace (a <? b) with true by lia. reflexivity.
Qed.

(* ---- indices reported stay inside ---- *)
Lemma InRainflow_bound y nc h idx : InRainflow y nc h idx -> (idx <= 2 * nc)%nat.
Proof.
  intros [i [p [Hi [Hp [_ Hidx]]]]]. apply RainflowMin_sides in Hp.
  destruct Hp as [[Hp _]|[_ [[[Hr _] _] _]]]; lia.
Qed.

(* a reported right minimum is never the very last one *)
Lemma InRainflow_inside y nc h idx : InRainflow y nc h idx -> (idx < 2 * nc)%nat.
Proof.
  intros [i [p [Hi [Hp [_ Hidx]]]]]. apply RainflowMin_sides in Hp.
  destruct Hp as [[Hp _]|[_ [[[Hr Hs] _] [[k [Hk Hge]] _]]]]; [lia|].
  destruct (Nat.lt_ge_cases k p) as [Hkp|Hkp]; [|lia].
  specialize (Hs k ltac:(lia)). lia.
Qed.

(* ---- findtp with a positive threshold ---- *)
Lemma take_at_nat (t : list nat) : forall l, (forall i, In i l -> (i < List.length t)%nat) ->
  take_at t l = Ok (map (fun i => nth i t 0%nat) l).
Proof.
  induction l as [|i l IH]; intros H; [reflexivity|]. cbn [take_at].
  assert (Hi : (i < List.length t)%nat) by (apply H; left; auto).
  unfold geti. rewrite (nth_error_nth' t 0%nat) by auto. cbn [bind].
  rewrite IH by (intros; apply H; right; auto). reflexivity.
Qed.

Lemma increasing_compose t l : increasing t -> increasing l ->
  (forall i, In i l -> (i < List.length t)%nat) -> increasing (map (fun i => nth i t 0%nat) l).
Proof.
  intros Ht Hl Hin a b Hab. rewrite map_length in Hab.
  rewrite (nth_indep (map _ l) 0%nat (nth 0 t 0)%nat) by (rewrite map_length; lia).
  rewrite (nth_indep (map (fun i => nth i t 0%nat) l) 0%nat (nth 0 t 0)%nat) by (rewrite map_length; lia).
  rewrite !(map_nth (fun i => nth i t 0%nat)). apply Ht. split.
  - apply Hl. lia.
  - apply Hin, nth_In. lia.
Qed.

Lemma legs_turns x ind : (3 <= List.length ind)%nat -> legs x false (tl ind) ->
  at_ x (nth 0 ind 0%nat) <= at_ x (nth 1 ind 0%nat) ->
  turns_at_start (map (at_ x) ind).
Proof.
  intros Hlen Hl H01. destruct ind as [|a [|b [|c r]]]; simpl in Hlen; try lia.
  cbn [tl legs] in Hl. destruct Hl as [[_ Hl] _]. cbn [nth] in H01.
  unfold turns_at_start. cbn [map].
  change (at_ (at_ x a :: at_ x b :: at_ x c :: map (at_ x) r) 0) with (at_ x a).
  change (at_ (at_ x a :: at_ x b :: at_ x c :: map (at_ x) r) 1) with (at_ x b).
  change (at_ (at_ x a :: at_ x b :: at_ x c :: map (at_ x) r) 2) with (at_ x c). lia.
Qed.

Lemma findtp_threshold mem m method x h t : (2 <= List.length x)%nat -> 0 < h ->
  findtp0 m x false None = Ok (Some t) -> rychlik_method method ->
  (mem <> [] \/ Nat.odd (List.length t) = true) ->
  exists l, findtp mem m method x h None = Ok (Some (map (fun i => nth i t 0%nat) l)) /\
    increasing l /\ increasing (map (fun i => nth i t 0%nat) l) /\
    forall k, In k l <->
      (k < List.length t)%nat /\ InRainflow (map (at_ x) t ++ mem) (List.length t / 2) h k.
Proof.
  intros Hx Hh H0 Hm Hmem. unfold findtp. replace (h <? 0) with false by lia.
  apply findtp0_default in H0; auto. rewrite H0. cbn [bind].
  replace (h >? 0) with true by lia.
  destruct (findtp_core_legs m x None t Hx eq_refl H0) as [Hinc [Hlen [_ [_ [Hb [Hlegs [_ [H01 _]]]]]]]].
  assert (Hin : forall i, In i t -> (i < List.length x)%nat).
  { intros i Hi. apply Hb in Hi. destruct Hi as [->|[->|[[_ [? _]]|[_ [? _]]]]]; lia. }
  rewrite take_at_spec by auto. cbn [bind].
  set (y := map (at_ x) t).
  assert (Hly : List.length y = List.length t) by apply map_length.
  assert (Hy01 : at_ y 0 <= at_ y 1).
  { unfold y. rewrite !at_map by lia. exact H01. }
  destruct (findrfc_correct mem y h method y 0%nat) as [l [El [Hl Hmemb]]];
    try rewrite Hly; auto; try lia.
  { replace (at_ y 0 >? at_ y 1) with false by lia. reflexivity. }
  { apply legs_turns; auto. }
  rewrite El. cbn [bind].
  assert (Hlt : forall i, In i l -> (i < List.length t)%nat).
  { intros i Hi. apply Hmemb in Hi. destruct Hi as [_ Hi]. apply InRainflow_inside in Hi.
    rewrite Hly in Hi. pose proof (Nat.div_mod (List.length t) 2 ltac:(lia)). lia. }
  rewrite take_at_nat by exact Hlt. cbn [bind findtp_wave].
  exists l. split; [reflexivity|]. split; [exact Hl|]. split; [apply increasing_compose; auto|].
  intros k. split.
  - intros Hk. split; [apply Hlt, Hk|]. apply Hmemb in Hk. rewrite Nat.sub_0_r, Hly in Hk. tauto.
  - intros [_ Hk]. apply Hmemb. rewrite Nat.sub_0_r, Hly. split; [lia|exact Hk].
Qed.

Lemma findrfc_junk tp h method z z' : 
  (forall y, y = skipn (if at_ tp 0 >? at_ tp 1 then 1 else 0)%nat tp ->
     (3 <= List.length y)%nat /\ at_ y 0 <= at_ y 1 /\ turns_at_start y) ->
  rychlik_method method ->
  findrfc [z] tp h method = findrfc [z'] tp h method.
Proof.
  intros H Hm. destruct (H _ eq_refl) as [H3 [H01 Ht]].
  assert (Hlen : (2 <= List.length tp)%nat) by (rewrite skipn_length in H3; lia).
  rewrite (findrfc_rychlik [z] tp h method _ _ Hlen eq_refl eq_refl H3 H01 Ht Hm).
  rewrite (findrfc_rychlik [z'] tp h method _ _ Hlen eq_refl eq_refl H3 H01 Ht Hm).
  rewrite (findrfc2_mem_junk _ h z z'). reflexivity.
Qed.

(* checked execution of an even-length sequence stops at the bad read *)
Lemma findrfc_even_oob y h : (4 <= List.length y)%nat -> Nat.even (List.length y) = true ->
  at_ y 0 <= at_ y 1 -> turns_at_start y -> forall method, rychlik_method method ->
  findrfc [] y h method = Err MemoryError.
Proof.
  intros Hlen Hev H01 Ht method Hm.
  rewrite (findrfc_rychlik [] y h method y 0%nat); auto; try lia.
  - apply Nat.even_spec in Hev. destruct Hev as [nc Hnc].
    unfold findrfc2_mem. rewrite app_nil_r.
    change (findrfc2_rd (getm y) (List.length y) h) with (findrfc2 y h).
    rewrite (rfc_loop_oob y nc h) by lia. reflexivity.
  - replace (at_ y 0 >? at_ y 1) with false by lia. reflexivity.
Qed.
