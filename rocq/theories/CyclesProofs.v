From Coq Require Import String ZifyBool Sorting.Permutation.
From Verif Require Import Base CrossModel CrossSpec ListFacts TpProofs AstmSpec RfcModel CyclesModel CyclesSpec.
Local Open Scope list_scope.
Local Open Scope Z_scope.

(* ---- C18 ---- *)
Lemma firstn_pred_cons {A} (a b : A) l :
  firstn (List.length (a :: b :: l) - 1) (a :: b :: l) = a :: firstn (List.length (b :: l) - 1) (b :: l).
Proof. simpl. rewrite Nat.sub_0_r. reflexivity. Qed.

Lemma zz_rises : forall l up, zigzag up l ->
  (if up then every2 (tl l) else every2 (tl (tl l))) = map snd (rises l) /\
  (if up then every2 (firstn (List.length l - 1) l) else every2 (tl (firstn (List.length l - 1) l)))
    = map fst (rises l).
Proof.
  induction l as [|a l IH]; intros up Hz.
  - destruct up; split; reflexivity.
  - destruct l as [|b l]; [destruct up; split; reflexivity|].
    destruct Hz as [Hab Hz]. specialize (IH (negb up) Hz). destruct IH as [I1 I2].
    rewrite firstn_pred_cons. change (rises (a :: b :: l))
      with (if a <? b then (a, b) :: rises (b :: l) else rises (b :: l)).
    destruct up; cbn [negb] in *.
    + replace (a <? b) with true by lia. cbn [map fst snd tl].
      rewrite <- I1, <- I2. cbn [tl]. split.
      * destruct l as [|c l]; reflexivity.
      * destruct l as [|c l]; [reflexivity|]. rewrite firstn_pred_cons. cbn [tl].
        set (q := firstn (List.length (c :: l) - 1) (c :: l)). destruct q; reflexivity.
    + replace (a <? b) with false by lia. cbn [tl]. split; [exact I1|exact I2].
Qed.

Lemma zz_falls : forall l up, zigzag up l ->
  (if up then every2 (tl (tl l)) else every2 (tl l)) = map snd (falls l) /\
  (if up then every2 (tl (firstn (List.length l - 1) l)) else every2 (firstn (List.length l - 1) l))
    = map fst (falls l).
Proof.
  induction l as [|a l IH]; intros up Hz.
  - destruct up; split; reflexivity.
  - destruct l as [|b l]; [destruct up; split; reflexivity|].
    destruct Hz as [Hab Hz]. specialize (IH (negb up) Hz). destruct IH as [I1 I2].
    rewrite firstn_pred_cons. change (falls (a :: b :: l))
      with (if b <? a then (a, b) :: falls (b :: l) else falls (b :: l)).
    destruct up; cbn [negb] in *.
    + replace (b <? a) with false by lia. cbn [tl]. split; [exact I1|exact I2].
    + replace (b <? a) with true by lia. cbn [map fst snd tl].
      rewrite <- I1, <- I2. cbn [tl]. split.
      * destruct l as [|c l]; reflexivity.
      * destruct l as [|c l]; [reflexivity|]. rewrite firstn_pred_cons. cbn [tl].
        set (q := firstn (List.length (c :: l) - 1) (c :: l)). destruct q; reflexivity.
Qed.

Lemma skipn_1_tl {A} (l : list A) : skipn 1 l = tl l.
Proof. destruct l; reflexivity. Qed.
Lemma skipn_2_tl {A} (l : list A) : skipn 2 l = tl (tl l).
Proof. destruct l as [|a [|b l]]; reflexivity. Qed.

Lemma pairs_of_spec data up : (2 <= List.length data)%nat -> zigzag up data ->
  pairs_of data true = Ok (map snd (rises data), map fst (rises data)) /\
  pairs_of data false = Ok (map fst (falls data), map snd (falls data)).
Proof.
  intros Hlen Hz. destruct data as [|a [|b l]]; simpl in Hlen; try lia.
  destruct (zz_rises _ _ Hz) as [R1 R2]. destruct (zz_falls _ _ Hz) as [F1 F2].
  assert (Hab : if up then a < b else b < a) by (destruct Hz; auto).
  set (d := a :: b :: l) in *.
  unfold pairs_of. change (geti d 0) with (Ok a). change (geti d 1) with (Ok b). cbn [bind].
  destruct up.
  - replace (a >? b) with false by lia. cbn [Nat.add].
    change (skipn 0 (firstn (List.length d - 1) d)) with (firstn (List.length d - 1) d).
    rewrite ?skipn_1_tl, ?skipn_2_tl. rewrite R1, R2, F1, F2. split; reflexivity.
  - replace (a >? b) with true by lia. cbn [Nat.add].
    change (skipn 0 (firstn (List.length d - 1) d)) with (firstn (List.length d - 1) d).
    rewrite ?skipn_1_tl, ?skipn_2_tl. rewrite R1, R2, F1, F2. split; reflexivity.
Qed.

Lemma cycle_pairs_spec mem data up h method : (2 <= List.length data)%nat -> zigzag up data -> h <= 0 ->
  cycle_pairs mem data h true method = Ok (map snd (rises data), map fst (rises data)) /\
  cycle_pairs mem data h false method = Ok (map fst (falls data), map snd (falls data)).
Proof.
  intros Hl Hz Hh. unfold cycle_pairs. replace (h >? 0) with false by lia.
  apply (pairs_of_spec data up Hl Hz).
Qed.

Lemma cycle_pairs_empty : exists data h, zigzag true data /\ 0 < h /\
  cycle_pairs [] data h true None = Err IndexError.
Proof. exists [0; 1; 0; 1; 0], 5. split; [simpl; lia|]. split; [lia|reflexivity]. Qed.

(* ---- C26 ---- *)
Fixpoint sumif (P : Z -> bool) (f : ext -> Z) (l : list ext) : Z :=
  match l with
  | [] => 0
  | e :: t => (if P (e_val e) then f e else 0) + sumif P f t
  end.

Lemma sumif_app P f a b : sumif P f (a ++ b) = sumif P f a + sumif P f b.
Proof. induction a as [|e a IH]; cbn [app sumif]; [lia|]. lia. Qed.

Lemma sumif_insert P f a l : sumif P f (insert_ext a l) = sumif P f (a :: l).
Proof.
  induction l as [|b l IH]; [reflexivity|]. cbn [insert_ext].
  destruct (e_val a <=? e_val b); [reflexivity|].
  cbn [sumif] in *. rewrite IH. lia.
Qed.
Lemma sumif_sort P f l : sumif P f (sort_ext l) = sumif P f l.
Proof.
  induction l as [|a l IH]; [reflexivity|]. cbn [sort_ext]. rewrite sumif_insert.
  cbn [sumif]. lia.
Qed.

Definition additive (f : ext -> Z) : Prop :=
  forall v s1 s2 a1 a2 b1 b2, f (Ext v (s1 + s2) (a1 + a2) (b1 + b2)) = f (Ext v s1 a1 b1) + f (Ext v s2 a2 b2).

Lemma ext_eta e : Ext (e_val e) (e_step e) (e_max e) (e_min e) = e.
Proof. destruct e; reflexivity. Qed.

Lemma sumif_merge P f : additive f -> forall l cur, sumif P f (merge_ext cur l) = sumif P f (cur :: l).
Proof.
  intros Hf. induction l as [|e l IH]; intros cur; [reflexivity|]. cbn [merge_ext].
  destruct (e_val e =? e_val cur) eqn:E.
  - rewrite IH. cbn [sumif e_val]. rewrite Hf.
    replace (Ext (e_val cur) (e_step e) (e_max e) (e_min e)) with e
      by (rewrite <- (ext_eta e) at 1; f_equal; lia).
    rewrite ext_eta. replace (e_val e) with (e_val cur) by lia. destruct (P (e_val cur)); lia.
  - cbn [sumif]. rewrite IH. reflexivity.
Qed.

(* strictly increasing values *)
Fixpoint sorted_lt (l : list ext) : Prop :=
  match l with
  | a :: t => (forall b, In b t -> e_val a < e_val b) /\ sorted_lt t
  | [] => True
  end.
Fixpoint sorted_le (l : list ext) : Prop :=
  match l with
  | a :: t => (forall b, In b t -> e_val a <= e_val b) /\ sorted_le t
  | [] => True
  end.

Lemma insert_in a l x : In x (insert_ext a l) <-> x = a \/ In x l.
Proof.
  induction l as [|b l IH]; simpl; [intuition|]. destruct (e_val a <=? e_val b); simpl; [intuition|].
  rewrite IH. intuition.
Qed.
Lemma sort_in l x : In x (sort_ext l) <-> In x l.
Proof. induction l as [|a l IH]; simpl; [tauto|]. rewrite insert_in, IH. intuition. Qed.
Lemma insert_sorted a l : sorted_le l -> sorted_le (insert_ext a l).
Proof.
  induction l as [|b l IH]; intros Hl; cbn [insert_ext].
  - simpl. split; auto. intros b [].
  - destruct Hl as [Hb Hl]. destruct (e_val a <=? e_val b) eqn:E.
    + split; [|split; auto]. intros c [<-|Hc]; [lia|]. specialize (Hb c Hc). lia.
    + split; [|apply IH, Hl]. intros c Hc. apply insert_in in Hc. destruct Hc as [->|Hc]; [lia|auto].
Qed.
Lemma sort_sorted l : sorted_le (sort_ext l).
Proof. induction l as [|a l IH]; [exact I|]. apply insert_sorted, IH. Qed.
Lemma sort_length l : List.length (sort_ext l) = List.length l.
Proof.
  assert (H : forall a l, List.length (insert_ext a l) = S (List.length l)).
  { induction l0 as [|b l0 IH]; simpl; auto. destruct (e_val a <=? e_val b); simpl; auto. }
  induction l as [|a l IH]; simpl; auto. rewrite H. auto.
Qed.

Lemma merge_vals : forall l cur v, In v (map e_val (merge_ext cur l)) <-> In v (map e_val (cur :: l)).
Proof.
  induction l as [|e l IH]; intros cur v; [reflexivity|]. cbn [merge_ext].
  destruct (e_val e =? e_val cur) eqn:E.
  - rewrite IH. simpl. assert (e_val e = e_val cur) by lia. rewrite H. intuition.
  - cbn [map In]. rewrite IH. reflexivity.
Qed.
Lemma merge_sorted : forall l cur, sorted_le (cur :: l) -> sorted_lt (merge_ext cur l).
Proof.
  induction l as [|e l IH]; intros cur Hs.
  - simpl. split; auto. intros b [].
  - cbn [merge_ext]. destruct Hs as [Hc Hs]. destruct (e_val e =? e_val cur) eqn:E.
    + apply IH. destruct Hs as [He Hs]. split; [|exact Hs]. cbn [e_val].
      intros b Hb. apply Hc. right; auto.
    + split; [|apply IH, Hs]. intros b Hb.
      apply (in_map e_val) in Hb. apply merge_vals in Hb. apply in_map_iff in Hb.
      destruct Hb as [c [Hbc Hin]]. assert (e_val e <= e_val c).
      { destruct Hin as [<-|Hin]; [lia|]. destruct Hs as [He _]. apply He, Hin. }
      specialize (Hc e (or_introl eq_refl)). lia.
Qed.
Lemma merge_length : forall l cur, (1 <= List.length (merge_ext cur l) <= S (List.length l))%nat.
Proof.
  induction l as [|e l IH]; intros cur; simpl; [lia|].
  destruct (e_val e =? e_val cur); simpl.
  - specialize (IH (Ext (e_val cur) (e_step cur + e_step e) (e_max cur + e_max e) (e_min cur + e_min e))). lia.
  - specialize (IH e). lia.
Qed.

Lemma sumif_ext P Q f l : (forall e, In e l -> P (e_val e) = Q (e_val e)) -> sumif P f l = sumif Q f l.
Proof.
  induction l as [|e l IH]; intros H; [reflexivity|]. cbn [sumif]. rewrite IH, H; auto; [left; auto|intros; apply H; right; auto].
Qed.
Lemma sumif_false f l : sumif (fun _ => false) f l = 0.
Proof. induction l as [|e l IH]; [reflexivity|]. cbn [sumif]. lia. Qed.

Definition e0 : ext := Ext 0 0 0 0.

(* in a strictly sorted list an entry is the sum over its value, the cumulative sum
   the sum up to its value *)
Lemma entry_sum f : forall l k, sorted_lt l -> (k < List.length l)%nat ->
  f (nth k l e0) = sumif (fun v => v =? e_val (nth k l e0)) f l.
Proof.
  induction l as [|a l IH]; intros k Hs Hk; [simpl in Hk; lia|]. destruct Hs as [Ha Hs].
  destruct k as [|k]; cbn [nth sumif].
  - replace (e_val a =? e_val a) with true by lia.
    rewrite (sumif_ext _ (fun _ => false)), sumif_false; [lia|].
    intros e He. specialize (Ha e He). lia.
  - simpl in Hk. assert (Hin : In (nth k l e0) l) by (apply nth_In; lia).
    specialize (Ha _ Hin). replace (e_val a =? e_val (nth k l e0)) with false by lia. rewrite <- IH by (auto; lia). lia.
Qed.

Lemma cumsum_length : forall l s, List.length (cumsum s l) = List.length l.
Proof. induction l as [|a l IH]; intros s; simpl; auto. Qed.
Lemma cumsum_shift : forall l s k, (k < List.length l)%nat -> nth k (cumsum s l) 0 = s + nth k (cumsum 0 l) 0.
Proof.
  induction l as [|a l IH]; intros s k Hk; [simpl in Hk; lia|]. destruct k as [|k].
  - simpl. lia.
  - cbn [cumsum nth]. simpl in Hk. rewrite (IH (s + a)), (IH (0 + a)) by lia. lia.
Qed.

Lemma cum_sum : forall l k, sorted_lt l -> (k < List.length l)%nat ->
  nth k (cumsum 0 (map e_step l)) 0 = sumif (fun v => v <=? e_val (nth k l e0)) e_step l.
Proof.
  induction l as [|a l IH]; intros k Hs Hk; [simpl in Hk; lia|]. destruct Hs as [Ha Hs].
  destruct k as [|k]; cbn [map cumsum nth].
  - cbn [sumif].
    replace (e_val a <=? e_val a) with true by lia.
    rewrite (sumif_ext _ (fun _ => false)), sumif_false; [lia|].
    intros e He. specialize (Ha e He). lia.
  - simpl in Hk. assert (Hin : In (nth k l e0) l) by (apply nth_In; lia).
    specialize (Ha _ Hin). rewrite cumsum_shift by (rewrite map_length; lia).
    rewrite IH by (auto; lia). cbn [sumif]. replace (e_val a <=? e_val (nth k l e0)) with true by lia. lia.
Qed.

(* argmax of the padded array *)
Lemma argmax_from_spec : forall l i best bv,
  (argmax_from i best bv l = best /\ (forall v, In v l -> v <= bv)) \/
  exists j, (j < List.length l)%nat /\ argmax_from i best bv l = (i + j)%nat /\ bv < nth j l 0 /\
    (forall k, (k < j)%nat -> nth k l 0 < nth j l 0) /\ (forall v, In v l -> v <= nth j l 0).
Proof.
  induction l as [|a l IH]; intros i best bv; [left; split; [reflexivity|intros v []]|].
  cbn [argmax_from]. destruct (a >? bv) eqn:E.
  - destruct (IH (S i) i a) as [[-> H]|[j [Hj [-> [Hlt [H1 H2]]]]]].
    + right. exists 0%nat. split; [simpl; lia|]. split; [lia|]. split; [simpl; lia|].
      split; [intros; lia|]. intros v [<-|Hv]; simpl; [lia|auto].
    + right. exists (S j). split; [simpl; lia|]. split; [lia|]. cbn [nth]. split; [lia|].
      split; [intros [|k] Hk; [lia|apply H1; lia]|]. intros v [<-|Hv]; [lia|auto].
  - destruct (IH (S i) best bv) as [[-> H]|[j [Hj [-> [Hlt [H1 H2]]]]]].
    + left. split; auto. intros v [<-|Hv]; [lia|auto].
    + right. exists (S j). split; [simpl; lia|]. split; [lia|]. cbn [nth]. split; [lia|].
      split; [intros [|k] Hk; [lia|apply H1; lia]|]. intros v [<-|Hv]; [lia|auto].
Qed.

Lemma argmaxZ_spec l : l <> [] -> (argmaxZ l < List.length l)%nat /\
  (forall k, (k < argmaxZ l)%nat -> nth k l 0 < nth (argmaxZ l) l 0) /\
  (forall v, In v l -> v <= nth (argmaxZ l) l 0).
Proof.
  destruct l as [|a l]; [congruence|]. intros _. unfold argmaxZ.
  destruct (argmax_from_spec l 1 0 a) as [[-> H]|[j [Hj [-> [Hlt [H1 H2]]]]]].
  - split; [simpl; lia|]. split; [intros; lia|]. intros v [<-|Hv]; simpl; [lia|auto].
  - split; [simpl; lia|]. cbn [nth Nat.add]. split.
    + intros [|k] Hk; [lia|]. apply H1. lia.
    + intros v [<-|Hv]; [lia|auto].
Qed.

Lemma argmax_sorted_padded l p : sorted_lt l -> l <> [] -> 0 <= e_val (last l e0) ->
  argmaxZ (map e_val (l ++ repeat e0 p)) = (List.length l - 1)%nat.
Proof.
  intros Hs Hne Hlast.
  assert (Hl : (1 <= List.length l)%nat) by (destruct l; [congruence|simpl; lia]).
  set (L := map e_val (l ++ repeat e0 p)).
  assert (HL : L <> []) by (unfold L; destruct l; [congruence|discriminate]).
  destruct (argmaxZ_spec L HL) as [H1 [H2 H3]]. set (k := argmaxZ L) in *.
  assert (Hnth : forall j, (j < List.length l)%nat -> nth j L 0 = e_val (nth j l e0)).
  { intros j Hj. unfold L. change 0 with (e_val e0). rewrite map_nth, app_nth1 by lia. reflexivity. }
  assert (Hlastn : last l e0 = nth (List.length l - 1) l e0).
  { destruct (exists_last Hne) as [q [x Hq]]. rewrite Hq, last_snoc, app_length. simpl.
    rewrite app_nth2 by lia. replace (List.length q + 1 - 1 - List.length q)%nat with 0%nat by lia. reflexivity. }
  assert (Hmono : forall i j, (i < j < List.length l)%nat -> e_val (nth i l e0) < e_val (nth j l e0)).
  { clear - Hs. induction l as [|a l IH]; intros i j Hij; [simpl in Hij; lia|].
    destruct Hs as [Ha Hs]. destruct i, j; try lia; cbn [nth].
    - apply Ha, nth_In. simpl in Hij. lia.
    - apply IH; auto. simpl in Hij. lia. }
  assert (Hk : (k < List.length l)%nat -> k = (List.length l - 1)%nat).
  { intros Hk. destruct (Nat.eq_dec k (List.length l - 1)) as [|Hn]; auto.
    assert (Hin : In (nth (List.length l - 1) L 0) L).
    { apply nth_In. unfold L. rewrite map_length, app_length. lia. }
    specialize (H3 _ Hin). rewrite !Hnth in H3 by lia.
    specialize (Hmono k (List.length l - 1)%nat ltac:(lia)). lia. }
  destruct (Nat.lt_ge_cases k (List.length l)) as [Hlt|Hge]; [auto|].
  exfalso. specialize (H2 (List.length l - 1)%nat ltac:(lia)).
  rewrite Hnth in H2 by lia. rewrite <- Hlastn in H2.
  assert (nth k L 0 = 0); [|lia].
  unfold L. change 0 with (e_val e0). rewrite map_nth, app_nth2 by lia.
  set (q := (k - List.length l)%nat). clearbody q. clear. revert q.
  induction p as [|p IH]; intros [|q]; simpl; auto.
Qed.

(* sums over the columns built from the cycles *)
Definition maxs (cp : list (Z * Z)) := map (fun c => Ext (snd c) (-1) 1 0) cp.
Definition mins (cp : list (Z * Z)) := map (fun c => Ext (fst c) 1 0 1) cp.
Definition b2z (b : bool) : Z := if b then 1 else 0.

Lemma sums P cp : 
  sumif P e_step (maxs cp ++ mins cp) = fold_right (fun c s => b2z (P (fst c)) - b2z (P (snd c)) + s) 0 cp /\
  sumif P e_max (maxs cp ++ mins cp) = fold_right (fun c s => b2z (P (snd c)) + s) 0 cp /\
  sumif P e_min (maxs cp ++ mins cp) = fold_right (fun c s => b2z (P (fst c)) + s) 0 cp.
Proof.
  rewrite !sumif_app. unfold maxs, mins.
  induction cp as [|[m M] cp IH]; [simpl; lia|]. cbn [map sumif fold_right fst snd e_val e_step e_max e_min].
  unfold b2z in *. destruct (P m), (P M); lia.
Qed.

Lemma count_cons d u c cp : count d u (c :: cp) = b2z (counted d u c) + count d u cp.
Proof. unfold count. cbn [filter]. destruct (counted d u c); cbn [List.length b2z]; lia. Qed.

Lemma fold_count d u cp (g : Z * Z -> Z) :
  (forall c, In c cp -> g c = b2z (counted d u c)) ->
  fold_right (fun c s => g c + s) 0 cp = count d u cp.
Proof.
  induction cp as [|c cp IH]; intros H; [reflexivity|]. rewrite count_cons. cbn [fold_right].
  rewrite IH by (intros; apply H; right; auto). rewrite H by (left; auto). reflexivity.
Qed.

Lemma fold_plus (f g : Z * Z -> Z) cp :
  fold_right (fun c s => f c + s) 0 cp + fold_right (fun c s => g c + s) 0 cp
  = fold_right (fun c s => (f c + g c) + s) 0 cp.
Proof. induction cp as [|c cp IH]; [reflexivity|]. cbn [fold_right]. lia. Qed.
Lemma fold_minus (f g : Z * Z -> Z) cp :
  fold_right (fun c s => f c + s) 0 cp - fold_right (fun c s => g c + s) 0 cp
  = fold_right (fun c s => (f c - g c) + s) 0 cp.
Proof. induction cp as [|c cp IH]; [reflexivity|]. cbn [fold_right]. lia. Qed.

Lemma nth_zipZ f : forall a b k, (k < List.length a)%nat -> (k < List.length b)%nat ->
  nth k (zipZ f a b) 0 = f (nth k a 0) (nth k b 0).
Proof.
  induction a as [|x a IH]; intros b k Ha Hb; [simpl in Ha; lia|].
  destruct b as [|y b]; [simpl in Hb; lia|]. destruct k; [reflexivity|].
  simpl. apply IH; simpl in *; lia.
Qed.
Lemma zipZ_length f : forall a b, List.length a = List.length b -> List.length (zipZ f a b) = List.length a.
Proof. induction a as [|x a IH]; intros [|y b] H; simpl in *; auto; try lia. Qed.

Lemma repeat_last_spec : forall l, List.length (repeat_last l) = List.length l /\
  (forall k, (S k < List.length l)%nat -> nth k (repeat_last l) 0 = nth k l 0) /\
  ((2 <= List.length l)%nat ->
     nth (List.length l - 1) (repeat_last l) 0 = nth (List.length l - 2) l 0).
Proof.
  induction l as [|a l IH]; [simpl; repeat split; intros; lia|].
  destruct l as [|b l]; [simpl; repeat split; intros; lia|].
  destruct l as [|c l].
  - simpl. repeat split; auto. intros [|k] Hk; [reflexivity|lia].
  - destruct IH as [H1 [H2 H3]].
    change (repeat_last (a :: b :: c :: l)) with (a :: repeat_last (b :: c :: l)).
    split; [cbn [List.length] in *; lia|]. split.
    + intros [|k] Hk; [reflexivity|]. cbn [nth]. apply H2. cbn [List.length] in *. lia.
    + intros _. cbn [List.length] in *.
      replace (S (S (S (List.length l))) - 1)%nat with (S (S (S (List.length l)) - 1)) by lia.
      replace (S (S (S (List.length l))) - 2)%nat with (S (S (S (List.length l)) - 2)) by lia.
      cbn [nth]. apply H3. lia.
Qed.

Lemma minima_and_maxima_id cp : cp <> [] -> (forall c, In c cp -> fst c < snd c) -> minima_and_maxima cp = cp.
Proof.
  intros Hne H. unfold minima_and_maxima.
  assert (E : filter (fun c => fst c <=? snd c) cp = cp).
  { clear Hne. induction cp as [|c cp IH]; [reflexivity|]. simpl.
    assert (fst c < snd c) by (apply H; left; auto). replace (fst c <=? snd c) with true by lia.
    rewrite IH; auto. intros; apply H; right; auto. }
  rewrite E. destruct cp; [congruence|reflexivity].
Qed.

(* ---- main statement ---- *)
Definition lc_core (cp : list (Z * Z)) : list ext :=
  match sort_ext (maxs cp ++ mins cp) with [] => [] | a :: es => merge_ext a es end.

Lemma lc_core_spec cp : cp <> [] -> 
  sorted_lt (lc_core cp) /\ lc_core cp <> [] /\
  (forall v, In v (map e_val (lc_core cp)) <-> exists c, In c cp /\ (v = fst c \/ v = snd c)) /\
  (forall P f, additive f -> sumif P f (lc_core cp) = sumif P f (maxs cp ++ mins cp)) /\
  (List.length (lc_core cp) <= List.length (sort_ext (maxs cp ++ mins cp)))%nat.
Proof.
  intros Hne. unfold lc_core. pose proof (sort_sorted (maxs cp ++ mins cp)) as Hs.
  pose proof (fun x => sort_in (maxs cp ++ mins cp) x) as Hin.
  pose proof (fun P f => sumif_sort P f (maxs cp ++ mins cp)) as Hsum.
  destruct (sort_ext (maxs cp ++ mins cp)) as [|a es] eqn:E.
  { exfalso. destruct cp as [|c cp]; [congruence|]. apply (f_equal (@List.length ext)) in E.
    rewrite sort_length in E. simpl in E. discriminate. }
  split; [apply merge_sorted, Hs|]. split.
  { pose proof (merge_length es a). destruct (merge_ext a es); [simpl in *; lia|discriminate]. }
  split; [|split].
  - intros v. rewrite merge_vals, in_map_iff. split.
    + intros [x [<- Hx]]. apply Hin, in_app_iff in Hx. unfold maxs, mins in Hx.
      destruct Hx as [Hx|Hx]; apply in_map_iff in Hx; destruct Hx as [c [<- Hc]]; exists c; simpl; auto.
    + intros [c [Hc [->| ->]]].
      * exists (Ext (fst c) 1 0 1). split; [reflexivity|]. apply Hin, in_app_iff. right.
        unfold mins. apply in_map_iff. eauto.
      * exists (Ext (snd c) (-1) 1 0). split; [reflexivity|]. apply Hin, in_app_iff. left.
        unfold maxs. apply in_map_iff. eauto.
  - intros P f Hf. rewrite sumif_merge by auto. apply Hsum.
  - pose proof (merge_length es a). simpl. lia.
Qed.

Lemma sorted_lt_nth l i j : sorted_lt l -> (i < j < List.length l)%nat ->
  e_val (nth i l e0) < e_val (nth j l e0).
Proof.
  revert i j. induction l as [|a l IH]; intros i j Hs Hij; [simpl in Hij; lia|].
  destruct Hs as [Ha Hs]. destruct i, j; try lia; cbn [nth].
  - apply Ha, nth_In. simpl in Hij. lia.
  - apply IH; auto. simpl in Hij. lia.
Qed.

Lemma level_crossings_spec cp d : cp <> [] -> (forall c, In c cp -> fst c < snd c) ->
  (exists c, In c cp /\ 0 <= snd c) ->
  exists levels counts, level_crossings cp (KInt (def_number d)) = Ok (levels, counts) /\
    levels_increasing levels /\ List.length counts = List.length levels /\
    (forall v, In v levels <-> exists c, In c cp /\ (v = fst c \/ v = snd c)) /\
    (forall k, (k < List.length levels)%nat -> (d = UpMin -> (S k < List.length levels)%nat) ->
       nth k counts 0 = count d (nth k levels 0) cp) /\
    (d = UpMin -> nth (List.length levels - 1) counts 0 = nth (List.length levels - 2) counts 0).
Proof.
  intros Hne Hlt [c0 [Hc0 Hpos]].
  destruct (lc_core_spec cp Hne) as [Hs [Hcne [Hvals [Hsum Hlen]]]].
  set (L := lc_core cp) in *.
  assert (HL1 : (1 <= List.length L)%nat) by (destruct L; [congruence|simpl; lia]).
  (* the largest level is non-negative *)
  assert (Hlast : 0 <= e_val (last L e0)).
  { assert (Hin : In (snd c0) (map e_val L)) by (apply Hvals; eauto).
    apply in_map_iff in Hin. destruct Hin as [x [Hx Hin]].
    apply (In_nth _ _ e0) in Hin. destruct Hin as [k [Hk Ek]].
    assert (Hlastn : last L e0 = nth (List.length L - 1) L e0).
    { destruct (exists_last Hcne) as [q [y Hq]]. rewrite Hq, last_snoc, app_length. simpl.
      rewrite app_nth2 by lia. replace (List.length q + 1 - 1 - List.length q)%nat with 0%nat by lia. reflexivity. }
    rewrite Hlastn. destruct (Nat.eq_dec k (List.length L - 1)) as [->|Hn]; [rewrite Ek; lia|].
    pose proof (sorted_lt_nth L k (List.length L - 1) Hs ltac:(lia)). rewrite Ek in H. lia. }
  (* unfold the function *)
  assert (Eq : exists n, level_crossings cp (KInt (def_number d)) =
    let extr := L ++ repeat e0 n in
    let ex := firstn (S (argmaxZ (map e_val extr))) extr in
    let cum := cumsum 0 (map e_step ex) in
    Ok (map e_val ex, match d with
       | Up => zipZ Z.sub cum (map e_min ex)
       | UpMax => zipZ Z.sub (zipZ Z.add cum (map e_max ex)) (map e_min ex)
       | UpMinMax => zipZ Z.add cum (map e_max ex)
       | UpMin => repeat_last cum end)).
  { unfold level_crossings. rewrite (minima_and_maxima_id cp Hne Hlt).
    cbn [lc_defnr]. fold (maxs cp) (mins cp). unfold L, lc_core.
    unfold L, lc_core in Hlen, Hcne.
    destruct (sort_ext (maxs cp ++ mins cp)) as [|a es]; [congruence|].
    exists (S (List.length es) - List.length (merge_ext a es))%nat. destruct d; reflexivity. }
  destruct Eq as [n Eq]. rewrite Eq. cbn zeta.
  rewrite (argmax_sorted_padded L n Hs Hcne Hlast).
  replace (S (List.length L - 1)) with (List.length L + 0)%nat by lia.
  rewrite firstn_app_2, firstn_O, app_nil_r.
  eexists. eexists. split; [reflexivity|].
  assert (Hnv : forall k, nth k (map e_val L) 0 = e_val (nth k L e0)).
  { intros k. change 0 with (e_val e0). apply map_nth. }
  assert (Hcl : List.length (cumsum 0 (map e_step L)) = List.length L)
    by (rewrite cumsum_length, map_length; reflexivity).
  rewrite map_length. split; [|split; [|split; [exact Hvals|]]].
  - intros i j. rewrite map_length. intros Hij. rewrite !Hnv. apply sorted_lt_nth; auto.
  - destruct d.
    + rewrite zipZ_length; rewrite ?map_length; auto.
    + rewrite zipZ_length; rewrite zipZ_length; rewrite ?map_length; auto.
    + rewrite zipZ_length; rewrite ?map_length; auto.
    + destruct (repeat_last_spec (cumsum 0 (map e_step L))) as [-> _]. auto.
  - (* the sums at a level *)
    assert (A1 : additive e_step) by (intros v s1 s2 a1 a2 b1 b2; reflexivity).
    assert (A2 : additive e_max) by (intros v s1 s2 a1 a2 b1 b2; reflexivity).
    assert (A3 : additive e_min) by (intros v s1 s2 a1 a2 b1 b2; reflexivity).
    assert (Hcum : forall k, (k < List.length L)%nat ->
      nth k (cumsum 0 (map e_step L)) 0 =
      fold_right (fun c s => (b2z (fst c <=? e_val (nth k L e0)) - b2z (snd c <=? e_val (nth k L e0))) + s) 0 cp).
    { intros k Hk. rewrite cum_sum by auto. rewrite Hsum by auto.
      destruct (sums (fun v => v <=? e_val (nth k L e0)) cp) as [-> _]. reflexivity. }
    assert (Hmx : forall k, (k < List.length L)%nat ->
      nth k (map e_max L) 0 = fold_right (fun c s => b2z (snd c =? e_val (nth k L e0)) + s) 0 cp).
    { intros k Hk. change 0 with (e_max e0) at 1. rewrite map_nth.
      rewrite (entry_sum e_max L k Hs Hk). rewrite Hsum by auto.
      destruct (sums (fun v => v =? e_val (nth k L e0)) cp) as [_ [-> _]]. reflexivity. }
    assert (Hmn : forall k, (k < List.length L)%nat ->
      nth k (map e_min L) 0 = fold_right (fun c s => b2z (fst c =? e_val (nth k L e0)) + s) 0 cp).
    { intros k Hk. change 0 with (e_min e0) at 1. rewrite map_nth.
      rewrite (entry_sum e_min L k Hs Hk). rewrite Hsum by auto.
      destruct (sums (fun v => v =? e_val (nth k L e0)) cp) as [_ [_ ->]]. reflexivity. }
    split.
    + intros k Hk Hk4. rewrite Hnv. set (u := e_val (nth k L e0)) in *.
      destruct d.
      * rewrite nth_zipZ by (rewrite ?map_length; lia). rewrite Hcum, Hmn by auto. fold u.
        rewrite fold_minus. apply fold_count. intros [m M] Hc. specialize (Hlt _ Hc). cbn [fst snd counted] in *.
        unfold b2z. destruct ((m <? u) && (u <? M)) eqn:E4, (m <=? u) eqn:E1, (M <=? u) eqn:E2, (m =? u) eqn:E3; lia.
      * rewrite nth_zipZ by (rewrite ?zipZ_length; rewrite ?map_length; lia).
        rewrite nth_zipZ by (rewrite ?map_length; lia). rewrite Hcum, Hmn, Hmx by auto. fold u.
        rewrite fold_plus, fold_minus. apply fold_count. intros [m M] Hc. specialize (Hlt _ Hc). cbn [fst snd counted] in *.
        unfold b2z. destruct ((m <? u) && (u <=? M)) eqn:E4, (m <=? u) eqn:E1, (M <=? u) eqn:E2, (m =? u) eqn:E3, (M =? u) eqn:E5; lia.
      * rewrite nth_zipZ by (rewrite ?map_length; lia). rewrite Hcum, Hmx by auto. fold u.
        rewrite fold_plus. apply fold_count. intros [m M] Hc. specialize (Hlt _ Hc). cbn [fst snd counted] in *.
        unfold b2z. destruct ((m <=? u) && (u <=? M)) eqn:E4, (m <=? u) eqn:E1, (M <=? u) eqn:E2, (M =? u) eqn:E5; lia.
      * destruct (repeat_last_spec (cumsum 0 (map e_step L))) as [_ [Hr _]].
        rewrite Hr by (specialize (Hk4 eq_refl); lia). rewrite Hcum by lia. fold u. apply fold_count.
        intros [m M] Hc. specialize (Hlt _ Hc). cbn [fst snd counted] in *.
        unfold b2z. destruct ((m <=? u) && (u <? M)) eqn:E4, (m <=? u) eqn:E1, (M <=? u) eqn:E2; lia.
    + intros ->. destruct (repeat_last_spec (cumsum 0 (map e_step L))) as [_ [Hr1 Hr2]].
      rewrite Hcl in *. destruct (Nat.le_gt_cases 2 (List.length L)) as [H2|H1].
      * rewrite Hr2, Hr1 by lia. reflexivity.
      * replace (List.length L - 1)%nat with 0%nat by lia. replace (List.length L - 2)%nat with 0%nat by lia. reflexivity.
Qed.
