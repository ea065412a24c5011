From Coq Require Import ZifyBool.
From Verif Require Import Base CrossSpec ListFacts TcProofs AstmModel AstmSpec.
Local Open Scope Z_scope.

Lemma zigzag_tl up l : zigzag up l -> zigzag (negb up) (tl l).
Proof. destruct l as [|a [|b l]]; simpl; tauto. Qed.

Definition zz (l : list Z) : Prop := exists up, zigzag up l.

Definition weight (u : Z) (r : row3) : nat := row_crossings u (Counted3 r).
Definition wsum (u : Z) (rows : list row3) : nat := fold_right (fun r s => weight u r + s)%nat 0%nat rows.

Lemma weight_crosses u y z b : (y <> z) ->
  weight u (Row3 (Z.abs (y - z)) (y + z) b) = ((if b then 2 else 1) * crosses u y z)%nat.
Proof.
  intros H. unfold weight, row_crossings, crosses. cbn [r_sum r_range r_full].
  destruct (y <? u) eqn:E1, (z <? u) eqn:E2; cbn [Bool.eqb];
  destruct ((y + z - Z.abs (y - z) <? 2 * u) && (2 * u <=? y + z + Z.abs (y - z))) eqn:E3;
  destruct b; lia.
Qed.

Lemma crosses_sym u a b : crosses u a b = crosses u b a.
Proof. unfold crosses. destruct (a <? u), (b <? u); reflexivity. Qed.

(* number of full cycles counted *)
Definition fulls (rows : list row3) : nat := length (filter r_full rows).

(* invariant of the counting loop, p = points read so far *)
Record Inv (u : Z) (p : nat) (total_cr : nat) (st : list Z) (rows : list row3) (c1 : nat) : Prop := {
  i_len : (p = length st + length rows + fulls rows)%nat;
  i_pos : (1 <= length st)%nat;
  i_c1 : c1 = S (fulls rows);
  i_cr : (total_cr = crossings u st + wsum u rows)%nat;
  i_rows : forall r, In r rows -> 0 < r_range r
}.

Lemma reduce3_inv u cap : forall fuel st rows c1 p cr up,
  (length st < fuel)%nat -> (p <= cap)%nat -> zigzag up st -> Inv u p cr st rows c1 ->
  exists st' rows' c1' r, reduce3 fuel cap st rows c1 = Ok (st', rows', c1') /\
    Inv u p cr st' rows' c1' /\ zigzag up st' /\
    (st <> [] -> exists q, st' = hd 0 st :: q) /\ rows' = r ++ rows.
Proof.
  induction fuel as [|fuel IH]; intros st rows c1 p cr up Hf Hcap Hz HI; [lia|].
  destruct st as [|x [|y [|z rest]]].
  1-3: eexists; exists rows, c1, []; split; [reflexivity|]; split; [exact HI|]; split; [exact Hz|]; split; [|reflexivity]; intros; simpl; eauto; congruence.
  cbn [reduce3]. destruct (Z.abs (y - z) <=? Z.abs (x - y)) eqn:Ec.
  2:{ exists (x :: y :: z :: rest), rows, c1, []. split; [reflexivity|]. split; [exact HI|].
      split; [exact Hz|]. split; [|reflexivity]. intros _. simpl. eauto. }
  assert (Hyz : y <> z) by (simpl in Hz; destruct up; simpl in Hz; lia).
  destruct HI as [Hlen Hpos Hc1 Hcr Hrows].
  assert (Hpush : forall b, push3 cap rows (Row3 (Z.abs (y - z)) (y + z) b)
       = Ok (Row3 (Z.abs (y - z)) (y + z) b :: rows)).
  { intros b. unfold push3. cbn [r_range]. replace (Z.abs (y - z) >? 0) with true by lia.
    simpl length in Hlen. replace (length rows <? cap)%nat with true by lia. reflexivity. }
  destruct rest as [|r0 rest].
  - rewrite Hpush. cbn [bind].
    destruct (IH [x; y] (Row3 (Z.abs (y - z)) (y + z) false :: rows) c1 p cr up) as
      [st' [rows' [c1' [r [E [HI' [Hz' [Hhd Hr]]]]]]]]; auto.
    + simpl in *. lia.
    + simpl in *. tauto.
    + constructor; auto.
      * simpl length in *. unfold fulls in *. cbn [filter r_full]. lia.
      * rewrite Hcr. cbn [crossings wsum fold_right]. fold (wsum u rows).
        rewrite weight_crosses by auto. lia.
      * intros r [<-|Hr]; [simpl; lia|auto].
    + exists st', rows', c1', (r ++ [Row3 (Z.abs (y - z)) (y + z) false]).
      split; [exact E|]. split; [exact HI'|]. split; [exact Hz'|]. split.
      * intros _. simpl. apply Hhd. discriminate.
      * rewrite <- app_assoc. exact Hr.
  - rewrite Hpush. cbn [bind]. replace (Z.abs (y - z) >? 0) with true by lia.
    destruct (IH (x :: r0 :: rest) (Row3 (Z.abs (y - z)) (y + z) true :: rows) (S c1) p cr up) as
      [st' [rows' [c1' [r [E [HI' [Hz' [Hhd Hr]]]]]]]]; auto.
    + simpl in *. lia.
    + destruct Hz as [Z1 [Z2 [Z3 Z4]]]. split.
      * destruct up; cbn [negb] in *; lia.
      * rewrite !Bool.negb_involutive in Z4. exact Z4.
    + constructor; auto.
      * simpl length in *. unfold fulls in *. cbn [filter r_full length]. lia.
      * simpl; lia.
      * rewrite Hcr. cbn [wsum fold_right]. fold (wsum u rows). rewrite weight_crosses by auto.
        change (crossings u (x :: y :: z :: r0 :: rest))
          with (crosses u x y + (crosses u y z + (crosses u z r0 + crossings u (r0 :: rest))))%nat.
        change (crossings u (x :: r0 :: rest))
          with (crosses u x r0 + crossings u (r0 :: rest))%nat.
        assert (crosses u x y + crosses u y z + crosses u z r0
                = crosses u x r0 + 2 * crosses u y z)%nat; [|lia].
        unfold crosses. clear - Hz Ec.
        destruct up; simpl in Hz; destruct Hz as [H1 [H2 [H3 _]]];
        destruct (x <? u) eqn:E1, (y <? u) eqn:E2, (z <? u) eqn:E3, (r0 <? u) eqn:E4; cbn [Bool.eqb]; lia.
      * intros r [<-|Hr]; [simpl; lia|auto].
    + exists st', rows', c1', (r ++ [Row3 (Z.abs (y - z)) (y + z) true]).
      split; [exact E|]. split; [exact HI'|]. split; [exact Hz'|]. split.
      * intros _. simpl. apply Hhd. discriminate.
      * rewrite <- app_assoc. exact Hr.
Qed.

(* the last point read is on top of the stack, and the next one continues the zigzag *)
Lemma count3_inv u cap : forall xs top st rows c1 p cr up,
  (p + length xs <= cap)%nat -> zigzag up (top :: xs) -> zigzag up (top :: st) ->
  Inv u p cr (top :: st) rows c1 ->
  exists st' rows' c1', count3 cap xs (top :: st) rows c1 = Ok (st', rows', c1') /\
    Inv u (p + length xs) (cr + crossings u (top :: xs)) st' rows' c1' /\ zz st'.
Proof.
  induction xs as [|x xs IH]; intros top st rows c1 p cr up Hcap Hxs Hst HI.
  - exists (top :: st), rows, c1. split; [reflexivity|]. split; [|exists up; exact Hst].
    cbn [length crossings]. rewrite !Nat.add_0_r. exact HI.
  - cbn [count3].
    assert (Hz : zigzag (negb up) (x :: top :: st)).
    { simpl in Hxs. simpl. rewrite Bool.negb_involutive. split; [|exact Hst].
      destruct up; simpl in *; tauto. }
    destruct (reduce3_inv u cap (S (S (length (top :: st)))) (x :: top :: st) rows c1 (S p)
                (cr + crosses u top x) (negb up)) as
      [st' [rows' [c1' [r [E [HI' [Hz' [Hhd Hr]]]]]]]]; auto.
    + simpl in *; lia.
    + destruct HI as [H1 H2 H3 H4 H5]. constructor; auto.
      * simpl length in *. lia.
      * simpl; lia.
      * change (crossings u (x :: top :: st)) with (crosses u x top + crossings u (top :: st))%nat.
        rewrite (crosses_sym u top x). lia.
    + rewrite E. cbn [bind]. destruct Hhd as [q Hq]; [discriminate|]. cbn [hd] in Hq. subst st'.
      destruct (IH x q rows' c1' (S p) (cr + crosses u top x)%nat (negb up)) as [st2 [rows2 [c2 [E2 [HI2 Hz2]]]]]; auto.
      * cbn [length] in Hcap. lia.
      * simpl in Hxs. tauto.
      * exists st2, rows2, c2. split; [exact E2|]. split; [|exact Hz2].
        replace (p + length (x :: xs))%nat with (S p + length xs)%nat by (simpl; lia).
        change (crossings u (top :: x :: xs)) with (crosses u top x + crossings u (x :: xs))%nat.
        rewrite Nat.add_assoc. exact HI2.
Qed.

Lemma residue3_inv u cap : forall a rows up, zigzag up a ->
  (length rows + length a <= S cap)%nat -> (forall r, In r rows -> 0 < r_range r) ->
  exists rows', residue3 cap a rows = Ok rows' /\
    length rows' = (length rows + (length a - 1))%nat /\ fulls rows' = fulls rows /\
    wsum u rows' = (wsum u rows + crossings u a)%nat /\ (forall r, In r rows' -> 0 < r_range r).
Proof.
  induction a as [|p a IH]; intros rows up Hz Hcap Hrows.
  - exists rows. simpl. repeat split; auto; lia.
  - destruct a as [|q a].
    + exists rows. simpl. repeat split; auto; lia.
    + cbn [residue3].
      assert (Hpq : p <> q) by (simpl in Hz; destruct up; lia).
      unfold push3 at 1. cbn [r_range]. replace (Z.abs (p - q) >? 0) with true by lia.
      simpl length in Hcap. replace (length rows <? cap)%nat with true by lia. cbn [bind].
      destruct (IH (Row3 (Z.abs (p - q)) (p + q) false :: rows) (negb up)) as [rows' [E [H1 [H2 [H3 H4]]]]].
      * simpl in Hz. tauto.
      * simpl length. lia.
      * intros r [<-|Hr]; [simpl; lia|auto].
      * exists rows'. split; [exact E|]. split; [simpl in *; lia|].
        split; [rewrite H2; reflexivity|]. split; [|exact H4].
        rewrite H3. cbn [wsum fold_right]. fold (wsum u rows). rewrite weight_crosses by auto.
        change (crossings u (p :: q :: a)) with (crosses u p q + crossings u (q :: a))%nat. lia.
Qed.

Lemma crossings_app u l a b : crossings u (l ++ [a; b]) = (crossings u (l ++ [a]) + crosses u a b)%nat.
Proof.
  induction l as [|c l IH]; [simpl; lia|].
  destruct l as [|d l]; [simpl in *; lia|].
  change (crossings u ((c :: d :: l) ++ [a; b])) with (crosses u c d + crossings u ((d :: l) ++ [a; b]))%nat.
  change (crossings u ((c :: d :: l) ++ [a])) with (crosses u c d + crossings u ((d :: l) ++ [a]))%nat.
  lia.
Qed.

Lemma crossings_rev u l : crossings u (rev l) = crossings u l.
Proof.
  induction l as [|a l IH]; [reflexivity|]. destruct l as [|b l]; [reflexivity|].
  change (rev (a :: b :: l)) with ((rev l ++ [b]) ++ [a]). rewrite <- app_assoc.
  change ([b] ++ [a]) with [b; a]. rewrite crossings_app.
  change (rev l ++ [b]) with (rev (b :: l)). rewrite IH. rewrite crosses_sym. 
  change (crossings u (a :: b :: l)) with (crosses u a b + crossings u (b :: l))%nat. lia.
Qed.

Lemma zigzag_nth : forall l up, zigzag up l <->
  (forall k, (S k < length l)%nat ->
     if xorb up (Nat.odd k) then nth k l 0 < nth (S k) l 0 else nth (S k) l 0 < nth k l 0).
Proof.
  induction l as [|a l IH]; intros up.
  - simpl. split; auto. intros; lia.
  - destruct l as [|b l].
    + simpl. split; auto. intros; lia.
    + change (zigzag up (a :: b :: l)) with ((if up then a < b else b < a) /\ zigzag (negb up) (b :: l)).
      rewrite IH. split.
      * intros [H1 H2] k Hk. destruct k as [|k].
        -- simpl. destruct up; exact H1.
        -- specialize (H2 k). simpl length in *. specialize (H2 ltac:(lia)).
           rewrite Nat.odd_succ, <- Nat.negb_odd. cbn [nth].
           destruct up, (Nat.odd k); cbn [negb xorb] in *; exact H2.
      * intros H. split.
        -- specialize (H 0%nat ltac:(simpl; lia)). simpl in H. destruct up; exact H.
        -- intros k Hk. specialize (H (S k) ltac:(simpl in *; lia)).
           rewrite Nat.odd_succ, <- Nat.negb_odd in H. cbn [nth] in H.
           destruct up, (Nat.odd k); cbn [negb xorb] in *; exact H.
Qed.

Lemma zz_rev l : zz l -> zz (rev l).
Proof.
  intros [up H]. rewrite zigzag_nth in H.
  exists (if Nat.even (length l) then negb up else up). rewrite zigzag_nth.
  rewrite rev_length. intros k Hk.
  rewrite !rev_nth by lia. set (j := (length l - S (S k))%nat).
  specialize (H j ltac:(unfold j; lia)).
  replace (length l - S k)%nat with (S j) by (unfold j; lia).
  assert (Hodd : Nat.odd j = xorb (Nat.odd (length l)) (Nat.odd k)).
  { replace (length l) with (j + k + 2)%nat by (unfold j; lia).
    rewrite !Nat.odd_add. simpl. destruct (Nat.odd j), (Nat.odd k); reflexivity. }
  rewrite Hodd in H. rewrite <- Nat.negb_odd.
  destruct (Nat.odd (length l)), (Nat.odd k), up; cbn [negb xorb] in *; exact H.
Qed.

Lemma wsum_rev u rows : wsum u (rev rows) = wsum u rows.
Proof.
  assert (Happ : forall a b, wsum u (a ++ b) = (wsum u a + wsum u b)%nat).
  { induction a as [|r a IH]; intros b; simpl; auto. rewrite IH. lia. }
  induction rows as [|r rows IH]; [reflexivity|]. simpl. rewrite Happ, IH. simpl. lia.
Qed.
Lemma total_wsum u rows : total (row_crossings u) (map Counted3 rows) = wsum u rows.
Proof. induction rows as [|r rows IH]; [reflexivity|]. cbn [map]. unfold total in *. cbn [fold_right wsum]. rewrite IH. reflexivity. Qed.

Lemma findrfc3_spec u tp up : tp <> [] -> zigzag up tp ->
  exists rows c1, findrfc3 tp = Ok (rows, c1) /\
    (length tp = length rows + c1)%nat /\ (1 <= c1)%nat /\
    crossings u tp = wsum u rows /\ (forall r, In r rows -> 0 < r_range r).
Proof.
  intros Hne Hz. destruct tp as [|a xs]; [contradiction|].
  unfold findrfc3. cbn [count3].
  change (reduce3 (S (S (length (@nil Z)))) (length (a :: xs)) [a] [] 1) with (Ok ([a], @nil row3, 1%nat)).
  cbn [bind].
  destruct (count3_inv u (length (a :: xs)) xs a [] [] 1%nat 1%nat 0%nat up) as [st [rows [c1 [E [HI Hzz]]]]]; auto.
  - exact I.
  - constructor; simpl; auto. intros r [].
  - rewrite E. cbn [bind]. apply zz_rev in Hzz. destruct Hzz as [up' Hz'].
    destruct HI as [H1 H2 H3 H4 H5].
    destruct (residue3_inv u (length (a :: xs)) (rev st) rows up' Hz') as [rows' [Er [G1 [G2 [G3 G4]]]]]; auto.
    + rewrite rev_length. cbn [length] in *. lia.
    + rewrite Er. cbn [bind]. exists (rev rows'), c1. split; [reflexivity|].
      rewrite rev_length in *. split; [cbn [length] in *; lia|]. split; [lia|].
      rewrite wsum_rev, G3, crossings_rev. split; [lia|].
      intros r Hr. apply G4. apply in_rev. exact Hr.
Qed.

Lemma upto_app {A} (l r : list A) : upto (l ++ r) (Z.of_nat (length l)) = l.
Proof.
  unfold upto. replace (Z.of_nat (length l) <? 0) with false by lia.
  rewrite Nat2Z.id. replace (length l) with (length l + 0)%nat by lia.
  rewrite firstn_app_2. simpl. apply app_nil_r.
Qed.

Lemma astm3_spec u tp up : tp <> [] -> zigzag up tp ->
  exists rows, findrfc_astm3 tp = Ok (map Counted3 rows) /\
    crossings u tp = total (row_crossings u) (map Counted3 rows) /\
    (forall r, In r rows -> 0 < r_range r).
Proof.
  intros Hne Hz. destruct (findrfc3_spec u tp up Hne Hz) as [rows [c1 [E [H1 [H2 [H3 H4]]]]]].
  unfold findrfc_astm3. rewrite E. cbn [bind].
  exists rows. rewrite total_wsum. split; [|split; auto].
  replace (Z.of_nat (length tp) - Z.of_nat c1) with (Z.of_nat (length (map Counted3 rows)))
    by (rewrite map_length; lia).
  rewrite upto_app. reflexivity.
Qed.

(* ---- with times ---- *)
Definition row35 (r : row5) : row3 := Row3 (s_range r) (s_sum r) (s_full r).

Definition rmap {A B} (f : A -> B) (r : res A) : res B :=
  match r with Ok a => Ok (f a) | Err e => Err e end.

Lemma push35 cap rows r : rmap (map row35) (push5 cap rows r) = push3 cap (map row35 rows) (row35 r).
Proof.
  unfold push5, push3. cbn [row35 r_range]. rewrite map_length.
  destruct (s_range r >? 0); [|reflexivity]. destruct (length rows <? cap)%nat; reflexivity.
Qed.

Definition proj35 (s : list (Z * Z) * list row5 * nat) : list Z * list row3 * nat :=
  let '(st, rows, c) := s in (map fst st, map row35 rows, c).

Lemma reduce35 cap : forall fuel st rows c1,
  rmap proj35 (reduce5 fuel cap st rows c1) = reduce3 fuel cap (map fst st) (map row35 rows) c1.
Proof.
  induction fuel as [|fuel IH]; intros st rows c1; [reflexivity|].
  destruct st as [|[x tx] [|[y ty] [|[z tz] rest]]]; try reflexivity.
  cbn [reduce5 reduce3 map fst].
  destruct (Z.abs (y - z) <=? Z.abs (x - y)); [|reflexivity].
  destruct rest as [|[r0 t0] rest].
  - cbn [map].
    change (Row3 (Z.abs (y - z)) (y + z) false)
      with (row35 (Row5 (Z.abs (y - z)) (y + z) false tz (ty - tz))).
    rewrite <- push35. destruct (push5 cap rows _) as [rows'|e]; cbn [bind rmap]; [|reflexivity].
    apply IH.
  - cbn [map].
    change (Row3 (Z.abs (y - z)) (y + z) true)
      with (row35 (Row5 (Z.abs (y - z)) (y + z) true tz (ty - tz))).
    rewrite <- push35. destruct (push5 cap rows _) as [rows'|e]; cbn [bind rmap]; [|reflexivity].
    apply (IH ((x, tx) :: (r0, t0) :: rest)).
Qed.

Lemma count35 cap : forall xs ts st rows c1, length ts = length xs ->
  rmap proj35 (count5 cap xs ts st rows c1) = count3 cap xs (map fst st) (map row35 rows) c1.
Proof.
  induction xs as [|x xs IH]; intros ts st rows c1 Hl; [reflexivity|].
  destruct ts as [|t ts]; [discriminate|]. cbn [count5 count3].
  change (x :: map fst st) with (map fst ((x, t) :: st)). rewrite map_length, <- reduce35.
  destruct (reduce5 _ cap ((x, t) :: st) rows c1) as [[[st' rows'] c']|e]; cbn [bind rmap proj35]; [|reflexivity].
  apply IH. simpl in Hl. lia.
Qed.

Lemma residue35 cap : forall a rows,
  rmap (map row35) (residue5 cap a rows) = residue3 cap (map fst a) (map row35 rows).
Proof.
  induction a as [|[p tp] a IH]; intros rows; [reflexivity|].
  destruct a as [|[q tq] a]; [reflexivity|].
  cbn [residue5]. cbn [map fst residue3].
  change (Row3 (Z.abs (p - q)) (p + q) false)
      with (row35 (Row5 (Z.abs (p - q)) (p + q) false tp (tq - tp))).
  rewrite <- push35. destruct (push5 cap rows _) as [rows'|e]; cbn [bind rmap]; [|reflexivity].
  apply IH.
Qed.

Lemma upto_map {A B} (f : A -> B) l k : map f (upto l k) = upto (map f l) k.
Proof.
  unfold upto. rewrite map_length. destruct (k <? 0); rewrite firstn_map; reflexivity.
Qed.

Lemma astm35 tp t : length t = length tp ->
  rmap (map drop_times) (findrfc_astm5 tp t) = findrfc_astm3 tp.
Proof.
  intros Hl. unfold findrfc_astm5, findrfc_astm3, findrfc5, findrfc3.
  pose proof (count35 (length tp) tp t [] [] 1 Hl) as H. cbn [map] in H. rewrite <- H.
  destruct (count5 (length tp) tp t [] [] 1) as [[[st rows] c]|e]; cbn [bind rmap proj35]; [|reflexivity].
  rewrite <- map_rev, <- residue35.
  destruct (residue5 (length tp) (rev st) rows) as [rows'|e]; cbn [bind rmap]; [|reflexivity].
  f_equal. rewrite upto_map. f_equal. rewrite map_app, <- map_rev, !map_map, map_length. f_equal.
  generalize (length tp - length (rev rows'))%nat as k. induction k as [|k IHk]; [reflexivity|].
  cbn [repeat map drop_times]. rewrite IHk. reflexivity.
Qed.

(* every five column row describes two positions of the input *)
Definition pt (tp t : list Z) (i : nat) : Z * Z := (nth i tp 0, nth i t 0).

Lemma push5_ok cap rows r rows' : push5 cap rows r = Ok rows' ->
  forall x, In x rows' -> In x rows \/ x = r.
Proof.
  unfold push5. destruct (s_range r >? 0).
  - destruct (length rows <? cap)%nat; [|discriminate]. intros H; injection H as <-.
    intros x [<-|H]; auto.
  - intros H; injection H as <-. auto.
Qed.

Lemma incr_tail3 l z y x : increasing (l ++ [z; y; x]) ->
  (z < y < x)%nat /\ increasing (l ++ [x]) /\ increasing [y; x].
Proof.
  rewrite increasing_app. intros [H1 [H2 H3]].
  apply increasing_cons in H2. destruct H2 as [Hz H2].
  pose proof H2 as H2'. apply increasing_cons in H2. destruct H2 as [Hy _].
  split; [split; [apply Hz|apply Hy]; simpl; auto|]. split; [|exact H2'].
  rewrite increasing_app. split; auto. split.
  - apply increasing_cons. split; [intros ? []|apply increasing_nil].
  - intros a b Ha [<-|[]]. apply H3; simpl; auto.
Qed.

Lemma reduce5_positions tp t cap : forall fuel js rows c1 st' rows' c1',
  increasing (rev js) -> (forall i, In i js -> (i < length tp)%nat) ->
  (forall r, In r rows -> RowOk tp t r) ->
  reduce5 fuel cap (map (pt tp t) js) rows c1 = Ok (st', rows', c1') ->
  exists js', st' = map (pt tp t) js' /\ increasing (rev js') /\
    (forall i, In i js' -> In i js) /\ (forall r, In r rows' -> RowOk tp t r).
Proof.
  induction fuel as [|fuel IH]; intros js rows c1 st' rows' c1' Hinc Hin Hrows H; [discriminate|].
  destruct js as [|jx [|jy [|jz rest]]].
  { injection H as <- <- <-. exists []. auto. }
  { injection H as <- <- <-. exists [jx]. auto. }
  { injection H as <- <- <-. exists [jx; jy]. auto. }
  cbn [map pt reduce5] in H.
  destruct (Z.abs (nth jy tp 0 - nth jz tp 0) <=? Z.abs (nth jx tp 0 - nth jy tp 0)) eqn:Ec.
  2:{ injection H as <- <- <-. exists (jx :: jy :: jz :: rest). auto. }
  assert (Hinc2 : increasing (rev rest ++ [jz; jy; jx])).
  { cbn [rev] in Hinc. rewrite <- !app_assoc in Hinc. exact Hinc. }
  destruct (incr_tail3 _ _ _ _ Hinc2) as [[Hzy Hyx] [Hx Hyx2]].
  assert (Hok : forall b, RowOk tp t (Row5 (Z.abs (nth jy tp 0 - nth jz tp 0)) (nth jy tp 0 + nth jz tp 0)
                 b (nth jz t 0) (nth jy t 0 - nth jz t 0))).
  { intros b. exists jz, jy. split; [|simpl; auto]. split; auto. apply Hin; simpl; auto. }
  destruct rest as [|j0 rest].
  - cbn [map] in H. destruct (push5 cap rows _) as [rows1|e] eqn:Ep; cbn [bind] in H; [|discriminate].
    apply (IH [jx; jy]) in H.
    + destruct H as [js' [H1 [H2 [H3 H4]]]]. exists js'. split; auto. split; auto. split; auto.
      intros i Hi. apply H3 in Hi. simpl in *. tauto.
    + exact Hyx2.
    + intros i Hi. apply Hin. simpl in *. tauto.
    + intros r Hr. apply (push5_ok _ _ _ _ Ep) in Hr. destruct Hr as [Hr| ->]; auto.
  - cbn [map] in H. destruct (push5 cap rows _) as [rows1|e] eqn:Ep; cbn [bind] in H; [|discriminate].
    apply (IH (jx :: j0 :: rest)) in H.
    + destruct H as [js' [H1 [H2 [H3 H4]]]]. exists js'. split; auto. split; auto. split; auto.
      intros i Hi. apply H3 in Hi. simpl in *. tauto.
    + exact Hx.
    + intros i Hi. apply Hin. simpl in *. tauto.
    + intros r Hr. apply (push5_ok _ _ _ _ Ep) in Hr. destruct Hr as [Hr| ->]; auto.
Qed.

Lemma count5_positions tp t cap : forall k js rows c1 st' rows' c1',
  (k <= length tp)%nat -> length t = length tp ->
  increasing (rev js) -> (forall i, In i js -> (i < k)%nat) ->
  (forall r, In r rows -> RowOk tp t r) ->
  count5 cap (skipn k tp) (skipn k t) (map (pt tp t) js) rows c1 = Ok (st', rows', c1') ->
  exists js', st' = map (pt tp t) js' /\ increasing (rev js') /\
    (forall i, In i js' -> (i < length tp)%nat) /\ (forall r, In r rows' -> RowOk tp t r).
Proof.
  intros k. remember (length tp - k)%nat as d eqn:Hd. revert k Hd.
  induction d as [|d IH]; intros k Hd js rows c1 st' rows' c1' Hk Hl Hinc Hin Hrows H.
  - replace (skipn k tp) with (@nil Z) in H by (symmetry; apply skipn_all2; lia).
    injection H as <- <- <-. exists js. split; auto. split; auto. split; auto.
    intros i Hi. specialize (Hin i Hi). lia.
  - assert (Hs : forall l : list Z, length l = length tp -> skipn k l = nth k l 0 :: skipn (S k) l).
    { intros l Hll. assert (Hkl : (k < length l)%nat) by lia. clear - Hkl. revert k Hkl.
      induction l as [|a l IHl]; intros k Hkl; [simpl in Hkl; lia|].
      destruct k; [reflexivity|]. simpl. apply IHl. simpl in Hkl. lia. }
    rewrite (Hs tp eq_refl), (Hs t Hl) in H. cbn [count5] in H.
    destruct (reduce5 _ cap _ rows c1) as [[[st1 rows1] c11]|e] eqn:Er; cbn [bind] in H; [|discriminate].
    change ((nth k tp 0, nth k t 0) :: map (pt tp t) js) with (map (pt tp t) (k :: js)) in Er.
    apply (reduce5_positions tp t) in Er; auto.
    + destruct Er as [js1 [-> [Hi1 [Hi2 Hi3]]]].
      apply (IH (S k)) in H; auto; try lia.
      intros i Hi. apply Hi2 in Hi. destruct Hi as [<-|Hi]; [lia|]. specialize (Hin i Hi). lia.
    + simpl. apply increasing_app. split; auto. split.
      * apply increasing_cons. split; [intros ? []|apply increasing_nil].
      * intros a b Ha [<-|[]]. apply Hin. apply in_rev. exact Ha.
    + intros i [<-|Hi]; [lia|]. specialize (Hin i Hi). lia.
Qed.

Lemma residue5_positions tp t cap : forall js rows rows', increasing js ->
  (forall i, In i js -> (i < length tp)%nat) -> (forall r, In r rows -> RowOk tp t r) ->
  residue5 cap (map (pt tp t) js) rows = Ok rows' -> forall r, In r rows' -> RowOk tp t r.
Proof.
  induction js as [|i js IH]; intros rows rows' Hinc Hin Hrows H.
  - injection H as <-. exact Hrows.
  - destruct js as [|j js]; [injection H as <-; exact Hrows|].
    cbn [map pt residue5] in H.
    destruct (push5 cap rows _) as [rows1|e] eqn:Ep; cbn [bind] in H; [|discriminate].
    apply increasing_cons in Hinc. destruct Hinc as [Hij Hinc].
    apply (IH rows1 rows'); auto.
    + intros q Hq. apply Hin. right; auto.
    + intros r Hr. apply (push5_ok _ _ _ _ Ep) in Hr. destruct Hr as [Hr| ->]; auto.
      exists i, j. split; [split; [apply Hij; left; auto|apply Hin; simpl; auto]|]. simpl.
      repeat split; lia.
Qed.

Lemma upto_in {A} (l : list A) k x : In x (upto l k) -> In x l.
Proof.
  unfold upto. destruct (k <? 0); intros H.
  - rewrite <- (firstn_skipn (Z.to_nat (Z.of_nat (length l) + k)) l). apply in_app_iff; auto.
  - rewrite <- (firstn_skipn (Z.to_nat k) l). apply in_app_iff; auto.
Qed.

Lemma astm5_rows tp t cells : length t = length tp -> findrfc_astm5 tp t = Ok cells ->
  forall r, In (Counted5 r) cells -> RowOk tp t r.
Proof.
  intros Hl H r Hr. unfold findrfc_astm5, findrfc5 in H.
  destruct (count5 (length tp) tp t [] [] 1) as [[[st rows] c]|e] eqn:Ec; cbn [bind] in H; [|discriminate].
  destruct (residue5 (length tp) (rev st) rows) as [rows'|e] eqn:Er; cbn [bind] in H; [|discriminate].
  injection H as <-.
  apply (count5_positions tp t (length tp) 0 [] [] 1) in Ec; auto; try lia.
  - destruct Ec as [js [-> [H1 [H2 H3]]]]. rewrite <- map_rev in Er.
    apply (residue5_positions tp t (length tp) (rev js) rows rows') with (r := r) in Er; auto.
    + intros i Hi. apply H2, in_rev, Hi.
    + apply upto_in in Hr. apply in_app_iff in Hr. destruct Hr as [Hr|Hr].
      * apply in_map_iff in Hr. destruct Hr as [r' [He Hr]]. injection He as ->. apply in_rev, Hr.
      * apply repeat_spec in Hr. discriminate.
  - apply increasing_nil.
  - intros i [].
  - intros r' [].
Qed.

Lemma astm3_repeated : exists tp cells, findrfc_astm3 tp = Ok cells /\ In Zero3 cells.
Proof. exists [0; 5; 1; 4; -2; 6; 6; 3]. eexists. split; [reflexivity|]. simpl. auto 10. Qed.

Lemma astm3_repeated_lost : exists tp cells u, findrfc_astm3 tp = Ok cells /\
  crossings u tp = 2%nat /\ total (row_crossings u) cells = 0%nat.
Proof. exists [1; 2; 2; 1]. eexists. exists 2. split; [reflexivity|]. split; reflexivity. Qed.

Lemma astm3_total tp up : zigzag up tp ->
  exists rows, findrfc_astm3 tp = Ok (map Counted3 rows) /\ (forall r, In r rows -> 0 < r_range r).
Proof.
  intros Hz. destruct tp as [|a tp]; [exists []; split; [reflexivity|intros r []]|].
  destruct (astm3_spec 0 (a :: tp) up) as [rows [E [_ H]]]; [discriminate|exact Hz|].
  exists rows. auto.
Qed.

Lemma astm3_conserves tp up : zigzag up tp ->
  exists cells, findrfc_astm3 tp = Ok cells /\ forall u, crossings u tp = total (row_crossings u) cells.
Proof.
  intros Hz. destruct (astm3_total tp up Hz) as [rows [E H]].
  exists (map Counted3 rows). split; [exact E|]. intros u.
  destruct tp as [|a tp]; [injection E as E; destruct rows; [reflexivity|discriminate]|].
  destruct (astm3_spec u (a :: tp) up) as [rows' [E' [Hc _]]]; [discriminate|exact Hz|].
  rewrite E in E'. injection E' as E'. rewrite E'. exact Hc.
Qed.
