From Coq Require Import String ZifyBool ZifyNat Reals Lra.
From Verif Require Import Base CrossModel CrossSpec ListFacts CrossProofs EcrossModel EcrossProofs
  CyclesModel CyclesSpec.
Local Open Scope list_scope.
Local Open Scope Z_scope.

(* ---- C25 ---- *)
Lemma sumZ_ext f g n : (forall k, 0 <= k < Z.of_nat n -> f k = g k) -> sumZ f n = sumZ g n.
Proof.
  unfold sumZ. intros H.
  assert (G : forall l, (forall k, In k l -> (k < n)%nat) ->
    fold_right (fun k s => f (Z.of_nat k) + s) 0 l = fold_right (fun k s => g (Z.of_nat k) + s) 0 l).
  { induction l as [|a l IH]; intros Hl; [reflexivity|]. cbn [fold_right].
    rewrite IH by (intros; apply Hl; right; auto). rewrite H; [reflexivity|].
    specialize (Hl a (or_introl eq_refl)). lia. }
  apply G. intros k Hk. apply in_seq in Hk. lia.
Qed.
Lemma sumZ_S f n : sumZ f (S n) = sumZ f n + f (Z.of_nat n).
Proof.
  unfold sumZ. rewrite seq_S, fold_right_app. cbn [fold_right Nat.add].
  generalize (seq 0 n). induction l as [|a l IH]; cbn [fold_right]; lia.
Qed.
Lemma sumZ_zero n : sumZ (fun _ => 0) n = 0.
Proof. induction n; [reflexivity|]. rewrite sumZ_S. lia. Qed.
Lemma sumZ_add f g n : sumZ (fun k => f k + g k) n = sumZ f n + sumZ g n.
Proof. induction n; [reflexivity|]. rewrite !sumZ_S. lia. Qed.
Lemma sumZ_point i n : 0 <= i < Z.of_nat n -> sumZ (fun k => if k =? i then 1 else 0) n = 1.
Proof.
  induction n as [|n IH]; intros H; [lia|]. rewrite sumZ_S.
  destruct (Z.of_nat n =? i) eqn:E.
  - rewrite (sumZ_ext _ (fun _ => 0)), sumZ_zero; [lia|]. intros k Hk. replace (k =? i) with false by lia. reflexivity.
  - rewrite IH by lia. lia.
Qed.
Lemma matrix_sum_upd n F i j : 0 <= i < Z.of_nat n -> 0 <= j < Z.of_nat n ->
  matrix_sum n (upd F i j) = matrix_sum n F + 1.
Proof.
  intros Hi Hj. unfold matrix_sum.
  rewrite (sumZ_ext _ (fun i' => sumZ (fun j' => F i' j') n + (if i' =? i then 1 else 0))).
  - rewrite sumZ_add, sumZ_point by auto. reflexivity.
  - intros i' Hi'. unfold upd. destruct (i' =? i) eqn:E; cbn [andb].
    + rewrite (sumZ_ext _ (fun j' => F i' j' + (if j' =? j then 1 else 0))).
      * rewrite sumZ_add, sumZ_point by auto. reflexivity.
      * intros j' _. destruct (j' =? j); lia.
    + rewrite Z.add_0_r. apply sumZ_ext. reflexivity.
Qed.

Definition inside (n : Z) (c : Z * Z) : Prop := 0 <= fst c < n /\ 0 <= snd c < n.
Definition occurrences (i j : Z) (l : list (Z * Z)) : Z :=
  Z.of_nat (List.length (filter (fun c => (fst c =? i) && (snd c =? j)) l)).

Lemma dcp2cmat_spec n : forall l F, (forall c, In c l -> inside n c) ->
  exists G, dcp2cmat n F l = Ok G /\ (forall i j, G i j = F i j + occurrences i j l) /\
    matrix_sum (Z.to_nat n) G = matrix_sum (Z.to_nat n) F + Z.of_nat (List.length l).
Proof.
  induction l as [|[p q] l IH]; intros F H.
  - exists F. split; [reflexivity|]. split; [intros; unfold occurrences; simpl; lia|simpl; lia].
  - assert (Hc := H _ (or_introl eq_refl)). unfold inside in Hc. cbn [fst snd] in Hc.
    cbn [dcp2cmat]. replace ((0 <=? p) && (p <? n) && (0 <=? q) && (q <? n)) with true by lia.
    destruct (IH (upd F p q)) as [G [E [HG HS]]]; [intros; apply H; right; auto|].
    exists G. split; [exact E|]. split.
    + intros i j. rewrite HG. unfold upd, occurrences. cbn [filter fst snd].
      destruct ((i =? p) && (j =? q)) eqn:Eij.
      * replace ((p =? i) && (q =? j)) with true by lia. cbn [List.length]. lia.
      * replace ((p =? i) && (q =? j)) with false by lia. lia.
    + rewrite HS, matrix_sum_upd by lia. cbn [List.length]. lia.
Qed.

Lemma clip_range lo hi v : lo <= hi -> lo <= clip lo hi v <= hi.
Proof. unfold clip. lia. Qed.

Lemma disc1_inside a b n ddef c : 2 <= n -> inside n (disc1 a b n ddef c).
Proof.
  intros Hn. unfold disc1, inside.
  destruct (ddef =? 0); cbn [fst snd].
  - set (u := rnd _ _). set (w := rnd ((snd c - a) * (n - 1) + (b - a)) (b - a)).
    pose proof (clip_range 0 (n - 1) u). pose proof (clip_range 0 (n - 1) w). lia.
  - destruct (ddef =? 1); cbn [fst snd];
    repeat match goal with |- context [clip ?l ?h ?v] =>
      lazymatch goal with H : l <= clip l h v <= h |- _ => fail | _ => pose proof (clip_range l h v ltac:(lia)) end end; lia.
Qed.

Lemma swap_inside n c : inside n c -> inside n (swap c).
Proof. unfold inside, swap. simpl. tauto. Qed.

Lemma cycle_matrix_spec cp a b n ddef : a < b -> 2 <= n -> ddef = 0 \/ ddef = 1 \/ ddef = -1 ->
  exists F, cycle_matrix cp a b n ddef = Ok F /\ (forall i j, 0 <= F i j) /\
    (forall i j, ~ (0 <= i < n /\ 0 <= j < n) -> F i j = 0) /\
    matrix_sum (Z.to_nat n) F = Z.of_nat (List.length cp).
Proof.
  intros Hab Hn Hd. unfold cycle_matrix, discretize_pairs.
  replace ((ddef =? 0) || (ddef =? 1) || (ddef =? -1)) with true by lia. cbn [bind].
  set (g := fun c : Z * Z => if any_nonzero (bad_index cp) && (fst c >? snd c)
      then swap (disc1 a b n ddef (swap c)) else disc1 a b n ddef c).
  assert (Hin : forall c, In c (map g cp) -> inside n c).
  { intros c Hc. apply in_map_iff in Hc. destruct Hc as [c' [<- _]]. unfold g.
    destruct (any_nonzero (bad_index cp) && (fst c' >? snd c')).
    - apply swap_inside, disc1_inside, Hn.
    - apply disc1_inside, Hn. }
  destruct (dcp2cmat_spec n (map g cp) (fun _ _ => 0) Hin) as [F [E [HF HS]]].
  exists F. split; [exact E|]. split; [|split].
  - intros i j. rewrite HF. unfold occurrences. lia.
  - intros i j Hij. rewrite HF. unfold occurrences.
    assert (Z0 : filter (fun c => (fst c =? i) && (snd c =? j)) (map g cp) = []).
    { clear - Hin Hij. induction (map g cp) as [|c l IH]; [reflexivity|]. cbn [filter].
      assert (Hc := Hin c (or_introl eq_refl)). unfold inside in Hc.
      replace ((fst c =? i) && (snd c =? j)) with false by lia. apply IH. intros; apply Hin; right; auto. }
    rewrite Z0. simpl. lia.
  - rewrite HS, map_length. unfold matrix_sum.
    rewrite (sumZ_ext _ (fun _ => 0)), sumZ_zero; [lia|]. intros k _. apply sumZ_zero.
Qed.

(* nearest-level discretisation puts a value on level number k of linspace(a, b, n) into
   row k + 1 *)
Lemma disc1_level a b n k l : a < b -> 2 <= n -> 0 <= k <= n - 2 -> 0 <= l <= n - 2 ->
  forall m M, (n - 1) * (m - a) = k * (b - a) -> (n - 1) * (M - a) = l * (b - a) ->
  disc1 a b n 0 (m, M) = (k + 1, l + 1).
Proof.
  intros Hab Hn Hk Hl m M Em EM. unfold disc1. cbn [Z.eqb fst snd].
  assert (G : forall v q, (n - 1) * (v - a) = q * (b - a) -> 0 <= q <= n - 2 ->
     clip 0 (n - 1) (rnd ((v - a) * (n - 1) + (b - a)) (b - a)) = q + 1).
  { intros v q E Hq. replace ((v - a) * (n - 1) + (b - a)) with ((q + 1) * (b - a)) by lia.
    unfold rnd. rewrite Z.div_mul, Z_mod_mult by lia.
    replace (2 * 0 <? b - a) with true by lia. unfold clip. lia. }
  rewrite (G m k), (G M l) by auto. reflexivity.
Qed.

(* ---- C27 ---- *)
Lemma nth_skipn {A} (l : list A) s k d : nth k (skipn s l) d = nth (s + k) l d.
Proof.
  revert l. induction s as [|s IH]; intros l; [reflexivity|].
  destruct l as [|a l]; cbn [skipn]; [destruct k; reflexivity|]. apply IH.
Qed.

Lemma every_nth : forall fuel l step k, (1 <= step)%nat -> (List.length l <= fuel)%nat ->
  nth k (every fuel step l) 0%nat = nth (step * k) l 0%nat.
Proof.
  induction fuel as [|f IH]; intros l step k Hs Hl.
  - destruct l; [|simpl in Hl; lia]. cbn [every]. rewrite !nth_overflow; simpl; auto; lia.
  - destruct l as [|a l]; cbn [every]; [rewrite !nth_overflow; simpl; auto; lia|].
    destruct k as [|k]; [rewrite Nat.mul_0_r; reflexivity|].
    cbn [nth]. rewrite IH by (rewrite ?skipn_length; cbn [List.length] in *; lia).
    rewrite nth_skipn. replace (step + step * k)%nat with (step * S k)%nat by lia. reflexivity.
Qed.

Lemma every_length2 : forall fuel l, (List.length l <= fuel)%nat ->
  List.length (every fuel 2 l) = ((List.length l + 1) / 2)%nat.
Proof.
  induction fuel as [|f IH]; intros l Hl.
  - destruct l; [reflexivity|simpl in Hl; lia].
  - destruct l as [|a l]; [reflexivity|]. cbn [every List.length].
    rewrite IH by (rewrite skipn_length; cbn [List.length] in *; lia).
    rewrite skipn_length. cbn [List.length]. destruct l as [|b l]; [reflexivity|]. cbn [List.length].
    replace (S (S (List.length l)) - 2)%nat with (List.length l) by lia.
    replace (S (S (List.length l)) + 1)%nat with (List.length l + 1 + 1 * 2)%nat by lia.
    rewrite Nat.div_add by lia. lia.
Qed.

Lemma nth_firstn {A} (l : list A) b k d : (k < b)%nat -> nth k (firstn b l) d = nth k l d.
Proof.
  revert l k. induction b as [|b IH]; intros l k H; [lia|].
  destruct l as [|a l]; [reflexivity|]. destruct k as [|k]; [reflexivity|]. simpl. apply IH. lia.
Qed.

Lemma slice_step2 l a b k : (b <= List.length l)%nat -> (a + 2 * k < b)%nat ->
  nth k (slice_step l a b 2) 0%nat = nth (a + 2 * k) l 0%nat.
Proof.
  intros Hb Hk. unfold slice_step, slice. rewrite every_nth by lia.
  rewrite nth_skipn, nth_firstn by lia. reflexivity.
Qed.
Lemma slice_step2_length l a b : (b <= List.length l)%nat ->
  List.length (slice_step l a b 2) = ((b - a + 1) / 2)%nat.
Proof.
  intros Hb. unfold slice_step, slice. rewrite every_length2 by lia.
  rewrite skipn_length, firstn_length, Nat.min_l by lia. reflexivity.
Qed.

(* the two arrays of ends for a crossing period *)
Lemma period_pairs_shape x index a b : (2 <= List.length index)%nat ->
  (forall i, In i index -> (i < List.length x)%nat) ->
  exists start dist, 
    period_pairs x index (pdef_name a b) =
      Ok (slice_step index start (List.length index - dist) 2, slice_step index (start + dist) (List.length index) 2) /\
    dist = (match a, b with U, U | D, D => 2 | _, _ => 1 end)%nat /\
    start = (let down := at_ x (nth 0 index 0%nat) >? at_ x (nth 1 index 0%nat) in
             if down then match a with D => 1 | U => 2 end else match a with U => 0 | D => 1 end)%nat.
Proof.
  intros Hl Hin. destruct index as [|i0 [|i1 r]]; cbn [List.length] in Hl; try lia.
  assert (H0 := Hin i0 (or_introl eq_refl)). assert (H1 := Hin i1 (or_intror (or_introl eq_refl))).
  unfold period_pairs. change (geti (i0 :: i1 :: r) 0) with (Ok i0). change (geti (i0 :: i1 :: r) 1) with (Ok i1).
  cbn [bind nth]. unfold geti at 1. rewrite (nth_error_nth' x 0 H0). cbn [bind].
  unfold geti at 1. rewrite (nth_error_nth' x 0 H1). cbn [bind]. fold (at_ x i0) (at_ x i1).
  destruct (at_ x i0 >? at_ x i1); destruct a, b; (eexists; eexists; split; [reflexivity|split; reflexivity]).
Qed.

Lemma alternating_nth {A} (P Q : A -> Prop) d : forall l, alternating P Q l ->
  forall k, (k < List.length l)%nat -> if Nat.even k then P (nth k l d) else Q (nth k l d).
Proof.
  intros l. revert P Q. induction l as [|a l IH]; intros P Q H k Hk; [simpl in Hk; lia|].
  destruct H as [Ha H]. destruct k as [|k]; [exact Ha|]. cbn [nth].
  specialize (IH Q P H k ltac:(simpl in Hk; lia)). rewrite Nat.even_succ, <- Nat.negb_even.
  destruct (Nat.even k); auto.
Qed.

Lemma even_start s k : Nat.even (s + 2 * k) = Nat.even s.
Proof. rewrite Nat.even_add, Nat.even_mul. simpl. destruct (Nat.even s); reflexivity. Qed.

Definition cross_start (a : cross_kind) : nat := match a with U => 0 | D => 1 end.
Definition cross_dist (a b : cross_kind) : nat := match a, b with U, U | D, D => 2 | _, _ => 1 end.

Lemma crossing_bound x v i : Crossing x v i -> (S i < List.length x)%nat.
Proof. intros [[H _]|[H _]]; auto. Qed.

Lemma periods_up_first m x v index a b : findcross m x v None = Ok index -> x <> [] ->
  alternating (UpCross x v) (DownCross x v) index -> (2 <= List.length index)%nat ->
  exists p0 p1, period_pairs x index (pdef_name a b) = Ok (p0, p1) /\ List.length p0 = List.length p1 /\
    (forall k, (k < List.length p0)%nat ->
       is_cross a x v (nth k p0 0%nat) /\ next_cross b x v (nth k p0 0%nat) (nth k p1 0%nat)) /\
    (forall i j, is_cross a x v i -> is_cross b x v j -> (i < j)%nat -> In i p0).
Proof.
  intros Hf Hx Halt Hlen.
  destruct (findcross_exact m x v Hx) as [l' [Hf' [Hinc Hcr]]]. rewrite Hf in Hf'. injection Hf' as <-.
  assert (Hbd : forall i, In i index -> (i < List.length x)%nat).
  { intros i Hi. apply Hcr, crossing_bound in Hi. lia. }
  destruct (period_pairs_shape x index a b Hlen Hbd) as [start [dist [E [Ed Es]]]].
  (* the first crossing is up *)
  assert (Hdown : (at_ x (nth 0 index 0%nat) >? at_ x (nth 1 index 0%nat)) = false).
  { pose proof (alternating_nth _ _ 0%nat _ Halt 0%nat ltac:(lia)) as A0.
    pose proof (alternating_nth _ _ 0%nat _ Halt 1%nat ltac:(lia)) as A1. cbn in A0, A1.
    destruct A0 as [_ [_ A0]], A1 as [_ [_ A1]].
    specialize (A0 _ (le_n _) ltac:(intros; lia)). specialize (A1 _ (le_n _) ltac:(intros; lia)). lia. }
  rewrite Hdown in Es. cbn zeta in Es. cbn iota in Es.
  assert (Es' : start = cross_start a) by (rewrite Es; destruct a; reflexivity). clear Es.
  assert (Ed' : dist = cross_dist a b) by (rewrite Ed; destruct a, b; reflexivity). clear Ed.
  set (N := List.length index) in *.
  assert (Hd : (1 <= dist <= 2)%nat) by (rewrite Ed'; destruct a, b; simpl; lia).
  eexists. eexists. split; [exact E|].
  rewrite !slice_step2_length by (fold N; lia).
  split; [f_equal; lia|].
  assert (Hkind : forall q, (q < N)%nat ->
    if Nat.even q then UpCross x v (nth q index 0%nat) else DownCross x v (nth q index 0%nat)).
  { intros q Hq. exact (alternating_nth _ _ 0%nat _ Halt q Hq). }
  (* position of a crossing and its parity *)
  assert (Hpos : forall c i, is_cross c x v i -> exists q, (q < N)%nat /\ nth q index 0%nat = i /\
                   Nat.even q = match c with U => true | D => false end).
  { intros c i Hc. assert (Hi : In i index).
    { apply Hcr. destruct c; [left|right]; exact Hc. }
    apply (In_nth _ _ 0%nat) in Hi. destruct Hi as [q [Hq Eq]]. exists q. split; [exact Hq|]. split; [exact Eq|].
    specialize (Hkind q Hq). rewrite Eq in Hkind. destruct c, (Nat.even q); auto; exfalso;
    eapply up_down_excl; eauto. }
  split.
  - intros k Hk.
    assert (Hk2 : (start + 2 * k < N - dist)%nat).
    { pose proof (Nat.div_mod (N - dist - start + 1) 2 ltac:(lia)).
      pose proof (Nat.mod_upper_bound (N - dist - start + 1) 2 ltac:(lia)). lia. }
    rewrite !slice_step2 by (fold N; lia).
    set (q := (start + 2 * k)%nat) in *. replace (start + dist + 2 * k)%nat with (q + dist)%nat by lia.
    assert (Heq : Nat.even q = match a with U => true | D => false end).
    { unfold q. rewrite even_start, Es'. destruct a; reflexivity. }
    assert (Heq2 : Nat.even (q + dist) = match b with U => true | D => false end).
    { rewrite Nat.even_add, Heq, Ed'. destruct a, b; reflexivity. }
    pose proof (Hkind q ltac:(lia)) as K1. rewrite Heq in K1.
    pose proof (Hkind (q + dist)%nat ltac:(lia)) as K2. rewrite Heq2 in K2.
    split; [destruct a; exact K1|]. split; [apply Hinc; fold N; lia|]. split; [destruct b; exact K2|].
    intros i Hi Hbi. destruct (Hpos b i Hbi) as [z [Hz [Ez Pz]]].
    assert (q < z < q + dist)%nat.
    { split.
      - destruct (Nat.lt_trichotomy z q) as [Hzq|[->|Hzq]]; auto; [|lia].
        pose proof (Hinc z q ltac:(fold N; lia)). lia.
      - destruct (Nat.lt_trichotomy (q + dist) z) as [Hzq|[Hzq|Hzq]]; auto; [|subst z; lia].
        pose proof (Hinc (q + dist)%nat z ltac:(fold N; lia)). lia. }
    assert (z = (q + 1)%nat) by lia. assert (dist = 2%nat) by lia. subst z.
    rewrite Nat.even_add, Heq in Pz. rewrite Ed' in H1. destruct a, b; simpl in *; discriminate.
  - intros i j Hi Hj Hij. destruct (Hpos a i Hi) as [q [Hq [Eq Pq]]]. destruct (Hpos b j Hj) as [z [Hz [Ez Pz]]].
    assert (Hqz : (q < z)%nat).
    { destruct (Nat.lt_trichotomy z q) as [H|[->|H]]; auto; [|lia].
      pose proof (Hinc z q ltac:(fold N; lia)). lia. }
    assert (Hqd : (q + dist <= z)%nat).
    { destruct (Nat.le_gt_cases (q + dist) z) as [H|H]; auto. exfalso.
      assert (z = (q + 1)%nat) by lia. assert (dist = 2%nat) by lia. subst z.
      rewrite Nat.even_add, Pq in Pz. rewrite Ed' in H1. destruct a, b; simpl in *; discriminate. }
    assert (Hk : exists k, q = (start + 2 * k)%nat).
    { rewrite Es'. destruct a; cbn [cross_start].
      - apply Nat.even_spec in Pq. destruct Pq as [k Hk]. exists k. lia.
      - assert (Po : Nat.odd q = true) by (rewrite <- Nat.negb_even, Pq; reflexivity).
        apply Nat.odd_spec in Po. destruct Po as [k Hk]. exists k. lia. }
    destruct Hk as [k Hk]. rewrite <- Eq, Hk.
    rewrite <- (slice_step2 index start (N - dist) k) by (fold N; lia).
    apply nth_In. rewrite slice_step2_length by (fold N; lia).
    pose proof (Nat.div_mod (N - dist - start + 1) 2 ltac:(lia)).
    pose proof (Nat.mod_upper_bound (N - dist - start + 1) 2 ltac:(lia)). lia.
Qed.

(* every crossing period is positive, whichever crossing comes first *)
Definition increasingR (t : list R) : Prop :=
  forall i j, (i < j < List.length t)%nat -> (nth i t 0 < nth j t 0)%R.

Lemma ecross_total t f v : List.length t = List.length f -> forall ind,
  (forall i, In i ind -> (S i < List.length f)%nat) -> exists r, ecross t f ind v = Ok r.
Proof.
  intros Htf. induction ind as [|i ind IH]; intros H; [exists []; reflexivity|].
  destruct IH as [r Er]; [intros; apply H; right; auto|].
  assert (Hi := H i (or_introl eq_refl)).
  cbn [ecross]. unfold ecross1, geti.
  rewrite (nth_error_nth' t 0%R) by lia. rewrite (nth_error_nth' f 0%R) by lia.
  rewrite (nth_error_nth' t 0%R) by lia. rewrite (nth_error_nth' f 0%R) by lia.
  cbn [bind]. rewrite Er. eexists; reflexivity.
Qed.

Lemma nth_map_IZR x k : nth k (map IZR x) 0%R = IZR (at_ x k).
Proof. unfold at_. change 0%R with (IZR 0). apply map_nth. Qed.

Lemma crossing_time t x v i s : List.length t = List.length x -> increasingR t -> Crossing x v i ->
  ecross1 t (map IZR x) (IZR v) i = Ok s -> (nth i t 0 <= s < nth (S i) t 0)%R.
Proof.
  intros Htx Hinc Hc He. pose proof (crossing_bound _ _ _ Hc) as Hb.
  unfold ecross1, geti in He. replace (i + 1)%nat with (S i) in He by lia.
  assert (Hml : List.length (map IZR x) = List.length x) by apply map_length.
  rewrite (nth_error_nth' t 0%R) in He by lia.
  rewrite (nth_error_nth' (map IZR x) 0%R) in He by lia.
  rewrite (nth_error_nth' t 0%R) in He by lia.
  rewrite (nth_error_nth' (map IZR x) 0%R) in He by lia.
  cbn [bind] in He. injection He as <-. rewrite !nth_map_IZR.
  specialize (Hinc i (S i) ltac:(lia)).
  assert (Hv : (IZR (at_ x i) <= IZR v < IZR (at_ x (S i)) \/ IZR (at_ x (S i)) < IZR v <= IZR (at_ x i))%R).
  { destruct Hc as [[_ [H1 H2]]|[_ [H1 H2]]].
    - left. specialize (H2 i (le_n _) ltac:(intros; lia)). split; [apply IZR_le; lia|apply IZR_lt; lia].
    - right. specialize (H2 i (le_n _) ltac:(intros; lia)). split; [apply IZR_lt; lia|apply IZR_le; lia]. }
  set (xi := IZR (at_ x i)) in *. set (xj := IZR (at_ x (S i))) in *. set (w := IZR v) in *.
  set (ti := nth i t 0%R) in *. set (tj := nth (S i) t 0%R) in *. clearbody xi xj w ti tj. clear - Hinc Hv.
  replace ((w - xi) * (tj - ti) / (xj - xi))%R with ((w - xi) / (xj - xi) * (tj - ti))%R by (field; lra).
  assert (Hr : (0 <= (w - xi) / (xj - xi) < 1)%R).
  { destruct Hv as [Hv|Hv].
    - split.
      + apply Rmult_le_pos; [lra|]. apply Rlt_le, Rinv_0_lt_compat. lra.
      + apply (Rmult_lt_reg_r (xj - xi)); [lra|]. replace ((w - xi) / (xj - xi) * (xj - xi))%R with (w - xi)%R by (field; lra). lra.
    - replace ((w - xi) / (xj - xi))%R with ((xi - w) / (xi - xj))%R by (field; lra). split.
      + apply Rmult_le_pos; [lra|]. apply Rlt_le, Rinv_0_lt_compat. lra.
      + apply (Rmult_lt_reg_r (xi - xj)); [lra|]. replace ((xi - w) / (xi - xj) * (xi - xj))%R with (xi - w)%R by (field; lra). lra. }
  set (r := ((w - xi) / (xj - xi))%R) in *. clearbody r. split; nra.
Qed.

Lemma zipR_length f : forall a b, List.length a = List.length b -> List.length (zipR f a b) = List.length a.
Proof. induction a as [|x a IH]; intros [|y b] H; simpl in *; auto; try lia. Qed.
Lemma zipR_nth f : forall a b k, List.length a = List.length b -> (k < List.length a)%nat ->
  nth k (zipR f a b) 0%R = f (nth k a 0%R) (nth k b 0%R).
Proof.
  induction a as [|x a IH]; intros [|y b] k H Hk; simpl in *; try lia.
  destruct k; auto. apply IH; lia.
Qed.

Lemma crossing_periods_positive m t x v index a b : findcross m x v None = Ok index -> x <> [] ->
  List.length t = List.length x -> increasingR t -> (2 <= List.length index)%nat ->
  exists T, wave_periods_crossings t x v index (pdef_name a b) = Ok T /\ forall d, In d T -> (0 < d)%R.
Proof.
  intros Hf Hx Htx Ht Hlen.
  destruct (findcross_exact m x v Hx) as [l' [Hf' [Hinc Hcr]]]. rewrite Hf in Hf'. injection Hf' as <-.
  assert (Hbd : forall i, In i index -> (S i < List.length x)%nat).
  { intros i Hi. apply Hcr, crossing_bound in Hi. lia. }
  destruct (period_pairs_shape x index a b Hlen) as [start [dist [E [Ed Es]]]].
  { intros i Hi. specialize (Hbd i Hi). lia. }
  assert (Hd : (1 <= dist <= 2)%nat) by (rewrite Ed; destruct a, b; lia).
  set (N := List.length index) in *.
  unfold wave_periods_crossings. rewrite E. cbn [bind fst snd].
  set (p0 := slice_step index start (N - dist) 2). set (p1 := slice_step index (start + dist) N 2).
  assert (L0 : List.length p0 = ((N - dist - start + 1) / 2)%nat) by (apply slice_step2_length; fold N; lia).
  assert (L1 : List.length p1 = ((N - dist - start + 1) / 2)%nat).
  { unfold p1. rewrite slice_step2_length by (fold N; lia). f_equal. lia. }
  assert (Hk2 : forall k, (k < (N - dist - start + 1) / 2)%nat -> (start + 2 * k + dist < N)%nat).
  { intros k Hk. pose proof (Nat.div_mod (N - dist - start + 1) 2 ltac:(lia)).
    pose proof (Nat.mod_upper_bound (N - dist - start + 1) 2 ltac:(lia)). lia. }
  assert (N0 : forall k, (k < List.length p0)%nat -> nth k p0 0%nat = nth (start + 2 * k) index 0%nat).
  { intros k Hk. specialize (Hk2 k ltac:(lia)). unfold p0. apply slice_step2; fold N; lia. }
  assert (N1 : forall k, (k < List.length p1)%nat -> nth k p1 0%nat = nth (start + dist + 2 * k) index 0%nat).
  { intros k Hk. specialize (Hk2 k ltac:(lia)). unfold p1. apply slice_step2; fold N; lia. }
  assert (I0 : forall i, In i p0 -> In i index).
  { intros i Hi. apply (In_nth _ _ 0%nat) in Hi. destruct Hi as [k [Hk <-]]. rewrite N0 by auto.
    apply nth_In. fold N. specialize (Hk2 k ltac:(lia)). lia. }
  assert (I1 : forall i, In i p1 -> In i index).
  { intros i Hi. apply (In_nth _ _ 0%nat) in Hi. destruct Hi as [k [Hk <-]]. rewrite N1 by auto.
    apply nth_In. fold N. specialize (Hk2 k ltac:(lia)). lia. }
  destruct (ecross_total t (map IZR x) (IZR v) ltac:(rewrite map_length; auto) p0) as [t0 E0].
  { intros i Hi. rewrite map_length. auto. }
  destruct (ecross_total t (map IZR x) (IZR v) ltac:(rewrite map_length; auto) p1) as [t1 E1].
  { intros i Hi. rewrite map_length. auto. }
  rewrite E0, E1. cbn [bind]. eexists. split; [reflexivity|].
  apply ecross_map in E0. apply ecross_map in E1. destruct E0 as [T0 E0], E1 as [T1 E1].
  intros d Hd'. apply (In_nth _ _ 0%R) in Hd'. destruct Hd' as [k [Hk <-]].
  rewrite zipR_length in Hk by lia. rewrite zipR_nth by lia.
  specialize (E0 k ltac:(lia)). specialize (E1 k ltac:(lia)).
  rewrite N0 in E0 by lia. rewrite N1 in E1 by lia.
  assert (Hkk := Hk2 k ltac:(lia)).
  apply crossing_time in E0; auto; [|apply Hcr, nth_In; fold N; lia].
  apply crossing_time in E1; auto; [|apply Hcr, nth_In; fold N; lia].
  set (q := (start + 2 * k)%nat) in *. replace (start + dist + 2 * k)%nat with (q + dist)%nat in * by lia.
  pose proof (Hinc q (q + dist)%nat ltac:(fold N; lia)) as Hq.
  assert (Hle : (nth (S (nth q index 0%nat)) t 0 <= nth (nth (q + dist) index 0%nat) t 0)%R).
  { set (u := nth q index 0%nat) in *. set (w := nth (q + dist) index 0%nat) in *.
    destruct (Nat.eq_dec (S u) w) as [->|Hn]; [lra|]. apply Rlt_le, Ht. split; [lia|].
    assert (In w index) by (apply nth_In; fold N; lia). specialize (Hbd w H). lia. }
  lra.
Qed.
