(* Bounds from end to end, the search for the ends, and which parameter is profiled. *)
From Coq Require Import Reals ZArith List Bool String Lra Lia Sorted Permutation.
From Verif Require Import Base CrossModel CrossSpec ListFacts CrossProofs EcrossModel KdeModel ProfModel ProfSpec ProfProofs ProfProofs2.
Import ListNotations.
Local Open Scope R_scope.

Lemma sorted_mid (pre mid post : list R) : StronglySorted Rlt (pre ++ mid ++ post) -> StronglySorted Rlt mid /\ (forall x y, In x pre -> In y mid -> x < y) /\ (forall x y, In x mid -> In y post -> x < y).
Proof.
  induction pre as [|p pre IH]; cbn; intros S0.
  - split; [|split; [intros x y []|]]; induction mid as [|q mid IH]; cbn in *; try (constructor; fail).
    + apply StronglySorted_inv in S0. destruct S0 as [S0 F]. constructor; [apply IH, S0|]. apply Forall_forall. intros x X. rewrite Forall_forall in F. apply F, in_or_app. auto.
    + intros x y [].
    + apply StronglySorted_inv in S0. destruct S0 as [S0 F]. intros x y [<-|X] Y; [rewrite Forall_forall in F; apply F, in_or_app; auto|]. apply IH; assumption.
  - apply StronglySorted_inv in S0. destruct S0 as [S0 F]. destruct (IH S0) as (A & B & C). split; [exact A|]. split; [|exact C]. intros x y [<-|X] Y; [|apply B; assumption].
    rewrite Forall_forall in F. apply F, in_or_app. right. apply in_or_app. auto.
Qed.
Lemma nth_map_in (f : R -> R) l i : (i < List.length l)%nat -> nth i (map f l) 0 = f (nth i l 0).
Proof. intros H. rewrite nth_indep with (d' := f 0) by (rewrite map_length; lia). apply map_nth. Qed.
Lemma hill_of_function prof l k m : ascends l -> (k < List.length l)%nat -> nth k l 0 = m -> hill_function prof m -> hill (map prof l) k.
Proof.
  intros A K E [U D]. split; [rewrite map_length; exact K|]. split.
  - intros i j H. rewrite !nth_map_in by lia. apply U; [apply ascends_le; [assumption|lia]|]. rewrite <- E. apply ascends_le; [assumption|lia].
  - intros i j H J. rewrite map_length in J. rewrite !nth_map_in by lia. apply D; [rewrite <- E; apply ascends_le; [assumption|lia]|]. apply ascends_le; [assumption|lia].
Qed.
Lemma interval m prof chi2isf alpha0 alpha p_opt pvec lo hi : ascends pvec -> In p_opt pvec -> (forall p, In p pvec -> lo <= p <= hi) -> hill_function prof p_opt -> 0 < chi2isf alpha <= chi2isf alpha0 ->
  exists pts, get_profile prof (1 / 2 * chi2isf alpha0) p_opt pvec = Ok pts /\
  exists a b, get_bounds m chi2isf (Profile (map fst pts) (map snd pts) (prof p_opt) (Some lo) (Some hi)) alpha = Ok (Some a, Some b) /\ lo <= a <= p_opt /\ p_opt <= b <= hi /\
  forall x, In x pvec -> (prof p_opt - 1 / 2 * chi2isf alpha < prof x -> a <= x <= b) /\ (prof x < prof p_opt - 1 / 2 * chi2isf alpha -> x < a \/ b < x).
Proof.
  intros Asc I W Hf C. destruct (profile_piece prof (1 / 2 * chi2isf alpha0) p_opt pvec Asc I) as (pre & B & A & post & E & G & P & Q).
  eexists. split; [exact G|]. rewrite !map_map. cbn [fst snd]. rewrite map_id. set (seg := B ++ p_opt :: A). set (p := Profile seg (map prof seg) (prof p_opt) (Some lo) (Some hi)).
  assert (E' : pvec = pre ++ seg ++ post) by (rewrite E; unfold seg; rewrite <- app_assoc; reflexivity).
  assert (Sg : StronglySorted Rlt (pre ++ seg ++ post)) by (rewrite <- E'; apply ascends_sorted; exact Asc). destruct (sorted_mid _ _ _ Sg) as (S1 & S2 & S3).
  assert (K : (List.length B < List.length seg)%nat) by (unfold seg; rewrite app_length; cbn; lia). assert (NK : nth (List.length B) seg 0 = p_opt) by (unfold seg; rewrite app_nth2, Nat.sub_diag by lia; reflexivity).
  assert (Sd : sound p (List.length B) lo hi).
  { constructor; cbn.
    - rewrite map_length. reflexivity.
    - apply ascends_sorted. exact S1.
    - apply (hill_of_function prof seg _ p_opt); [apply ascends_sorted; exact S1|exact K|exact NK|exact Hf].
    - auto.
    - intros i H. apply W. rewrite E'. apply in_or_app. right. apply in_or_app. left. apply nth_In. exact H. }
  destruct (bounds_exact m chi2isf p alpha (List.length B) lo hi Sd) as (a & b & G' & A1 & A2 & A3). { cbn. rewrite nth_map_in by exact K. rewrite NK. lra. }
  exists a, b. split; [exact G'|]. cbn in A3.
  assert (PO : a <= p_opt <= b). { destruct (A3 (List.length B) K) as [A4 _]. rewrite nth_map_in, NK in A4 by exact K. apply A4. lra. }
  split; [lra|]. split; [lra|]. set (L := prof p_opt - 1 / 2 * chi2isf alpha) in *.
  assert (IN : forall x, In x seg -> (L < prof x -> a <= x <= b) /\ (prof x < L -> x < a \/ b < x)). { intros x X. destruct (In_nth seg x 0 X) as (i & Hi & <-). specialize (A3 i Hi). rewrite nth_map_in in A3 by exact Hi. exact A3. }
  assert (LL : prof p_opt - 1 / 2 * chi2isf alpha0 <= L) by (unfold L; lra).
  destruct Hf as [U D]. intros x X. rewrite E' in X. apply in_app_or in X. destruct X as [X|X]; [|apply in_app_or in X; destruct X as [X|X]; [apply IN; exact X|]].
  - destruct P as (q & B' & -> & F). { intros Z. rewrite Z in X. destruct X. } assert (Q1 : In q seg) by (left; reflexivity). assert (Q2 : x < q) by (apply S2; assumption).
    assert (Q3 : q < p_opt). { unfold seg in S1. cbn in S1. apply StronglySorted_inv in S1. destruct S1 as [_ S1]. rewrite Forall_forall in S1. apply S1, in_or_app. right. left. reflexivity. }
    pose proof (U x q ltac:(lra) ltac:(lra)). split; [intros; lra|]. intros _. left. destruct (proj2 (IN q Q1) ltac:(lra)) as [Y|Y]; lra.
  - destruct Q as (A' & q & -> & F). { intros Z. rewrite Z in X. destruct X. } assert (Q1 : In q seg) by (unfold seg; apply in_or_app; right; right; apply in_or_app; right; left; reflexivity). assert (Q2 : q < x) by (apply S3; assumption).
    assert (Q3 : p_opt < q). { unfold seg in S1. destruct (sorted_mid B [p_opt] (A' ++ [q])) as (_ & _ & S4); [exact S1|]. apply S4; [left; reflexivity|apply in_or_app; right; left; reflexivity]. }
    pose proof (D q x ltac:(lra) ltac:(lra)). split; [intros; lra|]. intros _. right. destruct (proj2 (IN q Q1) ltac:(lra)) as [Y|Y]; lra.
Qed.
(* the level follows the maximum *)
Lemma corrected d : 0 <= d -> forall vals pm lv pm' lv', fold_left (correct d) vals (pm, lv) = (pm', lv') ->
  pm <= pm' /\ lv' - lv = pm' - pm /\ (forall v, In v vals -> v <= pm' + d) /\ (pm' = pm \/ In pm' vals).
Proof.
  intros Hd. induction vals as [|v vals IH]; intros pm lv pm' lv' E; cbn [fold_left] in E.
  - injection E as <- <-. repeat split; [lra|lra|intros v []|left; reflexivity].
  - unfold correct at 2 in E. destruct (Rlt_dec (pm + d) v) as [Q|Q]; destruct (IH _ _ _ _ E) as (A & B & C & D).
    + repeat split; [lra|lra| |right; destruct D as [->|D]; [left; reflexivity|right; exact D]]. intros w [<-|W]; [lra|apply C, W].
    + repeat split; [lra|lra| |destruct D as [->|D]; [left; reflexivity|right; right; exact D]]. intros w [<-|W]; [lra|apply C, W].
Qed.
Lemma correct_step d s v : snd (correct d s v) - snd s = fst (correct d s v) - fst s /\ fst s <= fst (correct d s v) \/ d < 0.
Proof. destruct s as [pm lv]. unfold correct. destruct (Rlt_dec (pm + d) v); cbn; [|left; lra]. destruct (Rlt_dec d 0); [right; assumption|left; lra]. Qed.
Lemma search_side prof d range sign p_opt : 0 <= d -> sign * sign = 1 -> forall k j st opt delta r conv st', search_loop prof d range sign p_opt k j st opt delta = (r, conv, st') -> 0 < delta -> 0 < sign * (opt - p_opt) ->
  0 < sign * (r - p_opt) /\ snd st' - snd st = fst st' - fst st /\ fst st <= fst st' /\ (conv = true -> prof r < snd st').
Proof.
  intros Hd Sg. induction k as [|k IH]; intros j st opt delta r conv st' E P O; cbn [search_loop] in E.
  - injection E as <- <- <-. repeat split; [assumption|lra|lra|discriminate].
  - assert (O' : 0 < sign * (p_opt + sign * delta - p_opt)) by (replace (sign * (p_opt + sign * delta - p_opt)) with (sign * sign * delta) by ring; rewrite Sg; lra).
    destruct (correct_step d st (prof (p_opt + sign * delta))) as [[C1 C2]|C]; [|lra]. set (s1 := correct d st (prof (p_opt + sign * delta))) in *. unfold update_p_opt in E.
    destruct (Rlt_dec _ _) as [Q|Q]; [apply IH in E; [|lra|assumption]; destruct E as (E1 & E2 & E3 & E4); repeat split; [assumption|lra|lra|assumption]|].
    destruct (Rlt_dec (prof (p_opt + sign * delta)) (snd s1)) as [Q1|Q1]; [injection E as <- <- <-; repeat split; [assumption|lra|lra|intros _; assumption]|].
    apply IH in E; [|lra|destruct (Rlt_dec _ _); assumption]. destruct E as (E1 & E2 & E3 & E4); repeat split; [assumption|lra|lra|assumption].
Qed.
Lemma search_main prof d range st p0 p_opt sign r conv st' : 0 <= d -> sign = 1 \/ sign = -1 -> 0 < sign * (p0 - p_opt) -> search_p_min_max prof d range st p0 p_opt sign = (r, conv, st') ->
  0 < sign * (r - p_opt) /\ snd st' - snd st = fst st' - fst st /\ fst st <= fst st' /\ (conv = true -> prof r < snd st').
Proof.
  intros Hd Sg O E. unfold search_p_min_max in E. destruct (correct_step d st (prof p_opt)) as [[C1 C2]|C]; [|lra]. apply (search_side prof d range sign p_opt) in E.
  - destruct E as (E1 & E2 & E3 & E4). repeat split; [assumption|lra|lra|assumption].
  - assumption.
  - destruct Sg as [-> | ->]; lra.
  - pose proof (Rmax_r (sign * (p0 - p_opt) / 40) (1 / 100)). lra.
  - assumption.
Qed.
Lemma flat_in l j : In j (flatnonzero l) <-> nth_error l j = Some true.
Proof.
  unfold flatnonzero. assert (G : forall l s, In j (map fst (filter (fun p => snd p) (combine (seq s (List.length l)) l))) <-> (s <= j)%nat /\ nth_error l (j - s) = Some true).
  { clear l. induction l as [|b l IH]; intros s; cbn; [split; [intros []|intros [_ H]; destruct (j - s)%nat; discriminate]|]. destruct b; cbn [snd map fst In].
    - rewrite IH. split.
      + intros [->|[H E]]; [split; [lia|rewrite Nat.sub_diag; reflexivity]|]. split; [lia|]. replace (j - s)%nat with (S (j - S s)) by lia. exact E.
      + intros [H E]. destruct (Nat.eq_dec s j) as [->|N]; [left; reflexivity|right]. split; [lia|]. replace (j - s)%nat with (S (j - S s)) in E by lia. exact E.
    - rewrite IH. split.
      + intros [H E]. split; [lia|]. replace (j - s)%nat with (S (j - S s)) by lia. exact E.
      + intros [H E]. destruct (Nat.eq_dec s j) as [->|N]; [rewrite Nat.sub_diag in E; discriminate|]. split; [lia|]. replace (j - s)%nat with (S (j - S s)) in E by lia. exact E. }
  rewrite G, Nat.sub_0_r. split; [intros [_ H]; exact H|intros H; split; [lia|exact H]].
Qed.
Lemma mask_free pf npar j : In j (flatnonzero (free_mask pf npar)) <-> free pf npar j.
Proof.
  rewrite flat_in. destruct pf as [l|]; cbn.
  - rewrite nth_error_map. destruct (nth_error l j) as [[x|]|]; cbn; split; congruence.
  - split; intros H.
    + assert (K : nth_error (repeat true npar) j <> None) by congruence. apply nth_error_Some in K. rewrite repeat_length in K. exact K.
    + apply nth_error_repeat. exact H.
Qed.
Lemma index_given pf npar i : (free pf npar i -> exists l, set_indexes pf npar (Some i) = Ok (i, l) /\ forall j, In j l <-> free pf npar j /\ j <> i) /\ (~ free pf npar i -> set_indexes pf npar (Some i) = Err IndexError).
Proof.
  unfold set_indexes. cbn [bind]. destruct (existsb (Nat.eqb i) (flatnonzero (free_mask pf npar))) eqn:E.
  - apply existsb_exists in E. destruct E as (k & K & EQ). apply Nat.eqb_eq in EQ. subst k. apply mask_free in K. split; [intros _|contradiction]. eexists. split; [reflexivity|]. intros j. rewrite filter_In, mask_free.
    rewrite Bool.negb_true_iff, Nat.eqb_neq. reflexivity.
  - split; [|reflexivity]. intros F. apply mask_free in F. exfalso. assert (existsb (Nat.eqb i) (flatnonzero (free_mask pf npar)) = true) by (apply existsb_exists; exists i; split; [exact F|apply Nat.eqb_refl]). congruence.
Qed.
Lemma flat_sorted l : StronglySorted lt (flatnonzero l).
Proof.
  unfold flatnonzero. generalize 0%nat. induction l as [|b l IH]; intros s; cbn; [constructor|]. destruct b; cbn [snd map fst]; [|apply IH]. constructor; [apply IH|]. apply Forall_forall. intros x X. apply in_map_iff in X.
  destruct X as ((k, c) & <- & X). apply filter_In in X. destruct X as [X _]. apply in_combine_l in X. apply in_seq in X. cbn. lia.
Qed.
Lemma sorted_last : forall (l : list nat) i r, StronglySorted lt l -> rev l = i :: r -> forall j, In j l -> (j <= i)%nat.
Proof.
  intros l i r S0 E j J. assert (E' : l = rev r ++ [i]) by (rewrite <- (rev_involutive l), E; reflexivity). subst l. clear E. induction (rev r) as [|a l IH]; cbn in *; [destruct J as [->|[]]; lia|].
  apply StronglySorted_inv in S0. destruct S0 as [S0 F]. destruct J as [<-|J]; [|apply IH; assumption]. rewrite Forall_forall in F. apply Nat.lt_le_incl, F, in_or_app. right. left. reflexivity.
Qed.
Lemma index_default pf npar : match pf with
  | None => (0 < npar)%nat -> exists l, set_indexes None npar None = Ok (0%nat, l)
  | Some par_fix => (forall i, last_position (fun o => o = None) par_fix i -> exists l, set_indexes (Some par_fix) npar None = Ok (i, l)) /\
      ((forall o, In o par_fix -> o <> None) -> set_indexes (Some par_fix) npar None = Err IndexError)
  end.
Proof.
  destruct pf as [par_fix|].
  - split.
    + intros i ((a & A & ->) & L). assert (D : default_i_fixed (Some par_fix) = Ok i).
      { unfold default_i_fixed. destruct (rev (flatnonzero (free_mask (Some par_fix) 0))) as [|k r] eqn:E.
        - apply (f_equal (@rev nat)) in E. rewrite rev_involutive in E. assert (In i (flatnonzero (free_mask (Some par_fix) 0))) by (apply mask_free; exact A). rewrite E in H. destruct H.
        - f_equal. assert (In k (flatnonzero (free_mask (Some par_fix) 0))) by (apply in_rev; rewrite E; left; reflexivity). apply mask_free in H. cbn in H.
          assert (i <= k)%nat by (eapply sorted_last; [apply flat_sorted|exact E|apply mask_free; exact A]). destruct (Nat.eq_dec i k) as [->|N]; [reflexivity|]. exfalso. apply (L k None ltac:(lia) H). reflexivity. }
      unfold set_indexes. rewrite D. cbn [bind]. destruct (index_given (Some par_fix) npar i) as [G _]. destruct (G A) as (l & G1 & _). exists l. exact G1.
    + intros H. unfold set_indexes, default_i_fixed. destruct (rev (flatnonzero (free_mask (Some par_fix) 0))) as [|k r] eqn:E; [reflexivity|]. exfalso.
      assert (K : In k (flatnonzero (free_mask (Some par_fix) 0))) by (apply in_rev; rewrite E; left; reflexivity). apply mask_free in K. cbn in K. apply nth_error_In in K. exact (H None K eq_refl).
  - intros N. destruct (index_given None npar 0) as [G _]. destruct (G N) as (l & G1 & _). exists l. exact G1.
Qed.
(* documented is the first free parameter *)
Lemma first_free_refuted : exists par_fix i l, set_indexes (Some par_fix) 3 None = Ok (i, l) /\ free (Some par_fix) 3 0 /\ i = 1%nat.
Proof. exists [None; None; Some 1], 1%nat, [0%nat]. split; [reflexivity|]. split; reflexivity. Qed.
Lemma signs3 a b c : signR a = 1%Z -> signR b = (-1)%Z -> signR c = 1%Z -> forall m, findcross m [signR a; signR b; signR c] 0 None = Ok [0; 1]%nat.
Proof. intros -> -> ->. intros []; reflexivity. Qed.
(* with a valley instead of a hill the interval is the part below the level *)
Lemma valley m : let p := Profile [0; 1; 2] [0; -10; 0] 0 (Some 0) (Some 2) in
  get_bounds m (fun _ => 2) p (5 / 100) = Ok (Some (1 / 10), Some (19 / 10)) /\ nth 1 (data p) 0 < 0 - 1 / 2 * 2 < nth 0 (data p) 0.
Proof.
  cbn. split; [|lra]. unfold get_bounds, findcrossR. cbn [profile_max data args map]. rewrite signs3.
  - cbn. do 2 f_equal; f_equal; field.
  - unfold signR. destruct (Rlt_dec 0 _); [reflexivity|lra].
  - unfold signR. destruct (Rlt_dec 0 _); [lra|]. destruct (Rlt_dec _ 0); [reflexivity|lra].
  - unfold signR. destruct (Rlt_dec 0 _); [reflexivity|lra].
Qed.
Lemma parabola_hill : hill_function (fun x => - (x * x)) 0. Proof. split; intros; nra. Qed.
Lemma interval_case : ascends [-3; -2; 0; 1; 4] /\ In 0 [-3; -2; 0; 1; 4] /\ (forall p, In p [-3; -2; 0; 1; 4] -> -3 <= p <= 4) /\ hill_function (fun x => - (x * x)) 0 /\ 0 < 2 <= 4.
Proof.
  split; [apply ascends_sorted; repeat constructor; lra|]. split; [cbn; auto|]. split; [|split; [apply parabola_hill|lra]]. intros p H. repeat (destruct H as [<-|H]; [lra|]). destruct H.
Qed.
