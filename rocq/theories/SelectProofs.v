From Coq Require Import Permutation.
From Verif Require Import Base SelectModel SelectSpec.
Local Open Scope nat_scope.

(* ---- lfind -------------------------------------------------------------------------------------- *)
Lemma filter_seq_split (p : nat -> bool) a n s :
  a <= s -> s <= a + n -> (forall i, a <= i < s -> p i = false) -> filter p (seq a n) = filter p (seq s (a + n - s)).
Proof.
  revert a. induction n as [|n IH]; intros a H1 H2 H.
  - replace (a + 0 - s) with 0 by lia. reflexivity.
  - destruct (Nat.eq_dec a s) as [->|N]; [f_equal; f_equal; lia|].
    cbn [seq filter]. rewrite (H a) by lia. rewrite (IH (S a)); [do 2 f_equal; lia|lia|lia|intros; apply H; lia].
Qed.
Lemma index_from_spec {A} (eqb : A -> A -> bool) v l pos start :
  match index_from eqb v l pos start with
  | None => forall i, start <= i -> pos <= i -> match nth_error l (i - pos) with Some a => eqb a v | None => false end = false
  | Some ix => start <= ix /\ pos <= ix < pos + List.length l /\
      (exists a, nth_error l (ix - pos) = Some a /\ eqb a v = true) /\
      forall i, start <= i < ix -> pos <= i -> match nth_error l (i - pos) with Some a => eqb a v | None => false end = false
  end.
Proof.
  revert pos. induction l as [|a l IH]; intros pos; cbn [index_from].
  - intros i _ _. destruct (i - pos); reflexivity.
  - destruct ((start <=? pos) && eqb a v) eqn:E.
    + apply andb_prop in E. destruct E as [E1 E2]. apply Nat.leb_le in E1. cbn [List.length].
      split; [lia|]. split; [lia|]. split; [exists a; rewrite Nat.sub_diag; auto|]. intros; lia.
    + specialize (IH (S pos)). destruct (index_from eqb v l (S pos) start) as [ix|].
      * destruct IH as (H1 & H2 & (b & H3 & H4) & H5). cbn [List.length]. split; [lia|]. split; [lia|]. split.
        -- exists b. replace (ix - pos) with (S (ix - S pos)) by lia. auto.
        -- intros i Hi Hp. destruct (Nat.eq_dec i pos) as [->|N].
           ++ rewrite Nat.sub_diag. cbn. apply andb_false_iff in E. destruct E as [E|E]; auto. apply Nat.leb_gt in E. lia.
           ++ replace (i - pos) with (S (i - S pos)) by lia. cbn. apply H5; lia.
      * intros i Hi Hp. destruct (Nat.eq_dec i pos) as [->|N].
        -- rewrite Nat.sub_diag. cbn. apply andb_false_iff in E. destruct E as [E|E]; auto. apply Nat.leb_gt in E. lia.
        -- replace (i - pos) with (S (i - S pos)) by lia. cbn. apply IH; lia.
Qed.
Definition left_of {A} (m : option Z) (l : list A) : list A := match m with None => l | Some z => firstn (Z.to_nat z) l end.
Lemma lfind_loop_ok {A} (eqb : A -> A -> bool) fuel l v m start :
  start <= List.length l -> List.length l - start < fuel ->
  lfind_loop eqb fuel l v m start =
  Ok (left_of m (filter (fun i => match nth_error l i with Some a => eqb a v | None => false end) (seq start (List.length l - start)))).
Proof.
  revert m start. induction fuel as [|fuel IH]; intros m start H1 H2; [lia|]. cbn [lfind_loop].
  set (p := fun i => match nth_error l i with Some a => eqb a v | None => false end) in *.
  destruct (match m with None => true | Some z => (0 <? z)%Z end) eqn:G.
  2:{ destruct m as [z|]; [|discriminate]. apply Z.ltb_ge in G. cbn [left_of]. replace (Z.to_nat z) with 0 by lia. reflexivity. }
  pose proof (index_from_spec eqb v l 0 start) as F. destruct (index_from eqb v l 0 start) as [ix|].
  - destruct F as (F1 & F2 & (a & F3 & F4) & F5). rewrite (IH (option_map Z.pred m) (S ix)) by lia. cbn [bind]. f_equal.
    rewrite (filter_seq_split p start (List.length l - start) ix).
    2: lia. 2: lia.
    2:{ intros i Hi. unfold p. specialize (F5 i Hi). rewrite Nat.sub_0_r in F5. apply F5; lia. }
    replace (start + (List.length l - start) - ix) with (S (List.length l - S ix)) by lia. cbn [seq filter].
    assert (E : p ix = true) by (unfold p; rewrite Nat.sub_0_r in F3; rewrite F3; exact F4). rewrite E.
    destruct m as [z|]; cbn [left_of option_map]; [|reflexivity].
    apply Z.ltb_lt in G. replace (Z.to_nat z) with (S (Z.to_nat (Z.pred z))) by lia. reflexivity.
  - f_equal. rewrite (filter_seq_split p start (List.length l - start) (List.length l)); [|lia|lia|].
    + replace (start + (List.length l - start) - List.length l) with 0 by lia. destruct m; cbn [left_of seq filter]; [rewrite firstn_nil|]; reflexivity.
    + intros i Hi. unfold p. specialize (F i). rewrite Nat.sub_0_r in F. apply F; lia.
Qed.
Lemma lfind_all {A} (eqb : A -> A -> bool) l v : lfind eqb l v None = Ok (positions eqb l v).
Proof. unfold lfind. rewrite lfind_loop_ok by lia. rewrite Nat.sub_0_r. reflexivity. Qed.
Lemma lfind_some {A} (eqb : A -> A -> bool) l v m : lfind eqb l v (Some m) = Ok (firstn (Z.to_nat m) (positions eqb l v)).
Proof. unfold lfind. rewrite lfind_loop_ok by lia. rewrite Nat.sub_0_r. reflexivity. Qed.

(* ---- narg_smallest ------------------------------------------------------------------------------ *)
Lemma nodup_nth_neq (l : list nat) i j : NoDup l -> i < j -> j < List.length l -> nth i l 0 <> nth j l 0.
Proof. intros N H1 H2 E. apply (proj1 (NoDup_nth l 0) N) in E; lia. Qed.
Lemma firstn_nth_le {A} (l : list A) k i d : i < k -> nth i (firstn k l) d = nth i l d.
Proof. revert l i. induction k; intros l i H; [lia|]. destruct l; [rewrite firstn_nil; reflexivity|]. destruct i; cbn; [reflexivity|apply IHk; lia]. Qed.
Lemma nodup_firstn {A} (l : list A) k : NoDup l -> NoDup (firstn k l).
Proof.
  intros H. revert k. induction H as [|a l N H IH]; intros [|k]; cbn; try constructor; auto.
  intros I. apply N. rewrite <- (firstn_skipn k l). apply in_or_app. auto.
Qed.
Lemma narg_ok arr ind n : is_argsort arr ind -> (0 <= n)%Z ->
  List.length (narg_smallest ind n) = Nat.min (Z.to_nat n) (List.length arr) /\
  NoDup (narg_smallest ind n) /\
  (forall i, In i (narg_smallest ind n) -> i < List.length arr) /\
  (forall i j, i < j -> j < List.length (narg_smallest ind n) ->
     (nth (nth i (narg_smallest ind n) 0%nat) arr 0%Z <= nth (nth j (narg_smallest ind n) 0%nat) arr 0%Z)%Z) /\
  (forall i j, In i (narg_smallest ind n) -> j < List.length arr -> ~ In j (narg_smallest ind n) -> (nth i arr 0%Z <= nth j arr 0%Z)%Z).
Proof.
  intros [P S] Hn. unfold narg_smallest, py_upto. replace (n <? 0)%Z with false by (symmetry; apply Z.ltb_ge; lia).
  set (k := Z.to_nat n). assert (L : List.length ind = List.length arr) by (rewrite (Permutation_length P); apply seq_length).
  assert (ND : NoDup ind) by (eapply Permutation_NoDup; [apply Permutation_sym; exact P|apply seq_NoDup]).
  assert (FL : List.length (firstn k ind) = Nat.min k (List.length arr)) by (rewrite firstn_length, L; reflexivity).
  split; [exact FL|]. split; [apply nodup_firstn; exact ND|]. split.
  { intros i Hi. assert (In i ind) by (rewrite <- (firstn_skipn k ind); apply in_or_app; auto).
    apply (Permutation_in _ P) in H. apply in_seq in H. lia. }
  split.
  { intros i j Hij Hj. rewrite FL in Hj. rewrite !firstn_nth_le by lia. apply S; lia. }
  intros i j Hi Hj Hnj. apply (In_nth _ _ 0) in Hi. destruct Hi as (a & Ha & <-). rewrite FL in Ha. rewrite firstn_nth_le by lia.
  assert (Hj' : In j ind) by (apply (Permutation_in _ (Permutation_sym P)); apply in_seq; lia).
  apply (In_nth _ _ 0) in Hj'. destruct Hj' as (b & Hb & <-). apply S; [|lia].
  destruct (le_lt_dec k b); [lia|]. exfalso. apply Hnj. rewrite <- (firstn_nth_le ind k b 0) by lia. apply nth_In. rewrite FL. lia.
Qed.
Lemma narg_negative arr ind n : is_argsort arr ind -> (n < 0)%Z ->
  narg_smallest ind n = narg_smallest ind (Z.max 0 (Z.of_nat (List.length arr) + n)).
Proof.
  intros [P _] Hn. unfold narg_smallest, py_upto. rewrite (Permutation_length P), seq_length.
  replace (n <? 0)%Z with true by (symmetry; apply Z.ltb_lt; lia).
  replace (Z.max 0 (Z.of_nat (List.length arr) + n) <? 0)%Z with false by (symmetry; apply Z.ltb_ge; lia).
  f_equal. lia.
Qed.

(* ---- argsreduce --------------------------------------------------------------------------------- *)
Lemma extract_selected {A} cond (arr : list A) : List.length arr = List.length cond -> extract cond arr = Ok (selected cond arr).
Proof.
  revert arr. induction cond as [|b c IH]; intros [|a r] H; try discriminate; [reflexivity|].
  cbn [List.length] in H. cbn [extract]. rewrite IH by lia. cbn. destruct b; reflexivity.
Qed.
Lemma argsreduce_ok {A} cond (args es : list (list A)) :
  Forall2 (broadcasts (List.length cond)) args es -> argsreduce cond args = Ok (map (selected cond) es).
Proof.
  induction 1 as [|a e args es B F IH]; [reflexivity|]. cbn [argsreduce map].
  assert (E : expand (List.length cond) a = Ok e).
  { unfold expand. destruct B as [[L ->]|(v & -> & ->)].
    - rewrite L, Nat.eqb_refl. reflexivity.
    - destruct (List.length [v] =? List.length cond) eqn:Q; [|reflexivity].
      apply Nat.eqb_eq in Q. rewrite <- Q. reflexivity. }
  rewrite E. cbn [bind]. rewrite extract_selected.
  - cbn [bind]. rewrite IH. reflexivity.
  - destruct B as [[L ->]|(v & -> & ->)]; [exact L|apply repeat_length].
Qed.
Lemma argsreduce_mismatch {A} cond (pre post : list (list A)) a :
  Forall (fun b => List.length b = List.length cond) pre ->
  List.length a <> List.length cond -> List.length a <> 1 -> List.length cond <> 1 ->
  argsreduce cond (pre ++ a :: post) = Err ValueError.
Proof.
  intros F N1 N2 N3. induction F as [|b pre L F IH]; cbn [app argsreduce].
  - unfold expand. apply Nat.eqb_neq in N1, N3. rewrite N1. destruct a as [|x [|y a]]; rewrite ?N3; try reflexivity. cbn in N2. lia.
  - unfold expand. rewrite L, Nat.eqb_refl. cbn [bind]. rewrite extract_selected by exact L. cbn [bind]. rewrite IH. reflexivity.
Qed.
Lemma selected_length {A} cond (arr : list A) : List.length arr = List.length cond ->
  List.length (selected cond arr) = count_occ Bool.bool_dec cond true.
Proof.
  revert arr. induction cond as [|b c IH]; intros [|a r] H; try discriminate; [reflexivity|]. cbn [List.length] in H.
  cbn [selected count_occ]. destruct b; cbn [List.length]; rewrite IH by lia; destruct (Bool.bool_dec _ _); congruence || reflexivity.
Qed.

(* ---- place and extract -------------------------------------------------------------------------- *)
(* elementwise choice *)
Fixpoint choose {A B} (store : B -> B) (g : A -> B) (mask : list bool) (xs : list A) (out : list B) : list B :=
  match mask, xs, out with
  | b :: m, x :: xs', o :: out' => (if b then store (g x) else o) :: choose store g m xs' out'
  | _, _, _ => out
  end.
Lemma place_loop_choose {A B} (store : B -> B) (g : A -> B) mask xs out all :
  List.length xs = List.length mask -> List.length out = List.length mask ->
  place_loop store out mask all (map g (selected mask xs)) = choose store g mask xs out.
Proof.
  revert xs out. induction mask as [|b m IH]; intros [|x xs] [|o out] H1 H2; try discriminate; try reflexivity.
  cbn [List.length] in H1, H2. destruct b; cbn [place_loop selected map choose]; rewrite IH by lia; reflexivity.
Qed.
Lemma selected_nil {A} mask (xs : list A) : List.length xs = List.length mask -> selected mask xs = [] -> existsb (fun b => b) mask = false.
Proof.
  revert xs. induction mask as [|b m IH]; intros [|x xs] H E; try discriminate; [reflexivity|]. cbn [List.length] in H.
  destruct b; cbn in E; [discriminate|]. cbn. apply (IH xs); [lia|exact E].
Qed.
Lemma choose_none {A B} (store : B -> B) (g : A -> B) mask xs out : existsb (fun b => b) mask = false ->
  choose store g mask xs out = out.
Proof.
  revert xs out. induction mask as [|b m IH]; intros [|x xs] [|o out] H; try reflexivity.
  destruct b; [discriminate|]. cbn in H |- *. rewrite IH by exact H. reflexivity.
Qed.
Lemma place_choose {A B} (store : B -> B) (g : A -> B) mask xs out :
  List.length xs = List.length mask -> List.length out = List.length mask ->
  place store out mask (map g (selected mask xs)) = Ok (choose store g mask xs out).
Proof.
  intros H1 H2. unfold place. rewrite H2, Nat.eqb_refl. cbn [negb].
  destruct (map g (selected mask xs)) as [|v vs] eqn:E.
  - apply map_eq_nil in E. apply (selected_nil mask xs H1) in E. rewrite E. rewrite choose_none by exact E. reflexivity.
  - rewrite <- E. rewrite place_loop_choose by assumption. reflexivity.
Qed.
Lemma choose_length {A B} (store : B -> B) (g : A -> B) mask xs out :
  List.length xs = List.length mask -> List.length out = List.length mask -> List.length (choose store g mask xs out) = List.length mask.
Proof.
  revert xs out. induction mask as [|b m IH]; intros [|x xs] [|o out] H1 H2; try discriminate; [reflexivity|].
  cbn [List.length choose] in *. rewrite IH by lia. reflexivity.
Qed.
Lemma choose_nth {A B} (store : B -> B) (g : A -> B) mask xs out i dx d :
  List.length xs = List.length mask -> List.length out = List.length mask -> i < List.length mask ->
  nth i (choose store g mask xs out) d = if nth i mask false then store (g (nth i xs dx)) else nth i out d.
Proof.
  revert xs out i. induction mask as [|b m IH]; intros [|x xs] [|o out] i H1 H2 H3; try discriminate; try (cbn in H3; lia).
  cbn [List.length choose] in *. destruct i; [destruct b; reflexivity|]. cbn [nth]. apply IH; lia.
Qed.
Lemma const_nth {B} (v : B) c out i d : List.length out = List.length c -> i < List.length c ->
  nth i (map (fun p => if fst p : bool then v else snd p) (combine c out)) d = if nth i c false then v else nth i out d.
Proof.
  revert out i. induction c as [|b c IH]; intros [|o out] i H1 H2; try discriminate; try (cbn in H2; lia).
  cbn [List.length combine map] in *. destruct i; [destruct b; reflexivity|]. cbn [nth]. apply IH; lia.
Qed.

(* ---- piecewise ---------------------------------------------------------------------------------- *)
Lemma no_true_nth c i : existsb (fun b => b) c = false -> nth i c false = false.
Proof.
  revert i. induction c as [|b c IH]; intros i H; [destruct i; reflexivity|]. destruct b; [discriminate|].
  destruct i; [reflexivity|]. cbn. apply IH. exact H.
Qed.
Lemma elementwise_value {A B} (g : A -> B) (f : list A -> list B) t : (forall l, f l = map g l) -> f t = map g t.
Proof. auto. Qed.
Lemma piecewise_loop_ok {A B} (store : B -> B) conds (funs : list (branch A B)) vals xs out dx d :
  Forall (fun c => List.length c = List.length xs) conds -> Forall2 branch_value funs vals ->
  List.length conds = List.length funs -> List.length out = List.length xs ->
  exists r, piecewise_loop store conds funs xs out = Ok r /\ List.length r = List.length xs /\
    forall i, i < List.length xs ->
      (exists k, k < List.length conds /\ last_true conds i k /\ nth i r d = store (nth k vals (fun _ => d) (nth i xs dx))) \/
      (none_true conds i /\ nth i r d = nth i out d).
Proof.
  intros FC. revert funs vals out. induction FC as [|c conds L FC IH]; intros funs vals out FB HL HO.
  - destruct FB; [|discriminate]. cbn. exists out. split; [reflexivity|]. split; [exact HO|]. intros i Hi. right. split; [|reflexivity].
    intros k. destruct k; destruct i; reflexivity.
  - destruct FB as [|f v funs vals BV FB]; [discriminate|]. cbn [List.length] in HL. cbn [piecewise_loop].
    assert (ST : exists o, (if existsb (fun b => b) c then
        match f with
        | Fun g => let* t := extract c xs in place store out c (g t)
        | Const v0 => Ok (map (fun p => if fst p : bool then store v0 else snd p) (combine c out))
        end else Ok out) = Ok o /\ List.length o = List.length xs /\
        forall i, i < List.length xs -> nth i o d = if nth i c false then store (v (nth i xs dx)) else nth i out d).
    { destruct (existsb (fun b => b) c) eqn:E.
      - destruct f as [g|v0]; cbn in BV.
        + rewrite extract_selected by congruence. cbn [bind]. rewrite BV. rewrite place_choose by congruence.
          eexists. split; [reflexivity|]. split; [rewrite choose_length; congruence|]. intros i Hi. apply choose_nth; congruence.
        + eexists. split; [reflexivity|]. split; [rewrite map_length, combine_length; lia|]. intros i Hi.
          rewrite const_nth by congruence. rewrite BV. reflexivity.
      - exists out. split; [reflexivity|]. split; [exact HO|]. intros i Hi. rewrite (no_true_nth c i E). reflexivity. }
    destruct ST as (o & -> & OL & ON). cbn [bind].
    destruct (IH funs vals o FB ltac:(lia) OL) as (r & -> & RL & RN). exists r. split; [reflexivity|]. split; [exact RL|].
    intros i Hi. destruct (RN i Hi) as [(k & K1 & [K2 K2'] & K3)|[K1 K2]].
    + left. exists (S k). cbn [List.length nth]. split; [lia|]. split; [|exact K3]. split; [exact K2|].
      intros [|k'] Hk; [lia|]. cbn. apply K2'. lia.
    + rewrite (ON i Hi) in K2. destruct (nth i c false) eqn:E.
      * left. exists 0. cbn [List.length nth]. split; [lia|]. split; [|exact K2]. split; [exact E|].
        intros [|k'] Hk; [lia|]. cbn. apply K1.
      * right. split; [|exact K2]. intros [|k]; [exact E|]. cbn. apply K1.
Qed.
Lemma or_lists_spec a b i : List.length a = List.length b ->
  nth i (or_lists a b) false = nth i a false || nth i b false /\ List.length (or_lists a b) = List.length a.
Proof.
  revert b i. induction a as [|x a IH]; intros [|y b] i H; try discriminate; [destruct i; auto|]. cbn [List.length or_lists] in *.
  destruct i; cbn [nth]; [split; [reflexivity|]; destruct (IH b 0 ltac:(lia)) as [_ ->]; reflexivity|].
  destruct (IH b i ltac:(lia)) as [H1 H2]. split; [exact H1|]. rewrite H2. reflexivity.
Qed.
Lemma fold_or_spec cs c n i : List.length c = n -> Forall (fun c => List.length c = n) cs ->
  List.length (fold_left or_lists cs c) = n /\
  (nth i (fold_left or_lists cs c) false = false <-> nth i c false = false /\ forall k, nth i (nth k cs []) false = false).
Proof.
  revert c. induction cs as [|e cs IH]; intros c Hc F.
  - cbn. split; [exact Hc|]. split; [intros H; split; [exact H|intros k; destruct k; destruct i; reflexivity]|tauto].
  - inversion F; subst. cbn [fold_left]. destruct (or_lists_spec c e i ltac:(lia)) as [O1 O2].
    destruct (IH (or_lists c e) ltac:(lia) H2) as [I1 I2]. split; [exact I1|]. rewrite I2, O1, orb_false_iff. split.
    + intros [[G1 G2] G3]. split; [exact G1|]. intros [|k]; cbn; auto.
    + intros [G1 G2]. split; [split; [exact G1|exact (G2 0)]|]. intros k. exact (G2 (S k)).
Qed.
Lemma otherwise_spec conds n i : conds <> [] -> Forall (fun c => List.length c = n) conds -> i < n ->
  List.length (otherwise conds) = n /\ (nth i (otherwise conds) false = true <-> none_true conds i).
Proof.
  intros N F Hi. destruct conds as [|c cs]; [congruence|]. inversion F; subst. cbn [otherwise].
  destruct (fold_or_spec cs c (List.length c) i eq_refl H2) as [L E]. split; [rewrite map_length; exact L|].
  change false with (negb true) at 1. rewrite (nth_indep _ (negb true) (negb false)) by (rewrite map_length; lia).
  rewrite map_nth. rewrite negb_true_iff, E. unfold none_true. split.
  - intros [G1 G2] [|k]; cbn; auto.
  - intros G. split; [exact (G 0)|]. intros k. exact (G (S k)).
Qed.
Lemma piecewise_ok {A B} (store : B -> B) conds (funs : list (branch A B)) vals xs fill dx d :
  Forall (fun c => List.length c = List.length xs) conds -> Forall2 branch_value funs vals ->
  List.length conds = List.length funs ->
  exists r, piecewise store conds funs xs fill = Ok r /\ List.length r = List.length xs /\
    forall i, i < List.length xs ->
      (exists k, k < List.length conds /\ last_true conds i k /\ nth i r d = store (nth k vals (fun _ => d) (nth i xs dx))) \/
      (none_true conds i /\ nth i r d = store fill).
Proof.
  intros FC FB HL. unfold piecewise. replace (List.length conds =? List.length funs) with true by (symmetry; apply Nat.eqb_eq; lia). cbn [orb].
  replace (S (List.length conds) =? List.length funs) with false by (symmetry; apply Nat.eqb_neq; lia).
  destruct (piecewise_loop_ok store conds funs vals xs (repeat (store fill) (List.length xs)) dx d FC FB HL (repeat_length _ _)) as (r & R1 & R2 & R3).
  exists r. split; [exact R1|]. split; [exact R2|]. intros i Hi. destruct (R3 i Hi) as [G|[G1 G2]]; [left; exact G|right].
  split; [exact G1|]. rewrite G2. rewrite (nth_indep _ d (store fill)) by (rewrite repeat_length; exact Hi). apply nth_repeat.
Qed.
Lemma last_true_app conds c i k : k < List.length conds -> last_true (conds ++ [c]) i k -> last_true conds i k.
Proof.
  intros Hk [H1 H2]. split; [rewrite app_nth1 in H1 by exact Hk; exact H1|]. intros k' L.
  destruct (lt_dec k' (List.length conds)) as [Q|Q]; [specialize (H2 k' L); rewrite app_nth1 in H2 by exact Q; exact H2|].
  rewrite (nth_overflow conds) by lia. destruct i; reflexivity.
Qed.
Lemma piecewise_extra {A B} (store : B -> B) conds (funs : list (branch A B)) f vals v xs fill dx d :
  conds <> [] -> Forall (fun c => List.length c = List.length xs) conds -> Forall2 branch_value funs vals -> branch_value f v ->
  List.length conds = List.length funs ->
  exists r, piecewise store conds (funs ++ [f]) xs fill = Ok r /\ List.length r = List.length xs /\
    forall i, i < List.length xs ->
      (exists k, k < List.length conds /\ last_true conds i k /\ nth i r d = store (nth k vals (fun _ => d) (nth i xs dx))) \/
      (none_true conds i /\ nth i r d = store (v (nth i xs dx))).
Proof.
  intros NE FC FB BV HL. unfold piecewise. rewrite app_length. cbn [List.length].
  replace (List.length conds =? List.length funs + 1) with false by (symmetry; apply Nat.eqb_neq; lia).
  replace (S (List.length conds) =? List.length funs + 1) with true by (symmetry; apply Nat.eqb_eq; lia). cbn [orb].
  assert (OL : 0 < List.length xs -> List.length (otherwise conds) = List.length xs) by (intros Q; apply (otherwise_spec conds (List.length xs) 0 NE FC Q)).
  assert (FC' : Forall (fun c => List.length c = List.length xs) (conds ++ [otherwise conds])).
  { apply Forall_app. split; [exact FC|]. constructor; [|constructor].
    destruct conds as [|c cs]; [congruence|]. inversion FC; subst. cbn [otherwise]. rewrite map_length.
    apply (fold_or_spec cs c (List.length xs) 0 H1 H2). }
  assert (FB' : Forall2 branch_value (funs ++ [f]) (vals ++ [v])) by (apply Forall2_app; [exact FB|constructor; [exact BV|constructor]]).
  destruct (piecewise_loop_ok store _ _ _ xs (repeat (store fill) (List.length xs)) dx d FC' FB' ltac:(rewrite !app_length, HL; reflexivity) (repeat_length _ _)) as (r & R1 & R2 & R3).
  exists r. split; [exact R1|]. split; [exact R2|]. intros i Hi.
  pose proof (proj2 (otherwise_spec conds (List.length xs) i NE FC Hi)) as OS.
  assert (VL : List.length vals = List.length conds) by (rewrite HL; clear -FB; induction FB; cbn; congruence).
  destruct (R3 i Hi) as [(k & K1 & K2 & K3)|[G1 G2]].
  - rewrite app_length in K1. cbn [List.length] in K1. destruct (Nat.eq_dec k (List.length conds)) as [->|NK].
    + right. destruct K2 as [K2 _]. rewrite nth_middle in K2. split; [apply OS; exact K2|]. rewrite K3, <- VL, nth_middle. reflexivity.
    + left. exists k. split; [lia|]. split; [eapply last_true_app; [lia|exact K2]|]. rewrite K3. rewrite app_nth1 by lia. reflexivity.
  - exfalso. specialize (G1 (List.length conds)) as G. rewrite nth_middle in G. rewrite (proj2 OS) in G; [discriminate|].
    intros k. destruct (lt_dec k (List.length conds)) as [Q|Q]; [specialize (G1 k); rewrite app_nth1 in G1 by exact Q; exact G1|].
    rewrite (nth_overflow conds) by lia. destruct i; reflexivity.
Qed.
Lemma piecewise_count {A B} (store : B -> B) conds (funs : list (branch A B)) xs fill :
  List.length funs <> List.length conds -> List.length funs <> S (List.length conds) ->
  piecewise store conds funs xs fill = Err ValueError.
Proof.
  intros H1 H2. unfold piecewise. replace (List.length conds =? List.length funs) with false by (symmetry; apply Nat.eqb_neq; lia).
  replace (S (List.length conds) =? List.length funs) with false by (symmetry; apply Nat.eqb_neq; lia). reflexivity.
Qed.

(* ---- lazywhere ---------------------------------------------------------------------------------- *)
Lemma lazywhere_fill {A B} (store : B -> B) cond (xs : list A) f g v nan dx d :
  List.length cond = List.length xs -> (forall l, f l = map g l) ->
  exists r, lazywhere store cond xs f (Some v) nan None = Ok r /\ List.length r = List.length xs /\
    forall i, i < List.length xs -> nth i r d = if nth i cond false then store (g (nth i xs dx)) else v.
Proof.
  intros L F. unfold lazywhere. rewrite extract_selected by congruence. cbn [bind]. rewrite F.
  rewrite place_choose by (rewrite ?repeat_length; congruence). cbn [bind]. eexists. split; [reflexivity|].
  split; [rewrite choose_length; rewrite ?repeat_length; congruence|]. intros i Hi.
  rewrite (choose_nth _ _ _ _ _ _ dx) by (rewrite ?repeat_length; congruence). destruct (nth i cond false); [reflexivity|].
  rewrite (nth_indep _ d v) by (rewrite repeat_length; exact Hi). apply nth_repeat.
Qed.
Lemma negb_nth cond i : i < List.length cond -> nth i (map negb cond) false = negb (nth i cond false).
Proof. intros H. rewrite (nth_indep _ false (negb false)) by (rewrite map_length; exact H). apply map_nth. Qed.
Lemma lazywhere_both {A B} (store : B -> B) cond (xs : list A) f g f2 g2 nan dx d :
  List.length cond = List.length xs -> (forall l, f l = map g l) -> (forall l, f2 l = map g2 l) ->
  exists r, lazywhere store cond xs f None nan (Some f2) = Ok r /\ List.length r = List.length xs /\
    forall i, i < List.length xs -> nth i r d = store (if nth i cond false then g (nth i xs dx) else g2 (nth i xs dx)).
Proof.
  intros L F F2. unfold lazywhere. rewrite extract_selected by congruence. cbn [bind]. rewrite F.
  rewrite place_choose by (rewrite ?repeat_length; congruence). cbn [bind].
  rewrite extract_selected by (rewrite map_length; congruence). cbn [bind]. rewrite F2.
  assert (CL : List.length (choose store g cond xs (repeat nan (List.length xs))) = List.length cond) by (rewrite choose_length; rewrite ?repeat_length; congruence).
  rewrite place_choose by (rewrite ?map_length; congruence). eexists. split; [reflexivity|].
  split; [rewrite choose_length; rewrite ?map_length; congruence|]. intros i Hi.
  rewrite (choose_nth _ _ _ _ _ _ dx) by (rewrite ?map_length; congruence). rewrite negb_nth by congruence.
  rewrite (choose_nth _ _ _ _ _ _ dx) by (rewrite ?repeat_length; congruence). destruct (nth i cond false); reflexivity.
Qed.
Lemma lazywhere_err {A B} (store : B -> B) cond (xs : list A) f nan v f2 :
  lazywhere store cond xs f None nan None = Err ValueError /\ lazywhere store cond xs f (Some v) nan (Some f2) = Err ValueError.
Proof. split; reflexivity. Qed.

(* ---- lazyselect --------------------------------------------------------------------------------- *)
Lemma lazyselect_loop_ok {A B} conds (choices : list (list A -> list B)) vals xs out dx d :
  Forall (fun c => List.length c = List.length xs) conds -> Forall2 (fun f g => forall l, f l = map g l) choices vals ->
  List.length conds = List.length choices -> List.length out = List.length xs ->
  exists r, lazyselect_loop conds choices xs out = Ok r /\ List.length r = List.length xs /\
    forall i, i < List.length xs ->
      (exists k, k < List.length conds /\ last_true conds i k /\ nth i r d = nth k vals (fun _ => d) (nth i xs dx)) \/
      (none_true conds i /\ nth i r d = nth i out d).
Proof.
  intros FC. revert choices vals out. induction FC as [|c conds L FC IH]; intros funs vals out FB HL HO.
  - exists out. split; [reflexivity|]. split; [exact HO|]. intros i Hi. right. split; [|reflexivity].
    intros k. destruct k; destruct i; reflexivity.
  - destruct FB as [|f v funs vals BV FB]; [discriminate|]. cbn [List.length] in HL. cbn [lazyselect_loop].
    rewrite extract_selected by congruence. cbn [bind]. rewrite BV. rewrite place_choose by congruence. cbn [bind].
    set (o := choose (fun v0 => v0) v c xs out).
    assert (OL : List.length o = List.length xs) by (unfold o; rewrite choose_length; congruence).
    assert (ON : forall i, i < List.length xs -> nth i o d = if nth i c false then v (nth i xs dx) else nth i out d).
    { intros i Hi. unfold o. apply (choose_nth (fun v0 => v0) v c xs out i dx d); congruence. }
    destruct (IH funs vals o FB ltac:(lia) OL) as (r & -> & RL & RN). exists r. split; [reflexivity|]. split; [exact RL|].
    intros i Hi. destruct (RN i Hi) as [(k & K1 & [K2 K2'] & K3)|[K1 K2]].
    + left. exists (S k). cbn [List.length nth]. split; [lia|]. split; [|exact K3]. split; [exact K2|].
      intros [|k'] Hk; [lia|]. cbn. apply K2'. lia.
    + rewrite (ON i Hi) in K2. destruct (nth i c false) eqn:E.
      * left. exists 0. cbn [List.length nth]. split; [lia|]. split; [|exact K2]. split; [exact E|].
        intros [|k'] Hk; [lia|]. cbn. apply K1.
      * right. split; [|exact K2]. intros [|k]; [exact E|]. cbn. apply K1.
Qed.
Lemma lazyselect_ok {A B} conds (choices : list (list A -> list B)) vals xs default dx d :
  Forall (fun c => List.length c = List.length xs) conds -> Forall2 (fun f g => forall l, f l = map g l) choices vals ->
  List.length conds = List.length choices ->
  exists r, lazyselect conds choices xs default = Ok r /\ List.length r = List.length xs /\
    forall i, i < List.length xs ->
      (exists k, k < List.length conds /\ last_true conds i k /\ nth i r d = nth k vals (fun _ => d) (nth i xs dx)) \/
      (none_true conds i /\ nth i r d = default).
Proof.
  intros FC FB HL. unfold lazyselect.
  destruct (lazyselect_loop_ok conds choices vals xs (repeat default (List.length xs)) dx d FC FB HL (repeat_length _ _)) as (r & R1 & R2 & R3).
  exists r. split; [exact R1|]. split; [exact R2|]. intros i Hi. destruct (R3 i Hi) as [G|[G1 G2]]; [left; exact G|right].
  split; [exact G1|]. rewrite G2. rewrite (nth_indep _ d default) by (rewrite repeat_length; exact Hi). apply nth_repeat.
Qed.

(* ---- dictionaries ------------------------------------------------------------------------------- *)
Lemma assign_lookup {K V} (keqb : K -> K -> bool) (E : forall a b, keqb a b = true <-> a = b) (d : list (K * V)) k v k' :
  lookup keqb (assign keqb d k v) k' = if keqb k' k then Some v else lookup keqb d k'.
Proof.
  induction d as [|[a b] d IH]; cbn [assign lookup]; [destruct (keqb k' k); reflexivity|].
  destruct (keqb k a) eqn:Q; cbn [lookup].
  - apply E in Q. subst a. destruct (keqb k' k); reflexivity.
  - rewrite IH. destruct (keqb k' a) eqn:R; [|reflexivity]. apply E in R. subst a.
    destruct (keqb k' k) eqn:T; [|reflexivity]. apply E in T. subst. rewrite (proj2 (E k k) eq_refl) in Q. discriminate.
Qed.
Lemma assign_keys {K V} (keqb : K -> K -> bool) (E : forall a b, keqb a b = true <-> a = b) (d : list (K * V)) k v :
  In k (map fst d) -> map fst (assign keqb d k v) = map fst d.
Proof.
  induction d as [|[a b] d IH]; cbn; [tauto|]. intros H. destruct (keqb k a) eqn:Q; [reflexivity|]. cbn. rewrite IH; [reflexivity|].
  destruct H as [->|H]; [|exact H]. rewrite (proj2 (E k k) eq_refl) in Q. discriminate.
Qed.
Lemma lookup_in {K V} (keqb : K -> K -> bool) (E : forall a b, keqb a b = true <-> a = b) (d : list (K * V)) k :
  lookup keqb d k <> None <-> In k (map fst d).
Proof.
  induction d as [|[a b] d IH]; cbn; [tauto|]. destruct (keqb k a) eqn:Q.
  - apply E in Q. subst. split; [auto|discriminate].
  - rewrite IH. split; [auto|]. intros [->|H]; [|exact H]. rewrite (proj2 (E k k) eq_refl) in Q. discriminate.
Qed.
Lemma sub_loop {K V} (keqb : K -> K -> bool) (E : forall a b, keqb a b = true <-> a = b) (d : list (K * V)) keys acc k :
  lookup keqb (fold_left (fun acc k => match lookup keqb d k with Some v => assign keqb acc k v | None => acc end) keys acc) k =
  if existsb (keqb k) keys then match lookup keqb d k with Some v => Some v | None => lookup keqb acc k end else lookup keqb acc k.
Proof.
  revert acc. induction keys as [|a keys IH]; intros acc; [reflexivity|]. cbn [fold_left existsb]. rewrite IH.
  destruct (lookup keqb d a) as [v|] eqn:L.
  - rewrite assign_lookup by exact E. destruct (keqb k a) eqn:Q; cbn [orb].
    + apply E in Q. subst a. rewrite L. destruct (existsb (keqb k) keys); reflexivity.
    + reflexivity.
  - destruct (keqb k a) eqn:Q; cbn [orb]; [|reflexivity]. apply E in Q. subst a. rewrite L. destruct (existsb (keqb k) keys); reflexivity.
Qed.
Lemma existsb_in {K} (keqb : K -> K -> bool) (E : forall a b, keqb a b = true <-> a = b) k keys : existsb (keqb k) keys = true <-> In k keys.
Proof. rewrite existsb_exists. split; [intros (x & H & Q); apply E in Q; subst; exact H|intros H; exists k; split; [exact H|apply E; reflexivity]]. Qed.
Lemma sub_lookup {K V} (keqb : K -> K -> bool) (E : forall a b, keqb a b = true <-> a = b) (d : list (K * V)) keys k :
  (In k keys -> lookup keqb (sub_dict_select keqb d keys) k = lookup keqb d k) /\
  (~ In k keys -> lookup keqb (sub_dict_select keqb d keys) k = None).
Proof.
  unfold sub_dict_select. rewrite sub_loop by exact E. split; intros H.
  - rewrite (proj2 (existsb_in keqb E k keys) H). destruct (lookup keqb d k); reflexivity.
  - destruct (existsb (keqb k) keys) eqn:Q; [|reflexivity]. apply (existsb_in keqb E) in Q. tauto.
Qed.
Lemma update_lookup {K V} (keqb : K -> K -> bool) (E : forall a b, keqb a b = true <-> a = b) (e d : list (K * V)) k :
  NoDup (map fst e) ->
  lookup keqb (update keqb d e) k = match lookup keqb e k with Some v => Some v | None => lookup keqb d k end.
Proof.
  unfold update. revert d. induction e as [|[a b] e IH]; intros d N; [reflexivity|]. cbn [map fst] in N. inversion N; subst.
  cbn [fold_left fst snd lookup]. rewrite IH by assumption. rewrite assign_lookup by exact E.
  destruct (keqb k a) eqn:Q; [|reflexivity]. apply E in Q. subst a.
  destruct (lookup keqb e k) eqn:L; [|reflexivity]. exfalso. apply H1. apply (lookup_in keqb E). congruence.
Qed.
Lemma update_keys {K V} (keqb : K -> K -> bool) (E : forall a b, keqb a b = true <-> a = b) (e d : list (K * V)) :
  incl (map fst e) (map fst d) -> map fst (update keqb d e) = map fst d.
Proof.
  unfold update. revert d. induction e as [|[a b] e IH]; intros d H; [reflexivity|]. cbn [fold_left fst snd].
  assert (A : map fst (assign keqb d a b) = map fst d) by (apply assign_keys; [exact E|apply H; left; reflexivity]).
  rewrite IH; [exact A|]. rewrite A. intros x Hx. apply H. right. exact Hx.
Qed.
Lemma assign_nodup {K V} (keqb : K -> K -> bool) (E : forall a b, keqb a b = true <-> a = b) (d : list (K * V)) k v :
  NoDup (map fst d) -> NoDup (map fst (assign keqb d k v)) /\ (forall x, In x (map fst (assign keqb d k v)) <-> x = k \/ In x (map fst d)).
Proof.
  induction d as [|[a b] d IH]; cbn [assign map fst]; intros N.
  - split; [constructor; [intros []|constructor]|]. cbn. intuition.
  - inversion N; subst. destruct (IH H2) as [I1 I2]. destruct (keqb k a) eqn:Q; cbn [map fst].
    + apply E in Q. subst a. split; [exact N|]. cbn. intuition.
    + split; [constructor; [|exact I1]|].
      * intros H. apply I2 in H. destruct H as [->|H]; [|tauto]. rewrite (proj2 (E k k) eq_refl) in Q. discriminate.
      * intros x. cbn. rewrite I2. intuition.
Qed.
Lemma sub_nodup {K V} (keqb : K -> K -> bool) (E : forall a b, keqb a b = true <-> a = b) (d : list (K * V)) keys :
  NoDup (map fst (sub_dict_select keqb d keys)).
Proof.
  unfold sub_dict_select. assert (G : NoDup (map fst (@nil (K * V)))) by constructor. revert G. generalize (@nil (K * V)).
  induction keys as [|k keys IH]; intros acc N; [exact N|]. cbn [fold_left]. apply IH. destruct (lookup keqb d k); [|exact N]. apply assign_nodup; assumption.
Qed.
Lemma sub_incl {K V} (keqb : K -> K -> bool) (E : forall a b, keqb a b = true <-> a = b) (d : list (K * V)) keys k :
  In k (map fst (sub_dict_select keqb d keys)) <-> In k keys /\ In k (map fst d).
Proof.
  rewrite <- !(lookup_in keqb E). destruct (sub_lookup keqb E d keys k) as [H1 H2].
  destruct (existsb (keqb k) keys) eqn:Q.
  - apply (existsb_in keqb E) in Q. rewrite (H1 Q). tauto.
  - assert (N : ~ In k keys) by (intros H; apply (existsb_in keqb E) in H; congruence). rewrite (H2 N). tauto.
Qed.
Lemma parse_kwargs_ok {K V} (keqb : K -> K -> bool) (E : forall a b, keqb a b = true <-> a = b) (o kw : list (K * V)) :
  map fst (parse_kwargs keqb o kw) = map fst o /\
  forall k, In k (map fst o) ->
    lookup keqb (parse_kwargs keqb o kw) k = match lookup keqb kw k with Some v => Some v | None => lookup keqb o k end.
Proof.
  unfold parse_kwargs. set (e := sub_dict_select keqb kw (map fst o)).
  assert (U : (if 0 <? List.length e then update keqb o e else o) = update keqb o e) by (destruct e; reflexivity).
  rewrite U. split.
  - apply update_keys; [exact E|]. intros k Hk. apply (sub_incl keqb E) in Hk. tauto.
  - intros k Hk. rewrite update_lookup by (exact E || apply sub_nodup; exact E).
    unfold e. rewrite (proj1 (sub_lookup keqb E kw (map fst o) k) Hk). reflexivity.
Qed.
