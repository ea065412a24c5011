(* Which arguments are changed. *)
From Coq Require Import Reals List ZArith Lra Lia Bool Permutation Sorted.
From Verif Require Import Base FilterModel FilterProofs2 KdeModel StatsModel AliasModel AliasSpec.
Import ListNotations.
Local Open Scope R_scope.

(* ---- edf ---- *)
Lemma strongly_order : forall x, StronglySorted Rle x -> in_order x.
Proof.
  intros x H. induction H as [|a x H IH F]; intros i j [L1 L2]; cbn [List.length] in L2; [lia|].
  destruct i as [|i], j as [|j]; cbn [nth]; [lra| |lia|apply IH; lia]. rewrite Forall_forall in F. apply F, nth_In. lia.
Qed.
Lemma order_strongly : forall x, in_order x -> StronglySorted Rle x.
Proof.
  induction x as [|a x IH]; intros H; constructor.
  - apply IH. intros i j L. exact (H (S i) (S j) ltac:(cbn; lia)).
  - apply Forall_forall. intros v Hv. destruct (In_nth x v 0 Hv) as (i & Hi & <-). exact (H 0%nat (S i) ltac:(cbn; lia)).
Qed.
Lemma sorted_same : forall x y, StronglySorted Rle x -> StronglySorted Rle y -> Permutation x y -> x = y.
Proof.
  induction x as [|a x IH]; intros y SX SY P; [symmetry; apply Permutation_nil, P|].
  destruct y as [|b y]; [apply Permutation_sym, Permutation_nil in P; discriminate|].
  inversion SX as [|? ? SX' FX]; subst. inversion SY as [|? ? SY' FY]; subst. rewrite Forall_forall in FX, FY.
  assert (a = b) as ->.
  { assert (In a (b :: y)) as Ha by (apply (Permutation_in _ P); left; reflexivity). assert (In b (a :: x)) as Hb by (apply (Permutation_in _ (Permutation_sym P)); left; reflexivity).
    destruct Ha as [E|Ha]; [symmetry; exact E|]. destruct Hb as [E|Hb]; [exact E|]. specialize (FX _ Hb). specialize (FY _ Ha). lra. }
  f_equal. apply IH; [exact SX'|exact SY'|exact (Permutation_cons_inv P)].
Qed.
Lemma sort_id : forall x, in_order x -> sortR x = x.
Proof. intros x H. apply sorted_same; [apply sortR_sorted|apply order_strongly, H|apply Permutation_sym, sortR_perm]. Qed.
Lemma edf_after : forall x method, exists y, snd (edf_call (Shared x) method) = Shared y /\ Permutation x y /\ in_order y.
Proof. intros x method. exists (sortR x). split; [reflexivity|]. split; [apply sortR_perm|apply strongly_order, sortR_sorted]. Qed.
Lemma edf_unchanged : forall x method, snd (edf_call (Shared x) method) = Shared x <-> in_order x.
Proof.
  intros x method. cbn [edf_call snd store contents]. split.
  - intros H. injection H as H. rewrite <- H. apply strongly_order, sortR_sorted.
  - intros H. rewrite (sort_id x H). reflexivity.
Qed.
Lemma edf_list : forall x method, snd (edf_call (Copied x) method) = Copied x.
Proof. reflexivity. Qed.
Lemma edf_changes : ~ (forall a method, snd (edf_call a method) = a).
Proof. intros H. specialize (H (Shared [2; 1]) 2%Z). apply edf_unchanged in H. specialize (H 0%nat 1%nat ltac:(cbn; lia)). cbn in H. lra. Qed.
Lemma edfcnd_unchanged : forall a c method, snd (edfcnd_call a c method) = a.
Proof. reflexivity. Qed.

(* ---- smoothn ---- *)
Definition filled (v : option R) : option R := match v with Some r => Some r | None => Some 0 end.
Lemma smoothn_after : forall smooth weights x, (2 <= List.length x)%nat -> List.length weights = List.length x ->
  (forall i, (i < List.length x)%nat -> nth i x None <> None -> 0 <= nth i weights 0) ->
  exists y, snd (smoothn_call smooth weights (Shared x)) = Shared y /\ List.length y = List.length x /\
    forall i, (i < List.length x)%nat -> nth i y None = match nth i x None with Some r => Some r | None => Some 0 end.
Proof.
  intros smooth weights x L LW W. unfold smoothn_call. cbn [contents]. destruct (Nat.ltb_spec (List.length x) 2); [lia|]. rewrite LW, Nat.eqb_refl. cbn [negb].
  assert (forallb weight_ok (combine weights x) = true) as ->.
  { apply forallb_forall. intros [w v] Hp. destruct (In_nth _ _ (0, None) Hp) as (i & Hi & E). rewrite combine_length, LW, Nat.min_id in Hi. rewrite (combine_nth weights x i 0 None LW) in E. injection E as <- <-.
    unfold weight_ok. cbn [fst snd]. specialize (W i Hi). destruct (nth i x None) as [r|] eqn:E; cbn [finite]; [|reflexivity]. destruct (Rle_dec 0 (nth i weights 0)) as [|N]; [reflexivity|]. exfalso. apply N, W. discriminate. }
  cbn [negb]. cbn [store snd]. exists (map filled x). split; [reflexivity|]. split; [apply map_length|]. intros i Hi.
  rewrite (nth_indep (map filled x) None (filled None)) by (rewrite map_length; exact Hi). apply (map_nth filled).
Qed.
Lemma smoothn_finite : forall smooth weights a, (forall v, In v (contents a) -> v <> None) -> snd (smoothn_call smooth weights a) = a.
Proof.
  intros smooth weights a H. unfold smoothn_call. destruct (_ <? _)%nat; [reflexivity|]. destruct (negb (_ =? _)%nat); [reflexivity|]. destruct (negb (forallb _ _)); [reflexivity|]. cbn [snd].
  assert (map (fun v : option R => match v with Some r => Some r | None => Some 0 end) (contents a) = contents a) as ->; [|destruct a; reflexivity].
  rewrite <- (map_id (contents a)) at 2. apply map_ext_in. intros [r|] Hv; [reflexivity|]. exfalso. exact (H None Hv eq_refl).
Qed.
Lemma smoothn_list : forall smooth weights x, snd (smoothn_call smooth weights (Copied x)) = Copied x.
Proof. intros. unfold smoothn_call. cbn [contents]. destruct (_ <? _)%nat; [reflexivity|]. destruct (negb (_ =? _)%nat); [reflexivity|]. destruct (negb (forallb _ _)); reflexivity. Qed.
Lemma smoothn_weights : forall smooth weights a i, (2 <= List.length (contents a))%nat -> List.length weights = List.length (contents a) -> (i < List.length (contents a))%nat -> nth i (contents a) None <> None -> nth i weights 0 < 0 ->
  smoothn_call smooth weights a = (Err ValueError, a).
Proof.
  intros smooth weights a i L LW Hi F W. unfold smoothn_call. destruct (Nat.ltb_spec (List.length (contents a)) 2); [lia|]. rewrite LW, Nat.eqb_refl. cbn [negb].
  assert (forallb weight_ok (combine weights (contents a)) = false) as ->; [|reflexivity].
  apply not_true_is_false. intros Q. rewrite forallb_forall in Q. specialize (Q (nth i weights 0, nth i (contents a) None)). assert (In (nth i weights 0, nth i (contents a) None) (combine weights (contents a))) as I.
  { rewrite <- (combine_nth weights (contents a) i 0 None LW). apply nth_In. rewrite combine_length, LW, Nat.min_id. exact Hi. }
  specialize (Q I). unfold weight_ok in Q. cbn [fst snd] in Q. destruct (nth i (contents a) None); [|contradiction]. cbn in Q. destruct (Rle_dec 0 (nth i weights 0)); [lra|discriminate].
Qed.
Lemma smoothn_changes : ~ (forall smooth weights a, snd (smoothn_call smooth weights a) = a).
Proof.
  intros H. specialize (H (fun y _ _ => y) [1; 1] (Shared [Some 1; None])). destruct (smoothn_after (fun y _ _ => y) [1; 1] [Some 1; None]) as (y & E & _ & N); [cbn; lia|reflexivity|intros [|[|i]] Hi _; cbn; [lra|lra|cbn in Hi; lia]|].
  rewrite H in E. injection E as <-. specialize (N 1%nat ltac:(cbn; lia)). cbn in N. discriminate.
Qed.

(* ---- simcond ---- *)
Lemma set_nan_nth : forall x i k, nth k (set_nan x i) (Some 0) = if ((k =? i)%nat && (i <? List.length x)%nat)%bool then None else nth k x (Some 0).
Proof.
  induction x as [|v x IH]; intros i k; [cbn; rewrite andb_false_r; reflexivity|]. destruct i as [|i], k as [|k]; cbn [set_nan nth]; try reflexivity. rewrite IH. cbn [List.length]. reflexivity.
Qed.
Lemma set_nan_length : forall x i, List.length (set_nan x i) = List.length x.
Proof. induction x as [|v x IH]; intros [|i]; cbn; try reflexivity. rewrite IH. reflexivity. Qed.
Lemma mark_spec : forall l x, missing_at l x (fold_left set_nan l x).
Proof.
  induction l as [|a l IH]; intros x; cbn [fold_left].
  - split; [reflexivity|]. intros i. split; [intros []|reflexivity].
  - destruct (IH (set_nan x a)) as [L K]. rewrite set_nan_length in *. split; [exact L|]. intros i. destruct (K i) as [K1 K2]. destruct (in_dec Nat.eq_dec i l) as [I|I].
    + split; [intros _; exact (K1 I)|]. intros N. exfalso. apply N. right. exact I.
    + rewrite (K2 I), set_nan_nth. split.
      * intros [<-|Q] Hi; [|contradiction]. rewrite Nat.eqb_refl, (proj2 (Nat.ltb_lt _ _) Hi). reflexivity.
      * intros N. destruct (Nat.eqb_spec i a) as [->|]; [exfalso; apply N; left; reflexivity|reflexivity].
Qed.
Lemma simcond_fst : forall finish prior data num_acf xo unknown x, mark (contents xo) unknown = Ok x -> snd (fst (simcond_call finish prior data num_acf xo unknown)) = store xo x.
Proof.
  intros finish prior data num_acf xo unknown x E. unfold simcond_call. rewrite E. destruct (_ =? 0)%nat; [reflexivity|]. destruct (_ =? _)%nat; [reflexivity|]. destruct (Rlt_dec _ _); reflexivity.
Qed.
Lemma simcond_observations : forall finish prior data num_acf x unknown, (forall i, In i unknown -> (i < List.length x)%nat) ->
  exists y, snd (fst (simcond_call finish prior data num_acf (Shared x) (Some unknown))) = Shared y /\ missing_at unknown x y.
Proof.
  intros finish prior data num_acf x unknown H. assert (mark x (Some unknown) = Ok (fold_left set_nan unknown x)) as E.
  { unfold mark. assert (forallb (fun i => (i <? List.length x)%nat) unknown = true) as ->; [|reflexivity]. apply forallb_forall. intros i Hi. apply Nat.ltb_lt, H, Hi. }
  exists (fold_left set_nan unknown x). split; [exact (simcond_fst finish prior data num_acf (Shared x) _ _ E)|apply mark_spec].
Qed.
Lemma simcond_kept : forall finish prior data num_acf xo, snd (fst (simcond_call finish prior data num_acf xo None)) = xo.
Proof. intros. rewrite (simcond_fst finish prior data num_acf xo None (contents xo) eq_refl). destruct xo; reflexivity. Qed.
Lemma simcond_list : forall finish prior data num_acf x unknown, snd (fst (simcond_call finish prior data num_acf (Copied x) unknown)) = Copied x.
Proof. intros. destruct (mark x unknown) as [y|e] eqn:E; [exact (simcond_fst finish prior data num_acf (Copied x) unknown y E)|]. unfold simcond_call. cbn [contents]. rewrite E. reflexivity. Qed.
Lemma simcond_range : forall finish prior data num_acf xo unknown i, In i unknown -> (List.length (contents xo) <= i)%nat -> simcond_call finish prior data num_acf xo (Some unknown) = (Err IndexError, xo, data).
Proof.
  intros finish prior data num_acf xo unknown i I L. unfold simcond_call, mark. assert (forallb (fun i => (i <? List.length (contents xo))%nat) unknown = false) as ->; [|reflexivity].
  apply not_true_is_false. intros H. rewrite forallb_forall in H. specialize (H i I). apply Nat.ltb_lt in H. lia.
Qed.
(* the covariances of the object *)
Lemma simcond_covariances : forall finish prior r0 rest num_acf xo u k, INR num_acf <= 3 / 10 * INR (List.length (contents xo)) ->
  In u (contents xo) -> u = None -> In k (contents xo) -> k <> None ->
  snd (simcond_call finish prior (r0 :: rest) num_acf xo None) = r0 * (100001 / 100000) :: rest.
Proof.
  intros finish prior r0 rest num_acf xo u k LE Hu -> Hk NK. unfold simcond_call, mark. set (x := contents xo) in *.
  assert (List.length (filter (fun v => negb (finite v)) x) <> 0)%nat as N0.
  { intros E. apply length_zero_iff_nil in E. assert (In None (filter (fun v => negb (finite v)) x)) as Q by (apply filter_In; split; [exact Hu|reflexivity]). rewrite E in Q. destruct Q. }
  assert (List.length (filter (fun v => negb (finite v)) x) <> List.length x)%nat as N1.
  { clear LE Hu N0. induction x as [|v x IH]; [destruct Hk|]. cbn [filter]. assert (List.length (filter (fun v => negb (finite v)) x) <= List.length x)%nat as B.
    { clear. induction x as [|v x IH]; cbn; [lia|]. destruct (negb (finite v)); cbn; lia. }
    destruct Hk as [->|Hk]; [destruct k; [cbn; lia|contradiction]|]. specialize (IH Hk). destruct (negb (finite v)); cbn; lia. }
  destruct (Nat.eqb_spec (List.length (filter (fun v => negb (finite v)) x)) 0); [contradiction|]. destruct (Nat.eqb_spec (List.length (filter (fun v => negb (finite v)) x)) (List.length x)); [contradiction|].
  destruct (Rlt_dec (3 / 10 * INR (List.length x)) (INR num_acf)); [lra|]. reflexivity.
Qed.
Lemma simcond_changes : ~ (forall finish prior data num_acf xo unknown, snd (fst (simcond_call finish prior data num_acf xo unknown)) = xo).
Proof.
  intros H. specialize (H (fun _ _ => Ok []) (fun _ => []) [1] 1%nat (Shared [Some 1; Some 2]) (Some [0%nat])).
  destruct (simcond_observations (fun _ _ => Ok []) (fun _ => []) [1] 1 [Some 1; Some 2] [0%nat]) as (y & E & L & K); [intros i [<-|[]]; cbn; lia|].
  rewrite H in E. injection E as <-. destruct (K 0%nat) as [K1 _]. specialize (K1 (or_introl eq_refl) ltac:(cbn; lia)). cbn in K1. discriminate.
Qed.
Lemma simcond_object : ~ (forall finish prior data num_acf xo unknown, snd (simcond_call finish prior data num_acf xo unknown) = data).
Proof.
  intros H. specialize (H (fun _ _ => Ok []) (fun _ => []) [1] 1%nat (Shared [Some 1; None; Some 1; Some 1]) None).
  rewrite (simcond_covariances _ _ _ _ _ _ None (Some 1)) in H; [injection H; lra|cbn; lra|right; left; reflexivity|reflexivity|left; reflexivity|discriminate].
Qed.

(* ---- mctp2tc ---- *)
Lemma total_div : forall r s, s <> 0 -> total (map (fun v => v / s) r) = total r / s.
Proof. intros r s H. unfold total. induction r as [|a r IH]; cbn; [field; exact H|]. rewrite IH. field. exact H. Qed.
Lemma mctp2tc_after : forall rest f utc lo hi k g i, let ntc := List.length (filter (fun u => if Rle_dec utc u then true else false) (linspace lo hi k)) in
  (1 < ntc)%nat -> (ntc < k)%nat -> (ntc < List.length f)%nat -> (i < List.length f)%nat ->
  let f' := snd (mctp2tc_call rest f utc lo hi k g) in let row := nth i f [] in let row' := nth i f' [] in
  List.length f' = List.length f /\ (total row = 0 -> row' = row) /\ (total row <> 0 -> total row' = 1 /\ forall j, nth j row' 0 = nth j row 0 / total row).
Proof.
  intros rest f utc lo hi k g i ntc N1 N2 N3 Hi f' row row'. assert (f' = map normalize_row f) as E.
  { unfold f', mctp2tc_call. fold ntc. destruct (Nat.leb_spec (List.length f) ntc); [lia|]. rewrite (proj2 (Nat.ltb_lt 1 ntc) N1), (proj2 (Nat.ltb_lt ntc k) N2). reflexivity. }
  assert (row' = normalize_row row) as R.
  { unfold row', row. rewrite E. rewrite (nth_indep (map normalize_row f) [] (normalize_row [])) by (rewrite map_length; exact Hi). apply (map_nth normalize_row). }
  split; [rewrite E; apply map_length|]. rewrite R. unfold normalize_row. change (row_sum row) with (total row). destruct (Req_EM_T (total row) 0) as [Z0|Z0].
  - split; [reflexivity|intros N; contradiction].
  - split; [intros Q; contradiction|]. intros _. split; [rewrite (total_div row _ Z0); field; exact Z0|]. intros j. replace 0 with (0 / total row) at 1 by (field; exact Z0). apply (map_nth (fun v => v / total row)).
Qed.
Lemma mctp2tc_range : forall rest f utc lo hi k g, let ntc := List.length (filter (fun u => if Rle_dec utc u then true else false) (linspace lo hi k)) in
  ((List.length f <= ntc)%nat -> mctp2tc_call rest f utc lo hi k g = (Err IndexError, f)) /\
  ((ntc < List.length f)%nat -> (ntc <= 1)%nat \/ (k <= ntc)%nat -> mctp2tc_call rest f utc lo hi k g = (Err ValueError, f)).
Proof.
  intros rest f utc lo hi k g ntc. unfold mctp2tc_call. fold ntc. split; intros H.
  - rewrite (proj2 (Nat.leb_le _ _) H). reflexivity.
  - intros K. destruct (Nat.leb_spec (List.length f) ntc); [lia|]. destruct (Nat.ltb_spec 1 ntc), (Nat.ltb_spec ntc k); cbn [andb negb]; try reflexivity. lia.
Qed.
Lemma levels3 : List.length (filter (fun u => if Rle_dec 0 u then true else false) (linspace (-1) 1 3)) = 2%nat.
Proof.
  unfold linspace. cbn [seq map filter INR Nat.sub]. repeat (destruct (Rle_dec _ _); [|]); cbn; try lra; reflexivity.
Qed.
Lemma mctp2tc_changes : ~ (forall rest f utc lo hi k g, snd (mctp2tc_call rest f utc lo hi k g) = f).
Proof.
  intros H. specialize (H (fun _ _ _ => Ok []) [[2; 0; 0]; [0; 0; 0]; [0; 0; 0]] 0 (-1) 1 3%nat None). pose proof levels3 as L.
  destruct (mctp2tc_after (fun _ _ _ => Ok []) [[2; 0; 0]; [0; 0; 0]; [0; 0; 0]] 0 (-1) 1 3 None 0) as (_ & _ & K); [rewrite L; lia|rewrite L; lia|rewrite L; cbn; lia|cbn; lia|].
  rewrite H in K. cbn [nth] in K. unfold total in K. cbn [fold_right] in K. destruct K as [K _]; lra.
Qed.
