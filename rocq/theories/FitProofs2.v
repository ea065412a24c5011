(* The free and the fixed parameters after the keywords have been read. *)
From Coq Require Import Reals String Lia.
From Verif Require Import Base FitModel FitSpec FitProofs.
Local Open Scope string_scope.

Fixpoint overlay (fl : list (option pyv)) (args : list pyv) : list pyv :=
  match fl, args with o :: fl', a :: args' => match o with Some v => v | None => a end :: overlay fl' args' | _, _ => [] end.
Fixpoint places (n : nat) (fl : list (option pyv)) : list nat :=
  match fl with [] => [] | Some _ :: fl' => n :: places (S n) fl' | None :: fl' => places (S n) fl' end.

Lemma overlay_length fl : forall args, List.length args = List.length fl -> List.length (overlay fl args) = List.length fl.
Proof. induction fl as [|o fl IH]; intros [|a args] L; cbn in *; try lia. rewrite IH by lia. reflexivity. Qed.

Lemma split_spec names : forall n args d, NoDup names -> List.length args = List.length names ->
  let fl := map (fun k => find k d) names in
  exists d1, split_from n names args d = Ok (free fl args, overlay fl args, places n fl, d1) /\ forall k, find k d1 = if mem k names then None else find k d.
Proof.
  induction names as [|k names IH]; intros n [|a args] d U L fl; cbn [List.length] in L; try discriminate.
  - exists d. split; reflexivity.
  - inversion U as [|? ? NI U']; subst. assert (L' : List.length args = List.length names) by lia. cbn [split_from].
    assert (MK : forall x, mem x (k :: names) = (String.eqb x k || mem x names)%bool) by reflexivity.
    destruct (find k d) as [v|] eqn:F.
    + destruct (IH (S n) args (drop k d) U' L') as [d1 [E D]]. rewrite E. cbn [bind]. exists d1.
      assert (M : map (fun k0 => find k0 (drop k d)) names = map (fun k0 => find k0 d) names).
      { apply map_ext_in. intros x I. rewrite find_drop. destruct (String.eqb_spec x k); [subst; contradiction|reflexivity]. }
      rewrite M. unfold fl. cbn [map]. rewrite F. cbn [free overlay places]. split; [reflexivity|].
      intros x. rewrite D, find_drop, MK. destruct (String.eqb x k); destruct (mem x names); reflexivity.
    + destruct (IH (S n) args d U' L') as [d1 [E D]]. rewrite E. cbn [bind]. exists d1.
      unfold fl. cbn [map]. rewrite F. cbn [free overlay places]. split; [reflexivity|].
      intros x. rewrite D, MK. destruct (String.eqb_spec x k) as [->|N]; [|reflexivity]. cbn [orb]. rewrite F. destruct (mem k names); reflexivity.
Qed.

(* restore puts the free values between the fixed ones *)
Fixpoint fill (fl : list (option pyv)) (theta : list pyv) : res (list pyv) :=
  match fl with
  | [] => Ok []
  | Some v :: fl' => let* r := fill fl' theta in Ok (v :: r)
  | None :: fl' => match theta with [] => Err IndexError | t :: theta' => let* r := fill fl' theta' in Ok (t :: r) end
  end.
Lemma places_ge fl : forall n i, In i (places n fl) -> (n <= i)%nat.
Proof. induction fl as [|[v|] fl IH]; cbn; intros n i I; [contradiction| |]; [destruct I as [->|I]; [lia|]|]; specialize (IH _ _ I); lia. Qed.
Lemma places_in fl : forall n i, In i (places n fl) <-> exists v, (n <= i)%nat /\ nth_error fl (i - n) = Some (Some v).
Proof.
  induction fl as [|o fl IH]; intros n i.
  - cbn. split; [contradiction|]. intros [v [_ E]]. destruct (i - n)%nat; discriminate.
  - assert (Q : In i (places n (o :: fl)) <-> (exists v, o = Some v /\ i = n) \/ In i (places (S n) fl)).
    { destruct o as [v|]; cbn; split; intros H.
      - destruct H as [<-|H]; [left; exists v; split; reflexivity|right; exact H].
      - destruct H as [[w [E ->]]|H]; [left; reflexivity|right; exact H].
      - right. exact H.
      - destruct H as [[w [E _]]|H]; [discriminate|exact H]. }
    rewrite Q, IH. split.
    + intros [[v [-> ->]]|[v [G E]]].
      * exists v. split; [lia|]. rewrite Nat.sub_diag. reflexivity.
      * exists v. split; [lia|]. replace (i - n)%nat with (S (i - S n)) by lia. exact E.
    + intros [v [G E]]. destruct (Nat.eq_dec i n) as [->|N].
      * rewrite Nat.sub_diag in E. cbn in E. left. exists v. split; congruence.
      * right. exists v. split; [lia|]. replace (i - n)%nat with (S (i - S n)) in E by lia. exact E.
Qed.
Lemma restore_from_spec fl : forall n (fx : list nat) args theta, List.length args = List.length fl ->
  (forall i, (n <= i)%nat -> existsb (Nat.eqb i) fx = existsb (Nat.eqb i) (places n fl)) ->
  restore_from n fx (overlay fl args) theta = fill fl theta.
Proof.
  induction fl as [|o fl IH]; intros n fx [|a args] theta L H; cbn [List.length] in L; try discriminate; [reflexivity|].
  cbn [overlay restore_from fill].
  assert (H' : forall i, (S n <= i)%nat -> existsb (Nat.eqb i) fx = existsb (Nat.eqb i) (places (S n) fl)).
  { intros i G. rewrite H by lia. destruct o; [|reflexivity]. cbn [places existsb]. replace (Nat.eqb i n) with false by (symmetry; apply Nat.eqb_neq; lia). reflexivity. }
  rewrite (H n) by lia. destruct o as [v|].
  - cbn [places existsb]. rewrite Nat.eqb_refl. cbn [orb]. rewrite (IH (S n) fx args theta) by (try lia; exact H'). reflexivity.
  - cbn [places]. replace (existsb (Nat.eqb n) (places (S n) fl)) with false.
    + destruct theta as [|t theta]; [reflexivity|]. rewrite (IH (S n) fx args theta) by (try lia; exact H'). reflexivity.
    + symmetry. apply not_true_is_false. intros E. apply existsb_exists in E. destruct E as [x [I E]]. apply places_ge in I. apply Nat.eqb_eq in E. lia.
Qed.
Lemma restore_spec fl args theta : List.length args = List.length fl -> restore (places 0 fl) (overlay fl args) theta = fill fl theta.
Proof. intros L. apply restore_from_spec; [exact L|]. intros; reflexivity. Qed.

Lemma fill_agrees fl : forall theta r, fill fl theta = Ok r -> List.length r = List.length fl /\ agrees fl r /\ free fl r = firstn (n_free fl) theta.
Proof.
  induction fl as [|[v|] fl IH]; intros theta r E; cbn [fill] in E.
  - assert (r = []) by congruence. subst r. split; [reflexivity|]. split; [intros [|i] v H; discriminate|reflexivity].
  - destruct (fill fl theta) as [r'|] eqn:F; cbn [bind] in E; [|discriminate]. assert (r = v :: r') by congruence. subst r.
    destruct (IH _ _ F) as [L [A G]]. split; [cbn; lia|]. split; [|cbn [free]; exact G].
    intros [|i] w H; cbn in H |- *; [congruence|]. apply A. exact H.
  - destruct theta as [|t theta]; [discriminate|]. destruct (fill fl theta) as [r'|] eqn:F; cbn [bind] in E; [|discriminate]. assert (r = t :: r') by congruence. subst r.
    destruct (IH _ _ F) as [L [A G]]. split; [cbn; lia|]. split.
    + intros [|i] w H; cbn in H |- *; [discriminate|]. apply A. exact H.
    + cbn [free]. change (n_free (None :: fl)) with (S (n_free fl)). cbn [firstn]. rewrite G. reflexivity.
Qed.
Lemma fill_unique fl : forall theta full, List.length full = List.length fl -> agrees fl full -> free fl full = theta -> fill fl theta = Ok full.
Proof.
  induction fl as [|[v|] fl IH]; intros theta [|a full] L A E; cbn [List.length] in L; try discriminate.
  - reflexivity.
  - cbn [fill free] in *. rewrite (IH theta full); [|lia| |exact E].
    + cbn [bind]. specialize (A 0%nat v eq_refl). cbn in A. congruence.
    + intros i w H. apply (A (S i) w). exact H.
  - cbn [fill free] in *. subst theta. rewrite (IH (free fl full) full); [reflexivity|lia| |reflexivity]. intros i w H. apply (A (S i) w). exact H.
Qed.
Lemma fill_long fl : forall theta, (n_free fl <= List.length theta)%nat -> exists r, fill fl theta = Ok r.
Proof.
  induction fl as [|[v|] fl IH]; intros theta G; cbn [fill].
  - exists []. reflexivity.
  - destruct (IH theta G) as [r ->]. exists (v :: r). reflexivity.
  - change (n_free (None :: fl)) with (S (n_free fl)) in G. destruct theta as [|t theta]; [cbn in G; lia|]. cbn [List.length] in G.
    destruct (IH theta ltac:(lia)) as [r ->]. exists (t :: r). reflexivity.
Qed.
Lemma fill_short fl : forall theta, (List.length theta < n_free fl)%nat -> fill fl theta = Err IndexError.
Proof.
  induction fl as [|[v|] fl IH]; intros theta G; cbn [fill].
  - cbn in G. lia.
  - rewrite IH by exact G. reflexivity.
  - change (n_free (None :: fl)) with (S (n_free fl)) in G. destruct theta as [|t theta]; [reflexivity|]. cbn [List.length] in G. rewrite IH by lia. reflexivity.
Qed.
Lemma free_length fl : forall args, List.length args = List.length fl -> List.length (free fl args) = n_free fl.
Proof. induction fl as [|[v|] fl IH]; intros [|a args] L; cbn [List.length] in L; try discriminate; [reflexivity|apply IH; lia|]. cbn [free]. unfold n_free. cbn [filter List.length]. f_equal. apply IH. lia. Qed.

(* the names of the parameters *)
Lemma num_keys_in j shapes k : In k (map num_key (seq j (List.length shapes))) -> In k (List.concat (keys_from j shapes)).
Proof.
  revert j. induction shapes as [|s shapes IH]; intros j I; [contradiction|]. rewrite keys_from_cons. cbn [List.length seq map List.concat] in *. apply in_or_app.
  destruct I as [<-|I]; [left; left; reflexivity|right; apply IH; exact I].
Qed.
Lemma num_keys_nodup j shapes : NoDup (List.concat (keys_from j shapes)) -> NoDup (map num_key (seq j (List.length shapes))).
Proof.
  revert j. induction shapes as [|s shapes IH]; intros j U; [constructor|]. rewrite keys_from_cons in U. cbn [List.concat] in U. cbn [List.length seq map]. constructor.
  - intros I. apply (NoDup_disj _ _ (num_key j) U); [left; reflexivity|apply num_keys_in; exact I].
  - apply IH. apply (NoDup_app_r _ _ U).
Qed.
Lemma renamed_num j shapes d : NoDup (List.concat (keys_from j shapes)) ->
  map (renamed j (keys_from j shapes) d) (map num_key (seq j (List.length shapes))) = map (fun names => asked (given d names)) (keys_from j shapes).
Proof.
  revert j. induction shapes as [|s shapes IH]; intros j U; [reflexivity|]. rewrite keys_from_cons in *. cbn [List.concat] in U. cbn [List.length seq map]. f_equal.
  - cbn [renamed]. rewrite String.eqb_refl. reflexivity.
  - rewrite <- IH by apply (NoDup_app_r _ _ U). apply map_ext_in. intros k I. apply num_keys_in in I. cbn [renamed].
    destruct (String.eqb_spec k (num_key j)) as [->|N]; [exfalso; apply (NoDup_disj _ _ (num_key j) U); [left; reflexivity|exact I]|].
    destruct (mem k (shape_keys j s)) eqn:M; [|reflexivity]. exfalso. apply (NoDup_disj _ _ k U); [apply mem_in; exact M|exact I].
Qed.
