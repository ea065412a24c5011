(* Lookups in the keyword dictionary through every step of the fit. *)
From Coq Require Import Reals String Lia.
From Verif Require Import Base FitModel FitSpec.
Local Open Scope string_scope.

Lemma find_drop k k' d : find k (drop k' d) = if String.eqb k k' then None else find k d.
Proof.
  induction d as [|[a v] d IH]; [cbn; destruct (String.eqb k k'); reflexivity|].
  unfold drop. cbn [filter fst]. fold (drop k' d). destruct (String.eqb_spec k' a) as [->|N].
  - cbn [negb find]. rewrite IH. destruct (String.eqb k a); reflexivity.
  - cbn [negb find]. rewrite IH. destruct (String.eqb_spec k a) as [->|M]; [|reflexivity]. destruct (String.eqb_spec a k'); [congruence|reflexivity].
Qed.
Lemma find_store k k' v d : find k' d = None -> find k (store k' v d) = if String.eqb k k' then Some v else find k d.
Proof.
  unfold store. intros N. induction d as [|[a w] d IH]; [cbn; destruct (String.eqb k k'); reflexivity|].
  cbn [app find] in *. destruct (String.eqb_spec k' a) as [->|M]; [discriminate|].
  rewrite (IH N). destruct (String.eqb_spec k a) as [->|M']; [|reflexivity]. destruct (String.eqb_spec a k'); [congruence|reflexivity].
Qed.
Lemma find_nil (d : kwds) : (forall k, find k d = None) -> d = [].
Proof. destruct d as [|[k v] d]; [reflexivity|]. intros H. specialize (H k). cbn in H. rewrite String.eqb_refl in H. discriminate. Qed.

Lemma given_ext names d d' : (forall k, In k names -> find k d = find k d') -> given d names = given d' names.
Proof.
  induction names as [|k names IH]; intros H; [reflexivity|]. unfold given. cbn [flat_map]. fold (given d names). fold (given d' names).
  rewrite (H k) by (left; reflexivity). rewrite IH by (intros; apply H; right; assumption). reflexivity.
Qed.
Definition mem (k : string) (l : list string) : bool := existsb (String.eqb k) l.
Lemma mem_in k l : mem k l = true <-> In k l.
Proof.
  unfold mem. rewrite existsb_exists. split.
  - intros [x [I E]]. apply String.eqb_eq in E. subst. exact I.
  - intros I. exists k. split; [exact I|apply String.eqb_refl].
Qed.
Lemma mem_out k l : mem k l = false <-> ~ In k l.
Proof. rewrite <- mem_in. destruct (mem k l); split; congruence. Qed.

Lemma take_spec names d : NoDup names -> fst (take names d) = given d names /\ forall k, find k (snd (take names d)) = if mem k names then None else find k d.
Proof.
  revert d. induction names as [|n names IH]; intros d U; [split; [reflexivity|intros; reflexivity]|].
  inversion U as [|? ? NI U']; subst. cbn [take]. unfold given. cbn [flat_map]. fold (given d names).
  destruct (find n d) as [v|] eqn:F.
  - destruct (IH (drop n d) U') as [A B]. destruct (take names (drop n d)) as [vs d'] eqn:T. cbn [fst snd] in *. split.
    + cbn [app]. f_equal. rewrite A. apply given_ext. intros k I. rewrite find_drop. destruct (String.eqb_spec k n); [subst; contradiction|reflexivity].
    + intros k. rewrite B, find_drop. unfold mem. cbn [existsb]. fold (mem k names). destruct (String.eqb k n); destruct (mem k names); reflexivity.
  - destruct (IH d U') as [A B]. split; [exact A|]. intros k. rewrite B. unfold mem. cbn [existsb]. fold (mem k names).
    destruct (String.eqb_spec k n) as [->|N]; [|reflexivity]. cbn [orb]. rewrite F. destruct (mem n names); reflexivity.
Qed.

(* names of the shapes from the j-th on *)
Definition keys_from (j : nat) (shapes : list string) : list (list string) := map (fun js => shape_keys (fst js) (snd js)) (combine (seq j (List.length shapes)) shapes).
Lemma keys_from_cons j s shapes : keys_from j (s :: shapes) = shape_keys j s :: keys_from (S j) shapes.
Proof. reflexivity. Qed.
Lemma NoDup_app_l {A} (l m : list A) : NoDup (l ++ m) -> NoDup l.
Proof.
  induction l as [|a l IH]; cbn; intros H; [constructor|]. inversion H; subst. constructor; [|auto]. intros I. apply H2. apply in_or_app. left. exact I.
Qed.
Lemma NoDup_app_r {A} (l m : list A) : NoDup (l ++ m) -> NoDup m.
Proof. induction l as [|a l IH]; cbn; intros H; [exact H|]. inversion H; subst. auto. Qed.
Lemma NoDup_disj {A} (l m : list A) x : NoDup (l ++ m) -> In x l -> In x m -> False.
Proof.
  induction l as [|a l IH]; cbn; intros H I J; [contradiction|]. inversion H; subst. destruct I as [->|I]; [|apply IH; assumption].
  apply H2. apply in_or_app. right. exact J.
Qed.

Definition twice (kw : kwds) (names : list string) : bool := Nat.ltb 1 (List.length (given kw names)).
(* the lookups after the shapes from j on have been renamed *)
Fixpoint renamed (j : nat) (keys : list (list string)) (d : kwds) (k : string) : option pyv :=
  match keys with
  | [] => find k d
  | names :: keys' => if String.eqb k (num_key j) then asked (given d names) else if mem k names then None else renamed (S j) keys' d k
  end.
Lemma renamed_ext j keys d d' k : find k d = find k d' ->
  (forall k, In k (List.concat keys) -> find k d = find k d') -> renamed j keys d k = renamed j keys d' k.
Proof.
  intros E H. revert j. induction keys as [|names keys IH]; intros j; [exact E|]. cbn [renamed].
  rewrite (given_ext names d d') by (intros; apply H; cbn; apply in_or_app; left; assumption).
  rewrite IH by (intros; apply H; cbn; apply in_or_app; right; assumption). reflexivity.
Qed.

Lemma renamed_out j shapes d k : ~ In k (List.concat (keys_from j shapes)) -> renamed j (keys_from j shapes) d k = find k d.
Proof.
  revert j. induction shapes as [|s shapes IH]; intros j H; [reflexivity|]. rewrite keys_from_cons in *. cbn [renamed List.concat] in *.
  destruct (String.eqb_spec k (num_key j)) as [->|N]; [exfalso; apply H; apply in_or_app; left; left; reflexivity|].
  destruct (mem k (shape_keys j s)) eqn:M; [exfalso; apply H; apply in_or_app; left; apply mem_in; exact M|].
  apply IH. intros I. apply H. apply in_or_app. right. exact I.
Qed.

Lemma convert_from_spec shapes : forall j d, NoDup (List.concat (keys_from j shapes)) ->
  if existsb (twice d) (keys_from j shapes) then convert_from j shapes d = Err ValueError
  else exists d', convert_from j shapes d = Ok d' /\ forall k, find k d' = renamed j (keys_from j shapes) d k.
Proof.
  induction shapes as [|s shapes IH]; intros j d U; [exists d; split; reflexivity|].
  rewrite keys_from_cons in *. cbn [List.concat] in U.
  assert (U1 := NoDup_app_l _ _ U). assert (U2 := NoDup_app_r _ _ U).
  destruct (take_spec (shape_keys j s) d U1) as [A B]. cbn [existsb convert_from].
  unfold get_fixed_fit_value. destruct (take (shape_keys j s) d) as [vs d1]. cbn [fst snd] in A, B. subst vs.
  assert (NK : find (num_key j) d1 = None).
  { rewrite B. replace (mem (num_key j) (shape_keys j s)) with true; [reflexivity|]. symmetry. apply mem_in. left. reflexivity. }
  assert (K : forall d2 : kwds, (forall k, find k d2 = if String.eqb k (num_key j) then asked (given d (shape_keys j s)) else if mem k (shape_keys j s) then None else find k d) ->
    if existsb (twice d) (keys_from (S j) shapes) then convert_from (S j) shapes d2 = Err ValueError
    else exists d', convert_from (S j) shapes d2 = Ok d' /\ forall k, find k d' = renamed j (shape_keys j s :: keys_from (S j) shapes) d k).
  { intros d2 D. assert (O : forall k, In k (List.concat (keys_from (S j) shapes)) -> find k d2 = find k d).
    { intros k I. rewrite D. destruct (String.eqb_spec k (num_key j)) as [->|N].
      - exfalso. apply (NoDup_disj _ _ (num_key j) U); [left; reflexivity|exact I].
      - destruct (mem k (shape_keys j s)) eqn:M; [|reflexivity]. exfalso. apply (NoDup_disj _ _ k U); [apply mem_in; exact M|exact I]. }
    assert (T : existsb (twice d2) (keys_from (S j) shapes) = existsb (twice d) (keys_from (S j) shapes)).
    { clear - O. induction (keys_from (S j) shapes) as [|n l IHl]; [reflexivity|]. cbn [existsb]. rewrite IHl by (intros; apply O; cbn; apply in_or_app; right; assumption).
      unfold twice. rewrite (given_ext n d2 d) by (intros; apply O; cbn; apply in_or_app; left; assumption). reflexivity. }
    specialize (IH (S j) d2 U2). rewrite T in IH. destruct (existsb (twice d) (keys_from (S j) shapes)); [exact IH|].
    destruct IH as [d' [E F]]. exists d'. split; [exact E|]. intros k. rewrite F. cbn [renamed].
    destruct (String.eqb k (num_key j)) eqn:K1.
    - apply String.eqb_eq in K1. subst k. rewrite renamed_out; [|intros I; apply (NoDup_disj _ _ (num_key j) U); [left; reflexivity|exact I]].
      rewrite D, String.eqb_refl. reflexivity.
    - destruct (mem k (shape_keys j s)) eqn:K2.
      + rewrite renamed_out; [|intros I; apply (NoDup_disj _ _ k U); [apply mem_in; exact K2|exact I]]. rewrite D, K1, K2. reflexivity.
      + apply renamed_ext; [|exact O]. rewrite D, K1, K2. reflexivity. }
  assert (TW : twice d (shape_keys j s) = Nat.ltb 1 (List.length (given d (shape_keys j s)))) by reflexivity.
  rewrite TW. assert (AS := eq_refl (asked (given d (shape_keys j s)))). unfold asked at 1 in AS.
  destruct (given d (shape_keys j s)) as [|v [|w vs]].
  - cbn [List.length Nat.ltb Nat.leb orb bind]. apply K. intros k. rewrite B. destruct (String.eqb_spec k (num_key j)) as [->|N]; [|reflexivity]. rewrite <- B. exact NK.
  - cbn [List.length Nat.ltb Nat.leb orb bind]. apply K. intros k.
    destruct v; try (rewrite find_store by exact NK; destruct (String.eqb k (num_key j)); [reflexivity|apply B]).
    rewrite B. destruct (String.eqb_spec k (num_key j)) as [->|N]; [|reflexivity]. rewrite <- B. exact NK.
  - cbn [List.length Nat.ltb Nat.leb orb bind]. reflexivity.
Qed.
