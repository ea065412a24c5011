(* What a user sees of the fixed and the free parameters. *)
From Coq Require Import Reals String Lia Lra.
From Verif Require Import Base FitModel FitSpec FitProofs FitProofs2 FitProofs3 FitProofs4.
Local Open Scope string_scope.

Lemma too_many e ff shapes start args kw : (List.length shapes + 2 < List.length args)%nat -> fit e ff shapes start args kw = Err TypeError.
Proof. intros L. unfold fit. rewrite fitstart_many by exact L. reflexivity. Qed.
Lemma few e ff shapes start args kw r : fit e ff shapes start args kw = Ok r -> (List.length args <= List.length shapes + 2)%nat.
Proof. intros E. destruct (Nat.le_gt_cases (List.length args) (List.length shapes + 2)) as [L|L]; [exact L|]. rewrite too_many in E by exact L. discriminate. Qed.

(* the pieces of a fit that succeeds *)
Lemma fit_pieces e ff shapes start args kw vals fx : legal shapes -> List.length start = (List.length shapes + 2)%nat -> fit e ff shapes start args kw = Ok (vals, fx) ->
  let fl := fixed shapes kw in
  let x := free fl (start_vector shapes start args kw) in
  exists m p, choose_objective (find "method" kw) = Ok m /\ existsb (twice kw) (all_shape_keys shapes) = false /\ n_free fl <> 0%nat
    /\ (searching kw = true -> exists opt, pick_optimizer e (find "optimizer" kw) = Ok opt /\ leftover shapes args kw = false /\ run opt (goal_fn ff m fl) x = Ok p)
    /\ (searching kw = false -> p = x) /\ whole fl p = Ok vals /\ fx = places 0 fl.
Proof.
  intros LG LS E fl x. rewrite fit_eq in E by (try assumption; apply (few _ _ _ _ _ _ _ E)).
  unfold fit_rhs in E. cbv zeta in E. destruct (choose_objective (find "method" kw)) as [m|]; cbn [bind] in E; [|discriminate].
  destruct (existsb (twice kw) (all_shape_keys shapes)) eqn:TW; [discriminate|]. fold fl x in E. destruct (Nat.eqb_spec (n_free fl) 0) as [?|NF]; [discriminate|].
  exists m. destruct (searching kw).
  - destruct (pick_optimizer e (find "optimizer" kw)) as [opt|] eqn:PO; cbn [bind] in E; [|discriminate].
    destruct (leftover shapes args kw) eqn:LO; [discriminate|]. destruct (run opt (goal_fn ff m fl) x) as [p|] eqn:R; cbn [bind] in E; [|discriminate].
    exists p. destruct (whole fl p) as [v|]; cbn [bind] in E; [|discriminate].
    assert (v = vals /\ fx = places 0 fl) as [-> ->] by (split; congruence).
    repeat split; try assumption; try discriminate. intros _. exists opt. repeat split; assumption.
  - cbn [bind] in E. exists x. destruct (whole fl x) as [v|]; cbn [bind] in E; [|discriminate].
    assert (v = vals /\ fx = places 0 fl) as [-> ->] by (split; congruence). repeat split; try assumption; discriminate.
Qed.

Lemma n_free_all fl : n_free fl = List.length fl -> forall i v, nth_error fl i <> Some (Some v).
Proof.
  intros H i v E. assert (P := places_length fl 0). assert (I : In i (places 0 fl)) by (apply places_in; exists v; split; [lia|rewrite Nat.sub_0_r; exact E]).
  destruct (places 0 fl); [contradiction|]. cbn [List.length] in P. lia.
Qed.
Lemma free_none fl : n_free fl = List.length fl -> forall l, free fl l = firstn (List.length fl) l.
Proof.
  induction fl as [|[v|] fl IH]; intros H l; [reflexivity| |].
  - exfalso. apply (n_free_all _ H 0%nat v). reflexivity.
  - change (n_free (None :: fl)) with (S (n_free fl)) in H. cbn [List.length] in H. destruct l as [|a l]; [reflexivity|]. cbn [free List.length firstn]. rewrite IH by lia. reflexivity.
Qed.
Lemma whole_facts fl p vals : whole fl p = Ok vals -> agrees fl vals /\ free fl vals = firstn (n_free fl) p.
Proof.
  unfold whole. destruct (Nat.eqb_spec (n_free fl) (List.length fl)) as [N|N]; intros E.
  - assert (vals = p) by congruence. subst. split; [intros i v H; exfalso; exact (n_free_all fl N i v H)|]. rewrite N. apply free_none. exact N.
  - destruct (fill_agrees fl p vals E) as [_ [A F]]. split; assumption.
Qed.

Lemma fixed_kept e ff shapes start args kw vals fx : legal shapes -> List.length start = (List.length shapes + 2)%nat -> fit e ff shapes start args kw = Ok (vals, fx) ->
  (forall i v, nth_error (fixed shapes kw) i = Some (Some v) -> nth_error vals i = Some v) /\
  (forall i, In i fx <-> exists v, nth_error (fixed shapes kw) i = Some (Some v)).
Proof.
  intros LG LS E. destruct (fit_pieces e ff shapes start args kw vals fx LG LS E) as [m [p [_ [_ [_ [_ [_ [W ->]]]]]]]].
  destruct (whole_facts _ _ _ W) as [A _]. split; [exact A|]. intros i. rewrite places_in. split; intros [v H].
  - exists v. rewrite Nat.sub_0_r in H. apply H.
  - exists v. split; [lia|]. rewrite Nat.sub_0_r. exact H.
Qed.

Lemma free_found e ff shapes start args kw vals fx : legal shapes -> List.length start = (List.length shapes + 2)%nat -> searching kw = true ->
  fit e ff shapes start args kw = Ok (vals, fx) ->
  let fl := fixed shapes kw in
  exists m opt F p, choose_objective (find "method" kw) = Ok m /\ get_optimizer e (filter (fun kv => String.eqb (fst kv) "optimizer") kw) = Ok (opt, [])
    /\ (forall full, List.length full = List.length fl -> agrees fl full -> F (free fl full) = ff m full)
    /\ run opt F (free fl (start_vector shapes start args kw)) = Ok p /\ free fl vals = firstn (n_free fl) p.
Proof.
  intros LG LS SE E fl. destruct (fit_pieces e ff shapes start args kw vals fx LG LS E) as [m [p [M [_ [_ [S1 [_ [W _]]]]]]]].
  destruct (S1 SE) as [opt [PO [_ R]]]. exists m, opt, (goal_fn ff m fl), p.
  destruct (whole_facts _ _ _ W) as [_ FV]. split; [exact M|]. split; [|split; [|split; [exact R|exact FV]]].
  - assert (FO : find "optimizer" (filter (fun kv => String.eqb (fst kv) "optimizer") kw) = find "optimizer" kw).
    { clear. induction kw as [|[k v] kw IH]; [reflexivity|]. cbn [filter fst]. destruct (String.eqb_spec k "optimizer") as [->|N]; [reflexivity|].
      rewrite IH. cbn [find]. destruct (String.eqb_spec "optimizer" k); [congruence|reflexivity]. }
    destruct (get_optimizer_eq e (filter (fun kv => String.eqb (fst kv) "optimizer") kw)) as [d3 [G D]]. rewrite G, FO, PO. cbn [bind].
    f_equal. f_equal. apply find_nil. intros k. rewrite D. destruct (String.eqb_spec k "optimizer") as [->|N]; [reflexivity|].
    clear - N. induction kw as [|[a v] kw IH]; [reflexivity|]. cbn [filter fst]. destruct (String.eqb_spec a "optimizer") as [->|N']; [|exact IH].
    cbn [find]. destruct (String.eqb_spec k "optimizer"); [congruence|exact IH].
  - intros full L A. unfold goal_fn. destruct (Nat.eqb_spec (n_free fl) (List.length fl)) as [N|N].
    + rewrite free_none by exact N. rewrite firstn_all2 by lia. reflexivity.
    + rewrite (fill_unique fl (free fl full) full L A eq_refl). reflexivity.
Qed.

Lemma no_search e ff shapes start args kw vals fx : legal shapes -> List.length start = (List.length shapes + 2)%nat -> searching kw = false ->
  fit e ff shapes start args kw = Ok (vals, fx) ->
  List.length vals = (List.length shapes + 2)%nat /\ forall i, (i < List.length shapes + 2)%nat ->
    nth i vals Nil = match nth i (fixed shapes kw) None with Some v => v | None => start_value shapes start args kw i end.
Proof.
  intros LG LS SE E. destruct (fit_pieces e ff shapes start args kw vals fx LG LS E) as [m [p [_ [_ [_ [_ [S2 [W _]]]]]]]].
  rewrite (S2 SE) in W. clear S2. set (fl := fixed shapes kw) in *. set (st := start_vector shapes start args kw) in *.
  assert (LF : List.length fl = (List.length shapes + 2)%nat) by apply fixed_length. assert (LV : List.length st = (List.length shapes + 2)%nat) by apply sv_length.
  assert (V : vals = overlay fl st).
  { unfold whole in W. destruct (Nat.eqb_spec (n_free fl) (List.length fl)) as [N|N].
    - assert (vals = free fl st) by congruence. subst vals. rewrite free_none by exact N. rewrite firstn_all2 by lia.
      assert (L : List.length st = List.length fl) by lia. clear - N L. revert L. generalize st as l. induction fl as [|[v|] fl IH]; intros [|a l] L; cbn [List.length] in L; try discriminate; [reflexivity| |].
      + exfalso. apply (n_free_all _ N 0%nat v). reflexivity.
      + cbn [overlay]. rewrite <- IH; [reflexivity| |lia]. change (n_free (None :: fl)) with (S (n_free fl)) in N. cbn [List.length] in N. lia.
    - assert (L : List.length st = List.length fl) by lia. clear - W L. revert vals L W. generalize st as l. induction fl as [|[v|] fl IH]; intros [|a l] vals L W; cbn [List.length] in L; try discriminate.
      + cbn in W |- *. congruence.
      + cbn [free fill overlay] in *. destruct (fill fl (free fl l)) as [r|] eqn:F; cbn [bind] in W; [|discriminate]. rewrite <- (IH l r ltac:(lia) F). congruence.
      + cbn [free fill overlay] in *. destruct (fill fl (free fl l)) as [r|] eqn:F; cbn [bind] in W; [|discriminate]. rewrite <- (IH l r ltac:(lia) F). congruence. }
  subst vals. split; [rewrite overlay_length by lia; exact LF|]. intros i I. rewrite <- sv_nth by exact I. fold st.
  assert (L : List.length st = List.length fl) by lia. rewrite <- LF in I. clear - L I. revert i I L. generalize st as l. induction fl as [|o fl IH]; intros [|a l] i I L; cbn [List.length] in *; try discriminate; [lia|].
  cbn [overlay]. destruct i as [|i]; [destruct o; reflexivity|]. cbn [nth]. apply IH; lia.
Qed.

Lemma two_names e ff shapes start args kw names : legal shapes -> List.length start = (List.length shapes + 2)%nat -> (List.length args <= List.length shapes + 2)%nat ->
  (exists m, choose_objective (find "method" kw) = Ok m) -> In names (all_shape_keys shapes) -> (2 <= List.length (given kw names))%nat -> fit e ff shapes start args kw = Err ValueError.
Proof.
  intros LG LS LA [m M] I G. rewrite fit_eq by assumption. unfold fit_rhs. cbv zeta. rewrite M. cbn [bind].
  replace (existsb (twice kw) (all_shape_keys shapes)) with true; [reflexivity|]. symmetry. apply existsb_exists. exists names. split; [exact I|].
  unfold twice. apply Nat.ltb_lt. lia.
Qed.
Lemma n_free_0 fl : (forall i, (i < List.length fl)%nat -> exists v, nth_error fl i = Some (Some v)) -> n_free fl = 0%nat.
Proof.
  induction fl as [|o fl IH]; intros H; [reflexivity|]. destruct (H 0%nat ltac:(cbn; lia)) as [v E]. cbn in E. assert (o = Some v) by congruence. subst o.
  change (n_free (Some v :: fl)) with (n_free fl). apply IH. intros i I. apply (H (S i)). cbn. lia.
Qed.
Lemma all_fixed e ff shapes start args kw : legal shapes -> List.length start = (List.length shapes + 2)%nat -> (List.length args <= List.length shapes + 2)%nat ->
  (exists m, choose_objective (find "method" kw) = Ok m) -> (forall i, (i < List.length shapes + 2)%nat -> exists v, nth_error (fixed shapes kw) i = Some (Some v)) ->
  fit e ff shapes start args kw = Err ValueError.
Proof.
  intros LG LS LA [m M] A. rewrite fit_eq by assumption. unfold fit_rhs. cbv zeta. rewrite M. cbn [bind].
  destruct (existsb _ _); [reflexivity|]. rewrite n_free_0; [reflexivity|]. intros i I. apply A. rewrite fixed_length in I. exact I.
Qed.
Lemma unknown e ff shapes start args kw k v : legal shapes -> List.length start = (List.length shapes + 2)%nat -> searching kw = true ->
  In (k, v) kw -> ~ In k (known shapes args) -> forall r, fit e ff shapes start args kw <> Ok r.
Proof.
  intros LG LS SE I N [vals fx] E. destruct (fit_pieces e ff shapes start args kw vals fx LG LS E) as [m [p [_ [_ [_ [S1 _]]]]]].
  destruct (S1 SE) as [opt [_ [LO _]]]. unfold leftover in LO. assert (T : existsb (fun e => negb (mem (fst e) (known shapes args))) kw = true).
  { apply existsb_exists. exists (k, v). split; [exact I|]. cbn [fst]. apply mem_out in N. rewrite N. reflexivity. }
  congruence.
Qed.

(* only the known keywords are read when the search is off *)
Lemma misspelt e ff shapes start args kw k v : legal shapes -> List.length start = (List.length shapes + 2)%nat -> (List.length args <= List.length shapes + 2)%nat ->
  searching kw = false -> ~ In k (List.concat (all_shape_keys shapes) ++ own_keys)%list ->
  fit e ff shapes start args ((k, v) :: kw) = fit e ff shapes start args kw.
Proof.
  intros LG LS LA SE N. rewrite !fit_eq by assumption. unfold fit_rhs. cbv zeta.
  assert (FK : forall s, In s (List.concat (all_shape_keys shapes) ++ own_keys)%list -> find s ((k, v) :: kw) = find s kw).
  { intros s I. cbn [find]. destruct (String.eqb_spec s k) as [->|_]; [contradiction|reflexivity]. }
  assert (FO : forall s, In s own_keys -> find s ((k, v) :: kw) = find s kw) by (intros s I; apply FK; apply in_or_app; right; exact I).
  assert (GE : forall names, In names (all_shape_keys shapes) -> given ((k, v) :: kw) names = given kw names).
  { intros names I. apply given_ext. intros s J. apply FK. apply in_or_app. left. apply in_concat. exists names. split; assumption. }
  rewrite (FO "method") by (cbn; tauto).
  assert (FE : fixed shapes ((k, v) :: kw) = fixed shapes kw).
  { unfold fixed. f_equal; [apply map_ext_in; intros names I; rewrite GE by exact I; reflexivity|]. rewrite !FO by (cbn; tauto). reflexivity. }
  assert (TE : existsb (twice ((k, v) :: kw)) (all_shape_keys shapes) = existsb (twice kw) (all_shape_keys shapes)).
  { clear - GE. induction (all_shape_keys shapes) as [|n l IH]; [reflexivity|]. cbn [existsb]. rewrite IH by (intros; apply GE; right; assumption).
    unfold twice. rewrite GE by (left; reflexivity). reflexivity. }
  assert (VE : start_vector shapes start args ((k, v) :: kw) = start_vector shapes start args kw).
  { unfold start_vector. apply map_ext. intros i. unfold start_value. cbv zeta. rewrite !FO by (cbn; tauto). reflexivity. }
  assert (SE' : searching ((k, v) :: kw) = false) by (unfold searching in *; rewrite FO by (cbn; tauto); exact SE).
  rewrite FE, TE, VE, SE, SE'. reflexivity.
Qed.

Lemma none_location e ff shapes start args kw vals fx : legal shapes -> List.length start = (List.length shapes + 2)%nat -> find "floc" kw = Some Nil ->
  fit e ff shapes start args kw = Ok (vals, fx) -> nth_error vals (List.length shapes) = Some Nil.
Proof.
  intros LG LS F E. destruct (fixed_kept e ff shapes start args kw vals fx LG LS E) as [A _]. apply A. unfold fixed.
  rewrite nth_error_app2 by (unfold all_shape_keys; rewrite !map_length, combine_length, seq_length; lia).
  unfold all_shape_keys. rewrite !map_length, combine_length, seq_length. replace (List.length shapes - _)%nat with 0%nat by lia. cbn [nth_error]. rewrite F. reflexivity.
Qed.

Lemma lower1_idem a : lower1 (lower1 a) = lower1 a.
Proof. destruct a as [[] [] [] [] [] [] [] []]; reflexivity. Qed.
Lemma lower_idem s : lower (lower s) = lower s.
Proof. induction s as [|a s IH]; [reflexivity|]. cbn [lower]. rewrite lower1_idem, IH. reflexivity. Qed.
Lemma prefix_app p s : String.prefix p (p ++ s) = true.
Proof. induction p as [|a p IH]; [destruct s; reflexivity|]. cbn. destruct (Ascii.ascii_dec a a); [exact IH|congruence]. Qed.
Lemma lower_app s t : lower (s ++ t) = lower s ++ lower t.
Proof. induction s as [|a s IH]; [reflexivity|]. cbn. rewrite IH. reflexivity. Qed.
Lemma method_case s : choose_objective (Some (Str (lower s))) = choose_objective (Some (Str s)) /\ (exists m, choose_objective (Some (Str s)) = Ok m)
  /\ choose_objective (Some (Str ("mps" ++ s))) = Ok MPS /\ choose_objective (Some (Str ("ml" ++ s))) = Ok ML.
Proof.
  unfold choose_objective. rewrite lower_idem. split; [reflexivity|]. split; [eexists; reflexivity|]. rewrite !lower_app. split; [|reflexivity].
  change (lower "mps") with "mps". rewrite prefix_app. reflexivity.
Qed.
