(* The whole fit as one equation, and what follows from it. *)
From Coq Require Import Reals String Lia FunctionalExtensionality.
From Verif Require Import Base FitModel FitSpec FitProofs FitProofs2 FitProofs3.
Local Open Scope string_scope.

Definition pick_optimizer (e : env) (v : option pyv) : res optimizer :=
  match v with
  | None => Ok (fmin e)
  | Some (Fun k) => Ok (callable e k)
  | Some (Str s) => match named e (if String.prefix "fmin_" s then s else "fmin_" ++ s) with Some o => Ok o | None => Err ValueError end
  | Some _ => Ok (fun _ _ => Err TypeError)
  end.
Lemma get_optimizer_eq e d : exists d3, get_optimizer e d = (let* o := pick_optimizer e (find "optimizer" d) in Ok (o, d3)) /\ forall k, find k d3 = if String.eqb k "optimizer" then None else find k d.
Proof.
  unfold get_optimizer, pick_optimizer. destruct (find "optimizer" d) as [v|] eqn:F.
  - exists (drop "optimizer" d). split; [|intros k; apply find_drop]. destruct v; try reflexivity. destruct (named e _); reflexivity.
  - exists d. split; [reflexivity|]. intros k. destruct (String.eqb_spec k "optimizer") as [->|N]; [exact F|reflexivity].
Qed.

Lemma places_length fl : forall n, (List.length (places n fl) + n_free fl = List.length fl)%nat.
Proof.
  induction fl as [|[v|] fl IH]; intros n; [reflexivity| |]; cbn [places List.length].
  - change (n_free (Some v :: fl)) with (n_free fl). specialize (IH (S n)). lia.
  - change (n_free (None :: fl)) with (S (n_free fl)). specialize (IH (S n)). lia.
Qed.
Lemma fixed_length shapes kw : List.length (fixed shapes kw) = (List.length shapes + 2)%nat.
Proof. unfold fixed, all_shape_keys. rewrite app_length, !map_length, combine_length, seq_length. cbn. lia. Qed.

Definition leftover (shapes : list string) (args : list pyv) (kw : kwds) : bool := existsb (fun e => negb (mem (fst e) (known shapes args))) kw.
Lemma find_in k d v : find k d = Some v -> In (k, v) d.
Proof. induction d as [|[a w] d IH]; cbn; [discriminate|]. destruct (String.eqb_spec k a) as [->|N]; intros E; [left; congruence|right; auto]. Qed.
Lemma in_find k v d : In (k, v) d -> find k d <> None.
Proof. induction d as [|[a w] d IH]; cbn; [contradiction|]. destruct (String.eqb_spec k a) as [->|N]; intros I; [discriminate|]. destruct I as [E|I]; [congruence|auto]. Qed.
Lemma leftover_spec shapes args kw d : (forall k, find k d = if mem k (known shapes args) then None else find k kw) ->
  match d with [] => false | _ :: _ => true end = leftover shapes args kw.
Proof.
  intros H. unfold leftover. destruct d as [|[k v] d].
  - symmetry. apply not_true_is_false. intros E. apply existsb_exists in E. destruct E as [[k v] [I E]]. cbn [fst] in E.
    specialize (H k). cbn [find] in H. destruct (mem k (known shapes args)); [discriminate|]. symmetry in H. exact (in_find k v kw I H).
  - symmetry. apply existsb_exists. specialize (H k). cbn [find] in H. rewrite String.eqb_refl in H.
    destruct (mem k (known shapes args)) eqn:M; [discriminate|]. exists (k, v). split; [apply find_in; symmetry; exact H|]. cbn [fst]. rewrite M. reflexivity.
Qed.

Definition goal_fn (ff : fit_function) (m : objective) (fl : list (option pyv)) : list pyv -> res R :=
  if Nat.eqb (n_free fl) (List.length fl) then ff m else fun theta => let* new := fill fl theta in ff m new.
Definition whole (fl : list (option pyv)) (vals : list pyv) : res (list pyv) := if Nat.eqb (n_free fl) (List.length fl) then Ok vals else fill fl vals.
Definition fit_rhs (e : env) (ff : fit_function) (shapes : list string) (start args : list pyv) (kw : kwds) : res (list pyv * list nat) :=
  let fl := fixed shapes kw in
  let x := free fl (start_vector shapes start args kw) in
  let* m := choose_objective (find "method" kw) in
  if existsb (twice kw) (all_shape_keys shapes) then Err ValueError
  else if Nat.eqb (n_free fl) 0 then Err ValueError
  else
    let* vals :=
      if searching kw then
        let* opt := pick_optimizer e (find "optimizer" kw) in
        if leftover shapes args kw then Err TypeError else run opt (goal_fn ff m fl) x
      else Ok x in
    let* vals := whole fl vals in
    Ok (vals, places 0 fl).

Lemma known_mem shapes args k : mem k (known shapes args) = (mem k (List.concat (all_shape_keys shapes)) || mem k ["floc"; "fscale"; "method"; "search"; "optimizer"]
  || (String.eqb k "loc" && Nat.ltb (List.length args) (List.length shapes + 1)) || (String.eqb k "scale" && Nat.ltb (List.length args) (List.length shapes + 2)))%bool.
Proof.
  unfold known, mem. rewrite !existsb_app. rewrite !Bool.orb_assoc. f_equal; [f_equal|].
  - destruct (Nat.ltb _ _); cbn [existsb]; rewrite ?Bool.andb_false_r, ?Bool.andb_true_r, ?Bool.orb_false_r; reflexivity.
  - destruct (Nat.ltb _ _); cbn [existsb]; rewrite ?Bool.andb_false_r, ?Bool.andb_true_r, ?Bool.orb_false_r; reflexivity.
Qed.

Lemma run_eq opt F x : (let* (p, flag) := opt F x in let* (p', _) := if Z.eqb flag 0 then Ok (p, flag) else opt F p in Ok p') = run opt F x.
Proof. unfold run. destruct (opt F x) as [[p flag]|]; [|reflexivity]. cbn [bind]. destruct (Z.eqb flag 0); reflexivity. Qed.

Lemma fit_eq e ff shapes start args kw : legal shapes -> List.length start = (List.length shapes + 2)%nat -> (List.length args <= List.length shapes + 2)%nat ->
  fit e ff shapes start args kw = fit_rhs e ff shapes start args kw.
Proof.
  intros LG LS LA. assert (U := NoDup_app_l _ _ LG).
  assert (OK : forall k, In k own_keys -> ~ In k (List.concat (all_shape_keys shapes))) by (intros k I J; exact (NoDup_disj _ _ k LG J I)).
  unfold fit, fit_rhs. cbv zeta. destruct (fitstart_ok shapes start args kw LS LA) as [d [E D]]. rewrite E. cbn [bind].
  set (st := start_vector shapes start args kw) in *. unfold reduce_func2.
  assert (DM : find "method" d = find "method" kw) by (rewrite D; reflexivity). rewrite DM.
  destruct (choose_objective (find "method" kw)) as [m|err]; [|reflexivity]. cbn [bind].
  set (d0 := drop "method" d).
  assert (D0 : forall k, find k d0 = if String.eqb k "method" then None else dropped (List.length shapes) (List.length args) kw k).
  { intros k. unfold d0. rewrite find_drop, D. reflexivity. }
  assert (DS : forall k, In k (List.concat (all_shape_keys shapes)) -> find k d0 = find k kw).
  { intros k I. rewrite D0. unfold dropped. assert (N : forall s, In s own_keys -> String.eqb k s = false).
    { intros s J. apply String.eqb_neq. intros ->. exact (OK s J I). }
    rewrite (N "method"), (N "loc"), (N "scale") by (cbn; tauto). reflexivity. }
  assert (DG : forall names, In names (all_shape_keys shapes) -> given d0 names = given kw names).
  { intros names I. apply given_ext. intros k J. apply DS. apply in_concat. exists names. split; assumption. }
  unfold unpack_args_kwds, convert_fshapes2num.
  assert (CV := convert_from_spec shapes 0 d0 U). change (keys_from 0 shapes) with (all_shape_keys shapes) in CV.
  assert (TW : existsb (twice d0) (all_shape_keys shapes) = existsb (twice kw) (all_shape_keys shapes)).
  { clear - DG. induction (all_shape_keys shapes) as [|n l IH]; [reflexivity|]. cbn [existsb]. rewrite IH by (intros; apply DG; right; assumption).
    unfold twice. rewrite DG by (left; reflexivity). reflexivity. }
  rewrite TW in CV. destruct (existsb (twice kw) (all_shape_keys shapes)); [rewrite CV; reflexivity|].
  destruct CV as [d1 [E1 D1]]. rewrite E1. cbn [bind].
  assert (LST : List.length st = (List.length shapes + 2)%nat) by apply sv_length. rewrite LST. replace (List.length shapes + 2 - 2)%nat with (List.length shapes) by lia.
  assert (UP : NoDup (par_keys (List.length shapes))).
  { unfold par_keys. assert (N1 := num_keys_nodup 0 shapes U).
    assert (N2 : forall k, In k (map num_key (seq 0 (List.length shapes))) -> In k ["floc"; "fscale"] -> False).
    { intros k I J. apply num_keys_in in I. apply (OK k); [cbn in J |- *; tauto|exact I]. }
    revert N1 N2. generalize (map num_key (seq 0 (List.length shapes))) as l. induction l as [|a l IHl]; intros N1 N2.
    - cbn. constructor; [cbn; intros [H|[]]; discriminate|]. constructor; [intros []|constructor].
    - inversion N1; subst. cbn [app]. constructor; [|apply IHl; [assumption|intros k I; apply N2; right; exact I]].
      intros I. apply in_app_or in I. destruct I as [I|I]; [contradiction|]. exact (N2 a (or_introl eq_refl) I). }
  assert (LP : List.length st = List.length (par_keys (List.length shapes))).
  { rewrite LST. unfold par_keys. rewrite app_length, map_length, seq_length. reflexivity. }
  destruct (split_spec (par_keys (List.length shapes)) 0 st d1 UP LP) as [d2 [E2 D2]].
  assert (FL : map (fun k => find k d1) (par_keys (List.length shapes)) = fixed shapes kw).
  { unfold par_keys, fixed. rewrite map_app. f_equal.
    - rewrite (map_ext _ (renamed 0 (all_shape_keys shapes) d0)) by exact D1. change (all_shape_keys shapes) with (keys_from 0 shapes) at 1. rewrite (renamed_num 0 shapes d0 U).
      apply map_ext_in. intros names I. rewrite (DG names I). reflexivity.
    - cbn [map]. rewrite !D1. change (all_shape_keys shapes) with (keys_from 0 shapes). rewrite !renamed_out by (apply OK; cbn; tauto). rewrite !D0. reflexivity. }
  rewrite FL in E2. rewrite E2. cbn [bind]. clear E2.
  set (fl := fixed shapes kw) in *. assert (LF : List.length fl = (List.length shapes + 2)%nat) by apply fixed_length.
  assert (LO : List.length (overlay fl st) = List.length fl) by (apply overlay_length; lia).
  assert (PL := places_length fl 0).
  assert (FIN : forall k, find k d2 = if (mem k (List.concat (all_shape_keys shapes)) || mem k ["floc"; "fscale"; "method"])%bool then None else dropped (List.length shapes) (List.length args) kw k).
  { intros k. rewrite D2, D1. destruct (mem k (par_keys (List.length shapes))) eqn:MP.
    - apply mem_in in MP. unfold par_keys in MP. apply in_app_or in MP. destruct MP as [I|I].
      + apply num_keys_in in I. apply mem_in in I. change (all_shape_keys shapes) with (keys_from 0 shapes). rewrite I. reflexivity.
      + replace (mem k ["floc"; "fscale"; "method"]) with true; [rewrite Bool.orb_true_r; reflexivity|]. symmetry. apply mem_in. cbn in I |- *. tauto.
    - destruct (mem k (List.concat (all_shape_keys shapes))) eqn:MS; cbn [orb].
      + apply mem_in in MS. change (all_shape_keys shapes) with (keys_from 0 shapes) in MS |- *.
        assert (NN : ~ In k (map num_key (seq 0 (List.length shapes)))).
        { intros I. apply mem_out in MP. apply MP. unfold par_keys. apply in_or_app. left. exact I. }
        clear - MS NN. revert MS NN. generalize 0%nat as j. induction shapes as [|s shapes IH]; intros j I NN; [contradiction|].
        rewrite keys_from_cons in *. cbn [renamed List.concat List.length seq map] in *.
        destruct (String.eqb_spec k (num_key j)) as [->|N]; [exfalso; apply NN; left; reflexivity|].
        destruct (mem k (shape_keys j s)) eqn:M; [reflexivity|]. apply in_app_or in I. destruct I as [I|I]; [apply mem_in in I; congruence|].
        apply IH; [exact I|]. intros J. apply NN. right. exact J.
      + apply mem_out in MS. change (all_shape_keys shapes) with (keys_from 0 shapes). rewrite renamed_out by exact MS. rewrite D0.
        destruct (String.eqb_spec k "method") as [->|NM]; [reflexivity|].
        replace (mem k ["floc"; "fscale"; "method"]) with false; [reflexivity|]. symmetry. apply mem_out. intros I. apply mem_out in MP. apply MP.
        unfold par_keys. apply in_or_app. right. cbn in I |- *. destruct I as [I|[I|[I|[]]]]; [tauto|tauto|congruence]. }
  assert (ANY : forall (F : list pyv -> res R) (B : option (list pyv -> res (list pyv))),
    F = goal_fn ff m fl -> (forall v, match B with Some f => f v | None => Ok v end = whole fl v) ->
    (let* vals :=
       if match find "search" d2 with Some v => truth v | None => true end then
         let* (opt, d3) := get_optimizer e (drop "search" d2) in
         match d3 with
         | _ :: _ => Err TypeError
         | [] => let* (p, flag) := opt F (free fl st) in let* (p', _) := if Z.eqb flag 0 then Ok (p, flag) else opt F p in Ok p'
         end
       else Ok (free fl st) in
     let* vals := match B with Some f => f vals | None => Ok vals end in Ok (vals, places 0 fl)) =
    (let* vals :=
       if searching kw then
         let* opt := pick_optimizer e (find "optimizer" kw) in
         if leftover shapes args kw then Err TypeError else run opt (goal_fn ff m fl) (free fl st)
       else Ok (free fl st) in
     let* vals := whole fl vals in Ok (vals, places 0 fl))).
  { intros F B HF HB. unfold searching. assert (FS : find "search" d2 = find "search" kw).
    { rewrite FIN. replace (mem "search" (List.concat (all_shape_keys shapes))) with false by (symmetry; apply mem_out; apply OK; cbn; tauto). reflexivity. }
    rewrite FS. destruct (match find "search" kw with Some v => truth v | None => true end).
    - destruct (get_optimizer_eq e (drop "search" d2)) as [d3 [E3 D3]]. rewrite E3.
      assert (FO : find "optimizer" (drop "search" d2) = find "optimizer" kw).
      { rewrite find_drop. cbn [String.eqb Ascii.eqb Bool.eqb]. rewrite FIN. replace (mem "optimizer" (List.concat (all_shape_keys shapes))) with false by (symmetry; apply mem_out; apply OK; cbn; tauto). reflexivity. }
      rewrite FO. destruct (pick_optimizer e (find "optimizer" kw)) as [opt|]; [|reflexivity]. cbn [bind].
      assert (LV : match d3 with [] => false | _ :: _ => true end = leftover shapes args kw).
      { apply leftover_spec. intros k. rewrite D3, find_drop, FIN, known_mem. unfold dropped, mem. cbn [existsb].
        destruct (existsb (String.eqb k) (List.concat (all_shape_keys shapes))); destruct (String.eqb k "optimizer"); destruct (String.eqb k "search"); destruct (String.eqb k "floc");
        destruct (String.eqb k "fscale"); destruct (String.eqb k "method"); cbn [orb]; try reflexivity;
        destruct (String.eqb k "loc" && _)%bool; destruct (String.eqb k "scale" && _)%bool; reflexivity. }
      destruct d3 as [|x d3]; rewrite <- LV; [|reflexivity]. rewrite run_eq, HF. destruct (run opt (goal_fn ff m fl) (free fl st)) as [v|]; [|reflexivity]. cbn [bind]. rewrite HB. reflexivity.
    - cbn [bind]. rewrite HB. reflexivity. }
  destruct (Nat.eqb_spec (List.length (places 0 fl)) 0) as [Z0|Z0].
  - assert (NF : n_free fl = List.length fl) by lia. cbn [bind rest func x0 back fixedn].
    destruct (Nat.eqb_spec (n_free fl) 0) as [?|_]; [lia|]. apply (ANY (ff m) None).
    + unfold goal_fn. rewrite NF, Nat.eqb_refl. reflexivity.
    + intros v. unfold whole. rewrite NF, Nat.eqb_refl. reflexivity.
  - rewrite LO. destruct (Nat.eqb_spec (List.length (places 0 fl)) (List.length fl)) as [Z1|Z1].
    + destruct (Nat.eqb_spec (n_free fl) 0) as [_|?]; [reflexivity|lia].
    + destruct (Nat.eqb_spec (n_free fl) 0) as [?|_]; [lia|]. cbn [bind rest func x0 back fixedn].
      assert (NE : Nat.eqb (n_free fl) (List.length fl) = false) by (apply Nat.eqb_neq; lia).
      assert (RE : forall theta, restore (places 0 fl) (overlay fl st) theta = fill fl theta) by (intros; apply restore_spec; lia).
      apply (ANY _ (Some (restore (places 0 fl) (overlay fl st)))).
      * unfold goal_fn. rewrite NE. apply FunctionalExtensionality.functional_extensionality. intros theta. rewrite RE. reflexivity.
      * intros v. unfold whole. rewrite NE. apply RE.
Qed.
