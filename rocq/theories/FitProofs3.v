(* A fit in terms of the fixed and the free parameters. *)
From Coq Require Import Reals String Lia.
From Verif Require Import Base FitModel FitSpec FitProofs FitProofs2.
Local Open Scope string_scope.

Lemma sv_nth shapes start args kw i : (i < List.length shapes + 2)%nat -> nth i (start_vector shapes start args kw) Nil = start_value shapes start args kw i.
Proof.
  intros L. unfold start_vector. rewrite (nth_indep _ Nil (start_value shapes start args kw 0)) by (rewrite map_length, seq_length; exact L).
  rewrite (map_nth (start_value shapes start args kw)), seq_nth by exact L. reflexivity.
Qed.
Lemma sv_length shapes start args kw : List.length (start_vector shapes start args kw) = (List.length shapes + 2)%nat.
Proof. unfold start_vector. rewrite map_length, seq_length. reflexivity. Qed.
Lemma sv_intro shapes start args kw l : List.length l = (List.length shapes + 2)%nat ->
  (forall i, (i < List.length shapes + 2)%nat -> nth i l Nil = start_value shapes start args kw i) -> l = start_vector shapes start args kw.
Proof. intros L H. apply (nth_ext _ _ Nil Nil); [rewrite sv_length; exact L|]. intros i I. rewrite sv_nth by lia. apply H. lia. Qed.

Definition dropped (n narg : nat) (kw : kwds) (k : string) : option pyv :=
  if (String.eqb k "loc" && Nat.ltb narg (n + 1))%bool then None else if (String.eqb k "scale" && Nat.ltb narg (n + 2))%bool then None else find k kw.

Lemma skipn_nth {A} (d : A) a : forall i (l : list A), nth i (skipn a l) d = nth (a + i) l d.
Proof. induction a as [|a IH]; intros i [|x l]; try reflexivity; [destruct i; reflexivity|]. cbn. apply IH. Qed.
Lemma firstn_nth {A} (d : A) b : forall i (l : list A), (i < b)%nat -> nth i (firstn b l) d = nth i l d.
Proof. induction b as [|b IH]; intros [|i] [|x l] L; try lia; try reflexivity. cbn. apply IH. lia. Qed.

Lemma sv_args shapes start args kw i : (i < List.length args)%nat -> start_value shapes start args kw i = nth i args Nil.
Proof. intros L. unfold start_value. cbv zeta. destruct (Nat.ltb_spec i (List.length args)); [reflexivity|lia]. Qed.
Lemma sv_start shapes start args kw i : (List.length args <= i)%nat -> (i < List.length shapes)%nat -> start_value shapes start args kw i = nth i start Nil.
Proof.
  intros L M. unfold start_value. cbv zeta. destruct (Nat.ltb_spec i (List.length args)); [lia|].
  destruct (Nat.eqb_spec i (List.length shapes)); [lia|]. destruct (Nat.eqb_spec i (List.length shapes + 1)); [lia|reflexivity].
Qed.
Lemma sv_loc shapes start args kw : (List.length args <= List.length shapes)%nat ->
  start_value shapes start args kw (List.length shapes) = match find "loc" kw with Some v => v | None => nth (List.length shapes) start Nil end.
Proof. intros L. unfold start_value. cbv zeta. destruct (Nat.ltb_spec (List.length shapes) (List.length args)); [lia|]. rewrite Nat.eqb_refl. reflexivity. Qed.
Lemma sv_scale shapes start args kw : (List.length args <= List.length shapes + 1)%nat ->
  start_value shapes start args kw (List.length shapes + 1) = match find "scale" kw with Some v => v | None => nth (List.length shapes + 1) start Nil end.
Proof.
  intros L. unfold start_value. cbv zeta. destruct (Nat.ltb_spec (List.length shapes + 1) (List.length args)); [lia|].
  destruct (Nat.eqb_spec (List.length shapes + 1) (List.length shapes)); [lia|]. rewrite Nat.eqb_refl. reflexivity.
Qed.

Lemma fitstart_many n start args kw : (n + 2 < List.length args)%nat -> fitstart n start args kw = Err TypeError.
Proof. intros L. unfold fitstart. cbv zeta. destruct (Nat.ltb_spec (n + 2) (List.length args)); [reflexivity|lia]. Qed.

Lemma app2_nth (l : list pyv) a b i n : List.length l = n -> (i < n + 2)%nat ->
  nth i ((l ++ [a]) ++ [b]) Nil = if Nat.ltb i n then nth i l Nil else if Nat.eqb i n then a else b.
Proof.
  intros L I. destruct (Nat.ltb_spec i n).
  - rewrite !app_nth1; [reflexivity|lia|rewrite app_length; cbn; lia].
  - destruct (Nat.eqb_spec i n).
    + rewrite app_nth1 by (rewrite app_length; cbn; lia). rewrite app_nth2 by lia. replace (i - List.length l)%nat with 0%nat by lia. reflexivity.
    + rewrite app_nth2 by (rewrite app_length; cbn; lia). rewrite app_length. cbn [List.length]. replace (i - (List.length l + 1))%nat with 0%nat by lia. reflexivity.
Qed.

Lemma fitstart_ok shapes start args kw : let n := List.length shapes in List.length start = (n + 2)%nat -> (List.length args <= n + 2)%nat ->
  exists d, fitstart n start args kw = Ok (start_vector shapes start args kw, d) /\ forall k, find k d = dropped n (List.length args) kw k.
Proof.
  intros n LS LA. unfold fitstart. cbv zeta. destruct (Nat.ltb_spec (n + 2) (List.length args)) as [?|_]; [lia|].
  set (narg := List.length args) in *. rewrite LS. replace (n + 2 - 2)%nat with n by lia.
  assert (LF : List.length (firstn n start) = n) by (rewrite firstn_length; lia).
  assert (LK : List.length (args ++ skipn narg (firstn n start)) = Nat.max narg n) by (rewrite app_length, skipn_length, LF; fold narg; lia).
  destruct (Nat.ltb_spec narg (n + 1)) as [A1|A1].
  - destruct (Nat.ltb_spec narg (n + 2)) as [_|?]; [|lia].
    match goal with |- exists d, Ok ((?l ++ [?a]) ++ [?b], ?dd)%list = _ /\ _ => set (L := l); set (va := a); set (vb := b) end.
    assert (LL : List.length L = n).
    { subst L. destruct (Nat.ltb_spec narg n) as [?|?]; cbn [orb]; [rewrite LK; lia|].
      destruct (negb (has "loc" kw) || negb (has "scale" kw))%bool eqn:O; cbn [andb orb] in *; rewrite ?O; [rewrite LK; lia|].
      fold narg. lia. }
    assert (EA : va = start_value shapes start args kw n).
    { subst va. unfold n. rewrite sv_loc by (fold narg n; lia). destruct (find "loc" kw) as [v|] eqn:F; [reflexivity|].
      assert (HL : has "loc" kw = false) by (unfold has; rewrite F; reflexivity). rewrite HL. cbn [negb andb]. rewrite !Bool.orb_true_r. cbn [orb].
      rewrite LS. fold n. replace (n + 2 - 2)%nat with n by lia. reflexivity. }
    assert (EB : vb = start_value shapes start args kw (n + 1)).
    { subst vb. unfold n. rewrite sv_scale by (fold narg n; lia). rewrite find_drop. cbn [String.eqb Ascii.eqb Bool.eqb].
      destruct (find "scale" kw) as [v|] eqn:F; [reflexivity|]. assert (HL : has "scale" kw = false) by (unfold has; rewrite F; reflexivity). rewrite HL. cbn [negb andb]. rewrite !Bool.orb_true_r.
      rewrite LS. fold n. replace (n + 2 - 1)%nat with (n + 1)%nat by lia. reflexivity. }
    assert (EL : forall i, (i < n)%nat -> nth i L Nil = start_value shapes start args kw i).
    { intros i I. destruct (Nat.lt_ge_cases i narg) as [J|J].
      - rewrite sv_args by exact J. subst L. match goal with |- context [if ?c then _ else _] => destruct c end; [rewrite app_nth1 by exact J|]; reflexivity.
      - rewrite sv_start by (try assumption; lia). subst L. destruct (Nat.ltb_spec narg n) as [?|?]; [|lia]. cbn [orb].
        rewrite app_nth2 by exact J. fold narg. rewrite skipn_nth. replace (narg + (i - narg))%nat with i by lia. apply firstn_nth. exact I. }
    eexists. split.
    + f_equal. f_equal. apply sv_intro.
      * rewrite !app_length. cbn [List.length]. fold n. lia.
      * fold n. intros i I. rewrite (app2_nth L va vb i n LL I). destruct (Nat.ltb_spec i n); [apply EL; assumption|].
        destruct (Nat.eqb_spec i n) as [->|N]; [exact EA|]. replace i with (n + 1)%nat by lia. exact EB.
    + intros k. rewrite !find_drop. unfold dropped. destruct (Nat.ltb_spec narg (n + 1)); [|lia]. destruct (Nat.ltb_spec narg (n + 2)); [|lia].
      rewrite !Bool.andb_true_r. destruct (String.eqb k "loc"); destruct (String.eqb k "scale"); reflexivity.
  - destruct (Nat.ltb_spec narg n) as [?|_]; [lia|]. cbn [orb andb].
    assert (AE : (args ++ skipn narg (firstn n start))%list = args) by (rewrite skipn_all2 by lia; apply app_nil_r).
    destruct (Nat.ltb_spec narg (n + 2)) as [A2|A2].
    + assert (EN : narg = (n + 1)%nat) by lia. cbn [andb].
      assert (AE2 : (if negb (has "scale" kw) then (args ++ skipn narg (firstn n start))%list else args) = args) by (rewrite AE; destruct (has "scale" kw); reflexivity).
      rewrite AE2. eexists. split.
      * f_equal. f_equal. apply sv_intro; [rewrite app_length; cbn [List.length]; fold narg n; lia|]. fold n. intros i I.
        destruct (Nat.lt_ge_cases i narg) as [J|J].
        -- rewrite app_nth1 by exact J. rewrite sv_args by exact J. reflexivity.
        -- rewrite app_nth2 by exact J. fold narg. replace (i - narg)%nat with 0%nat by lia. cbn [nth]. replace i with (n + 1)%nat by lia.
           unfold n. rewrite sv_scale by (fold narg n; lia). destruct (find "scale" kw) as [v|] eqn:F; [reflexivity|]. unfold has. rewrite F. cbn [negb].
           rewrite LS. fold n. replace (n + 2 - 1)%nat with (n + 1)%nat by lia. reflexivity.
      * intros k. rewrite find_drop. unfold dropped. destruct (Nat.ltb_spec narg (n + 1)); [lia|]. destruct (Nat.ltb_spec narg (n + 2)); [|lia].
        rewrite Bool.andb_false_r, Bool.andb_true_r. reflexivity.
    + cbn [andb]. exists kw. split.
      * f_equal. f_equal. apply sv_intro; [fold narg n; lia|]. fold n. intros i I. rewrite sv_args by (fold narg; lia). reflexivity.
      * intros k. unfold dropped. destruct (Nat.ltb_spec narg (n + 1)); [lia|]. destruct (Nat.ltb_spec narg (n + 2)); [lia|].
        rewrite !Bool.andb_false_r. reflexivity.
Qed.
